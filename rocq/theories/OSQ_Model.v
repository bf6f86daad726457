(* The OsqpEigen::Solver object that a level of the hierarchy holds by pointer, and the calls
   HQP_Hierarch::solveOSQP makes on it.  src/dwbc_hqp.cpp:475 creates the object in initialize; nothing deletes or
   clears it (solver_init, 466, is never set, so the destructor 436-440 does nothing).
   OsqpEigen itself is external; the functions below follow its documented behaviour.  Every return value is
   ignored by solveOSQP. *)
From mathcomp Require Import all_ssreflect all_algebra.
From Verif Require Import DMat HQP_Model.
Set Implicit Arguments.
Unset Strict Implicit.
Unset Printing Implicit Defensive.
Import GRing.Theory Num.Theory.
Local Open Scope ring_scope.

Section OSQModel.
Variable R : realFieldType.
Local Notation dm := (dm R).
Local Notation level := (level R).
Local Notation oqp := (oqp R).

(* the object new OsqpEigen::Solver() of src/dwbc_hqp.cpp:475: its Data, and the OSQP workspace, None before initSolver.
   The lower bounds are always -INFTY (589) and left out. *)
Record solver := Solver {
  s_n : nat; s_m : nat;
  s_H : option dm; s_g : option dm; s_A : option dm; s_ub : option dm;
  s_work : option oqp
}.
(* src/dwbc_hqp.cpp:475 *)
Definition fresh_solver : solver := Solver 0 0 None None None None None.

(* src/dwbc_hqp.cpp:594-595, setNumberOfVariables, setNumberOfConstraints *)
Definition setNumbers (s : solver) n m := Solver n m (s_H s) (s_g s) (s_A s) (s_ub s) (s_work s).
(* src/dwbc_hqp.cpp:597, setHessianMatrix: refuses when a Hessian is set already, and when the size is wrong *)
Definition setHessianMatrix (s : solver) H :=
  if s_H s is Some _ then s else
  if sized H (s_n s) (s_n s) then Solver (s_n s) (s_m s) (Some H) (s_g s) (s_A s) (s_ub s) (s_work s) else s.
(* src/dwbc_hqp.cpp:598, setGradient: replaces, size permitting *)
Definition setGradient (s : solver) g :=
  if sized g (s_n s) 1 then Solver (s_n s) (s_m s) (s_H s) (Some g) (s_A s) (s_ub s) (s_work s) else s.
(* src/dwbc_hqp.cpp:599, setLinearConstraintsMatrix: refuses when a matrix is set already *)
Definition setLinearConstraintsMatrix (s : solver) A :=
  if s_A s is Some _ then s else
  if sized A (s_m s) (s_n s) then Solver (s_n s) (s_m s) (s_H s) (s_g s) (Some A) (s_ub s) (s_work s) else s.
(* src/dwbc_hqp.cpp:600, setUpperBound: replaces, size permitting *)
Definition setUpperBound (s : solver) ub :=
  if sized ub (s_m s) 1 then Solver (s_n s) (s_m s) (s_H s) (s_g s) (s_A s) (Some ub) (s_work s) else s.
(* src/dwbc_hqp.cpp:607, initSolver: refuses when initialised already, or when something is not set; otherwise OSQP
   copies the problem into its workspace *)
Definition initSolver (s : solver) :=
  if s_work s is Some _ then s else
  match s_H s, s_g s, s_A s, s_ub s with
  | Some H, Some g, Some A, Some ub => Solver (s_n s) (s_m s) (s_H s) (s_g s) (s_A s) (s_ub s) (Some (OQP H g A ub))
  | _, _, _, _ => s
  end.

(* src/dwbc_hqp.cpp:617-620: the updates act on the workspace; they fail when there is none or the size differs *)
Definition setWork (s : solver) w := Solver (s_n s) (s_m s) (s_H s) (s_g s) (s_A s) (s_ub s) (Some w).
Definition same_dims (M N : dm) : bool := sized M (nr N) (nc N).
(* src/dwbc_hqp.cpp:617 *)
Definition updateGradient (s : solver) g :=
  if s_work s is Some w then if same_dims g (o_g w) then setWork s (OQP (o_H w) g (o_A w) (o_ub w)) else s else s.
(* src/dwbc_hqp.cpp:618 *)
Definition updateUpperBound (s : solver) ub :=
  if s_work s is Some w then if same_dims ub (o_ub w) then setWork s (OQP (o_H w) (o_g w) (o_A w) ub) else s else s.
(* src/dwbc_hqp.cpp:619 *)
Definition updateHessianMatrix (s : solver) H :=
  if s_work s is Some w then if same_dims H (o_H w) then setWork s (OQP H (o_g w) (o_A w) (o_ub w)) else s else s.
(* src/dwbc_hqp.cpp:620 *)
Definition updateLinearConstraintsMatrix (s : solver) A :=
  if s_work s is Some w then if same_dims A (o_A w) then setWork s (OQP (o_H w) (o_g w) A (o_ub w)) else s else s.

(* src/dwbc_hqp.cpp:583-631, solveOSQP: the object afterwards.  q: sH_, qp_g_, sA_, qp_ubA_.  Simplified:
   qp_variable_size_ and qp_constraint_size_ are read off q, whose members have just been sized with them *)
Definition solveOSQP (s : solver) (q : oqp) (init : bool) : solver :=
  if init then
    let s1 := setNumbers s (nr (o_g q)) (nr (o_ub q)) in
    let s2 := setHessianMatrix s1 (o_H q) in
    let s3 := setGradient s2 (o_g q) in
    let s4 := setLinearConstraintsMatrix s3 (o_A q) in
    let s5 := setUpperBound s4 (o_ub q) in
    initSolver s5
  else
    let s1 := updateGradient s (o_g q) in
    let s2 := updateUpperBound s1 (o_ub q) in
    let s3 := updateHessianMatrix s2 (o_H q) in
    updateLinearConstraintsMatrix s3 (o_A q).

(* solveProblem and getSolution, src/dwbc_hqp.cpp:608-610, 622-623: OSQP's answer for the problem of its workspace;
   best None is whatever getSolution returns without one *)
Variable best : option oqp -> (nat -> R).
(* src/dwbc_hqp.cpp:583-631: the answer of level i, whose solver object is st i *)
Definition osqp_of (st : nat -> solver) (i : nat) (init : bool) (q : oqp) : nat -> R :=
  best (s_work (solveOSQP (st i) q init)).
(* the solver objects after the levels 1, 2, ... of hs' have been solved, src/dwbc_hqp.cpp:397-403 *)
Definition after (st : nat -> solver) (d : level) (hs' : seq level) (init : bool) : nat -> solver :=
  fun i => if (0 < i < size hs')%N then solveOSQP (st i) (osqp_problem (nth d hs' i)) init else st i.
(* src/dwbc_hqp.cpp:397-403, HQP::solveSequential with the solver objects made explicit *)
Definition solveSequentialS (st : nat -> solver) (d : level) (hs : seq level) (init : bool) :=
  if solveSequential (osqp_of st) hs init is Some hs' then Some (after st d hs' init, hs') else None.
(* src/dwbc_hqp.cpp:222-289, HQP::solvefirst, the object of level 0 *)
Definition solvefirstS (st : nat -> solver) (n : nat) (hs : seq level) (init : bool) :=
  if solvefirst (osqp_of st) n hs init is Some (l :: hs')
  then Some ((fun i => if i == 0%N then solveOSQP (st 0%N) (osqp_problem l) init else st i), l :: hs') else None.
(* the oracle of HQP_Model: OSQP answers for the problem it is given *)
Definition ideal (i : nat) (init : bool) (q : oqp) : nat -> R := best (Some q).
End OSQModel.
