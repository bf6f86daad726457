(* Model of CQuadraticProgram, the object that carries a QP to qpOASES.

   A step returns None when the C++ code has undefined behaviour: an assignment to an Eigen::Map of
   another size, or the read of a flag that was never written.  qpOASES is an oracle with a state;
   its calls are recorded as events.  An array that is handed over without having been written is
   the argument Garbage.
   Simplified: printing is not modelled; of the options only MPC / reliable is kept; memory for the
   arrays on the stack is assumed sufficient. *)
From Coq Require Import List Arith ZArith Bool Lia.
Import ListNotations.
Local Open Scope nat_scope.

Section QPW.
(* double *)
Context {E : Type} (zero : E).

(* Eigen MatrixXd, VectorXd *)
Record mat := Mat { rows : nat; cols : nat; ment : nat -> nat -> E }.
Record vec := Vec { vsize : nat; vent : nat -> E }.
Definition mzero (r c : nat) : mat := Mat r c (fun _ _ => zero).      (* resize; setZero *)
Definition vzero (n : nat) : vec := Vec n (fun _ => zero).
Definition msized (M : mat) (r c : nat) : bool := (rows M =? r) && (cols M =? c).
Definition vsized (v : vec) (n : nat) : bool := vsize v =? n.

(* the arguments of SQProblem::init and hotstart, src/qp_wrapper.cpp:243-296, 321-337 *)
Inductive arg := Null | Garbage | Ptr (v : vec).
Record call := Call {
  k_H : mat; k_g : vec;
  k_A : option mat;                  (* None: null pointer *)
  k_lb : arg; k_ub : arg; k_lbA : arg; k_ubA : arg
}.
Inductive opts := OptMPC | OptReliable.
Inductive kind := KInit | KHot.

(* qpOASES: the constructor; init and hotstart return the new state, success, and the value left in
   nWSR, which they take by reference; getPrimalSolution *)
Context {S : Type} (snew : nat -> nat -> S) (sdefault : S)
        (srun : kind -> S -> opts -> call -> Z -> S * bool * Z) (ssol : S -> bool * vec).

(* include/dwbc_qp_wrapper.h:52-67.  The three flags are None until first written. *)
Record qpw := QPW {
  w_s : S;                           (* _QPprob *)
  w_init : bool;                     (* _bInitialized *)
  w_nv : nat; w_nc : nat;            (* _num_var, _num_cons *)
  w_H : mat; w_g : vec; w_A : mat; w_lbA : vec; w_ubA : vec; w_lb : vec; w_ub : vec;
  w_ax : option bool;                (* _bool_constraint_Ax *)
  w_axub : option bool;              (* _bool_constraint_AxUb *)
  w_x : option bool                  (* _bool_constraint_x *)
}.

(* src/qp_wrapper.cpp:6-19 *)
Definition fresh : qpw :=
  QPW sdefault false 1 1 (mzero 0 0) (vzero 0) (mzero 0 0) (vzero 0) (vzero 0) (vzero 0) (vzero 0)
      None None None.

(* src/qp_wrapper.cpp:21-31 *)
Definition CheckProblemSize (w : qpw) (nv nc : nat) : bool := (w_nv w =? nv) && (w_nc w =? nc).

(* src/qp_wrapper.cpp:33-56 *)
Definition InitializeProblemSize (nv nc : nat) : qpw :=
  QPW (snew nv nc) false nv nc (mzero nv nv) (vzero nv) (mzero nc nv) (vzero nc) (vzero nc)
      (vzero nv) (vzero nv) (Some false) (Some false) (Some false).

(* src/qp_wrapper.cpp:58-62 *)
Definition UpdateMinProblem (w : qpw) (H : mat) (g : vec) : qpw :=
  QPW (w_s w) (w_init w) (w_nv w) (w_nc w) H g (w_A w) (w_lbA w) (w_ubA w) (w_lb w) (w_ub w)
      (w_ax w) (w_axub w) (w_x w).

(* src/qp_wrapper.cpp:64-70 *)
Definition UpdateSubjectToAxUb (w : qpw) (A : mat) (ub : vec) : qpw :=
  QPW (w_s w) (w_init w) (w_nv w) (w_nc w) (w_H w) (w_g w) A (w_lbA w) ub (w_lb w) (w_ub w)
      (Some true) (Some true) (w_x w).

(* src/qp_wrapper.cpp:72-78 *)
Definition UpdateSubjectToAx (w : qpw) (A : mat) (lb ub : vec) : qpw :=
  QPW (w_s w) (w_init w) (w_nv w) (w_nc w) (w_H w) (w_g w) A lb ub (w_lb w) (w_ub w)
      (Some true) (w_axub w) (w_x w).

(* src/qp_wrapper.cpp:80-85 *)
Definition UpdateSubjectToX (w : qpw) (lb ub : vec) : qpw :=
  QPW (w_s w) (w_init w) (w_nv w) (w_nc w) (w_H w) (w_g w) (w_A w) (w_lbA w) (w_ubA w) lb ub
      (w_ax w) (w_axub w) (Some true).

(* src/qp_wrapper.cpp:87-90 *)
Definition DeleteSubjectToAx (w : qpw) : qpw :=
  QPW (w_s w) (w_init w) (w_nv w) (w_nc w) (w_H w) (w_g w) (w_A w) (w_lbA w) (w_ubA w) (w_lb w) (w_ub w)
      (Some false) (w_axub w) (w_x w).

(* src/qp_wrapper.cpp:92-95 *)
Definition DeleteSubjectToX (w : qpw) : qpw :=
  QPW (w_s w) (w_init w) (w_nv w) (w_nc w) (w_H w) (w_g w) (w_A w) (w_lbA w) (w_ubA w) (w_lb w) (w_ub w)
      (w_ax w) (w_axub w) (Some false).

(* _QPprob and _bInitialized after a solve *)
Definition setSolver (w : qpw) (s : S) (i : bool) : qpw :=
  QPW s i (w_nv w) (w_nc w) (w_H w) (w_g w) (w_A w) (w_lbA w) (w_ubA w) (w_lb w) (w_ub w)
      (w_ax w) (w_axub w) (w_x w).

(* src/qp_wrapper.cpp:194-224: the copies into the arrays, and 243-262: which of them are passed.
   _bool_constraint_AxUb is only read when _bool_constraint_Ax is set. *)
Definition arguments (w : qpw) : option call :=
  let nv := w_nv w in
  let nc := w_nc w in
  if msized (w_H w) nv nv && vsized (w_g w) nv then
    match w_ax w, w_x w with
    | Some ax, Some x =>
        if (if x then vsized (w_lb w) nv && vsized (w_ub w) nv else true) then
          let lb := if x then Ptr (w_lb w) else Null in
          let ub := if x then Ptr (w_ub w) else Null in
          if ax then
            match w_axub w with
            | Some axub =>
                if msized (w_A w) nc nv && vsized (w_ubA w) nc && (axub || vsized (w_lbA w) nc) then
                  Some (Call (w_H w) (w_g w) (Some (w_A w)) lb ub
                             (if axub then Garbage else Ptr (w_lbA w)) (Ptr (w_ubA w)))
                else None
            | None => None
            end
          else Some (Call (w_H w) (w_g w) None lb ub Null Null)
        else None
    | _, _ => None
    end
  else None.

(* what can be seen of the wrapper from outside and by qpOASES *)
Inductive ev :=
| ENew (nv nc : nat)                                         (* SQProblem(nv, nc) *)
| ECall (k : kind) (o : opts) (a : call) (n : Z) (ok : bool) (* init / hotstart, success *)
| ESol (ok : bool)                                           (* getPrimalSolution *)
| ERet (r : Z) (x : vec).                                    (* return value, solv *)

(* src/qp_wrapper.cpp:192-380 *)
Definition SolveQPoases (w : qpw) (n : Z) (mpc : bool) : option (qpw * list ev) :=
  match arguments w with
  | None => None
  | Some a =>
      let o := if mpc then OptMPC else OptReliable in
      let k := if w_init w then KHot else KInit in
      let '(s1, ok1, n1) := srun k (w_s w) o a n in
      let '(s2, ok2, evs) :=
        if ok1 then (s1, true, [ECall k o a n true])
        else
          let n2 := (n1 * 10)%Z in
          let '(s2, ok2, _) := srun KInit (snew (w_nv w) (w_nc w)) OptReliable a n2 in
          (s2, ok2, [ECall k o a n false; ENew (w_nv w) (w_nc w); ECall KInit OptReliable a n2 ok2]) in
      let '(scs, x) := ssol s2 in
      Some (setSolver w s2 true, evs ++ [ESol scs; ERet (if ok2 && scs then 1 else 0)%Z x])
  end.

(* the public interface *)
Inductive op :=
| OInit (nv nc : nat)
| OMin (H : mat) (g : vec)
| OAx (A : mat) (lb ub : vec)
| OAxUb (A : mat) (ub : vec)
| OX (lb ub : vec)
| ODelAx | ODelX
| OSolve (n : Z) (mpc : bool).

Definition step (w : qpw) (o : op) : option (qpw * list ev) :=
  match o with
  | OInit nv nc => Some (InitializeProblemSize nv nc, [ENew nv nc])
  | OMin H g => Some (UpdateMinProblem w H g, [])
  | OAx A lb ub => Some (UpdateSubjectToAx w A lb ub, [])
  | OAxUb A ub => Some (UpdateSubjectToAxUb w A ub, [])
  | OX lb ub => Some (UpdateSubjectToX w lb ub, [])
  | ODelAx => Some (DeleteSubjectToAx w, [])
  | ODelX => Some (DeleteSubjectToX w, [])
  | OSolve n mpc => SolveQPoases w n mpc
  end.

Fixpoint exec (w : qpw) (os : list op) : option (qpw * list ev) :=
  match os with
  | [] => Some (w, [])
  | o :: os' =>
      match step w o with
      | None => None
      | Some (w1, t1) =>
          match exec w1 os' with
          | None => None
          | Some (w2, t2) => Some (w2, t1 ++ t2)
          end
      end
  end.

(* src/dwbc.cpp:1063-1080 (and 1247-1264, 1531-1546, 3564-3581, 3722-3739, 4271-4290): how the
   library uses the object for one cycle.  1531-1546 has no DeleteSubjectToX. *)
Definition cycle (w : qpw) (init : bool) (nv nc : nat) (H : mat) (g : vec) (A : mat) (lb ub : vec)
    (n : Z) (mpc : bool) : list op :=
  (if CheckProblemSize w nv nc && negb init then [] else [OInit nv nc])
  ++ [OMin H g; OAx A lb ub; ODelX; OSolve n mpc].
End QPW.
Arguments mat : clear implicits.
Arguments vec : clear implicits.
