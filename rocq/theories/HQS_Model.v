(* Model of HQP_Hierarch::solve (src/dwbc_hqp.cpp:633-656), the qpOASES back end of a level of the hierarchy, with the
   bounds qp_lb_ and qp_ub_ that solveSequentialSingle and solvefirst prepare and only this back end hands to the solver.
   Extends HQP_Model.  The wrapper object that carries the problem to the solver is QPW_Model; here it is the problem
   that counts.  Simplified: exact arithmetic; a bound of INFTY or more (qp_lbA_ after solveOSQP: -OsqpEigen::INFTY)
   is no bound, as qpOASES treats it. *)
From mathcomp Require Import all_ssreflect all_algebra.
From Verif Require Import DMat Cone_Model QP_Model HQP_Model.
Set Implicit Arguments.
Unset Strict Implicit.
Unset Printing Implicit Defensive.
Import Order.TTheory GRing.Theory Num.Theory.
Local Open Scope ring_scope.

Section HQSModel.
Variable R : realFieldType.
Local Notation level := (level R).

(* lb.segment(i, h).setZero() *)
Definition lsetzero (l : lbv R) (i h : nat) : option (lbv R) :=
  if (i + h <= lsize l)%N
  then Some (LBV (lsize l) (fun k => if (i <= k < i + h)%N then Some 0 else lent l k)) else None.

(* qp_lb_ as src/dwbc_hqp.cpp:312, 331 (solveSequentialSingle, ns = null_space_size_ of the level above) and 237, 250
   (solvefirst, ns = dec_var_size) set it: no bound, and zero for the slacks.  qp_ub_ (313, 238) is no bound at all *)
Definition level_lb (ns nin : nat) : option (lbv R) :=
  let l := LBV (ns + nin) (fun=> None) in
  if (0 < nin)%N then lsetzero l ns nin else Some l.

(* what HQP_Hierarch::solve hands to qpOASES, src/dwbc_hqp.cpp:641-645: the matrices as they are, not their sparseView;
   qp_lbA_ is -INFTY everywhere *)
Definition solve_problem (ns : nat) (l : level) : option (oqp R * lbv R) :=
  lb <- level_lb ns (l_nin l) ;; Some (OQP (l_qH l) (l_qg l) (l_qA l) (l_qub l), lb).
End HQSModel.
