(* Vocabulary of the theorems on the hierarchical torque of the reduced model *)
From mathcomp Require Import all_ssreflect all_algebra.
From Verif Require Import DMat DMatL Cone_Model Cone_Spec QP_Model QP_Spec RTq_Model.
Set Implicit Arguments.
Unset Strict Implicit.
Unset Printing Implicit Defensive.
Import Order.TTheory GRing.Theory Num.Theory.
Local Open Scope ring_scope.

Section RTqSpec.
Variable R : realFieldType.
Implicit Types (rb : rrobot R) (s : rtask R).

(* sizes after ReducedDynamicsCalculate, ReducedCalcContactConstraint and ReducedCalcGravCompensation with c
   contact joints, n others and K active plane contacts *)
Definition rb_sized rb (c n K : nat) : Prop :=
  [/\ w_m rb = (c + n)%N, w_co rb = c, w_nc rb = n, w_vc rb = (6 + c)%N &
  [/\ w_rm rb = (c + 6)%N, rd_sized (rd_of rb) (c + 6) K, dims (w_Jb rb) (c + 6) 6, dims (w_JIT rb) 6 n &
  [/\ dims (w_JI rb) 6 n, dims (w_NI rb) n n & dims (w_AN rb) (6 + c + n) (6 + c + n)]]].

(* a task of t dimensions that moves contact joints *)
Definition con_sized (c t : nat) s : Prop :=
  [/\ u_nc s = false, dims (u_f s) t 1, dims (u_Jkt s) (c + 6) t & dims (u_Lam s) t t].

(* a task of t dimensions on the non-contact joints *)
Definition nc_sized (c n t : nat) s : Prop :=
  [/\ u_nc s, dims (u_f s) t 1, dims (u_J s) t (6 + c + n), dims (u_JNC s) t n & dims (u_Lam s) t t].

(* the null-space matrices after ReducedCalcTaskSpace, which does not write the one of the last task *)
Fixpoint nulls_sized (c : nat) (ts : seq (rtask R)) : Prop :=
  match ts with
  | [::] => True
  | s :: ts' => (ts' <> [::] -> dims (u_Null s) (c + 6) (c + 6)) /\ nulls_sized c ts'
  end.

(* the torque of the reduced model that torque_task_ carries out: torque_task_R_, and the correction of the
   non-contact QP on the contact joints *)
Definition applied rb (c : nat) (res : rresult R) : 'cV[R]_(c + 6) :=
  mx_of (c + 6) 1 (z_R res) +
  col_mx (if z_fqp res is Some f then usubmx (mx_of (c + 6) 6 (w_Jb rb)) *m mx_of 6 1 f else 0) 0.

(* torque_task_ is the distribution of reduced torque tR and null-space torque tN *)
Definition distributed rb (c n : nat) (t : 'cV[R]_(c + n)) (tR : 'cV[R]_(c + 6)) (tN : 'cV[R]_n) : Prop :=
  t = col_mx (usubmx tR) ((mx_of 6 n (w_JI rb))^T *m dsubmx tR + mx_of n n (w_NI rb) *m tN).

(* the data of a task that the torque computation must not change *)
Definition same_rtask s s' : Prop :=
  [/\ u_nc s' = u_nc s, u_nch s' = u_nch s, u_J s' = u_J s, u_JNC s' = u_JNC s &
  [/\ u_Lam s' = u_Lam s, u_f s' = u_f s, u_Jkt s' = u_Jkt s & u_Null s' = u_Null s]].

(* the accumulated torque of contact tasks 0, 1, ...: the first acts through N, task i+1 through the null-space
   matrix of task i; with the corrections of the QPs (qp) or without *)
Fixpoint sum_rlevels (qp : bool) (m : nat) (N : 'M[R]_m) (l : seq (rtask R)) : 'cV[R]_m :=
  match l with
  | [::] => 0
  | s :: l' =>
      let t := nr (u_f s) in
      N *m (mx_of m t (u_Jkt s) *m mx_of t t (u_Lam s) *m (mx_of t 1 (u_f s) + (if qp then mx_of t 1 (u_fqp s) else 0)))
      + sum_rlevels qp (mx_of m m (u_Null s)) l'
  end.

(* nc_heirarchy_ of consecutive non-contact tasks of one link each: 0, then not 0 *)
Definition nch_ok (ns : seq (rtask R)) : Prop :=
  if ns is s :: ns' then u_nch s = 0%N /\ List.Forall (fun s => u_nch s <> 0%N) ns' else True.
End RTqSpec.
