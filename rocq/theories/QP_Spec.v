(* Specification: feasible / optimal points of a QP, admissible joint torques. *)
From mathcomp Require Import all_ssreflect all_algebra.
From Verif Require Import DMat DMatL Cone_Model Cone_Spec QP_Model.
Set Implicit Arguments.
Unset Strict Implicit.
Unset Printing Implicit Defensive.
Import Order.TTheory GRing.Theory Num.Theory.
Local Open Scope ring_scope.

Section QPSpec.
Variable R : realFieldType.
Local Notation qp := (qp R).
Local Notation rdata := (rdata R).
Local Notation tspace := (tspace R).
Local Notation pcontact := (pcontact R).

(* the matrices of the problem fit together: n variables *)
Definition qp_wf (q : qp) (n : nat) : Prop :=
  [/\ dims (q_H q) n n, dims (q_g q) n 1, nc (q_A q) = n,
      lsize (q_lb q) = nr (q_A q) & dims (q_ub q) (nr (q_A q)) 1].

(* lb <= A x <= ub *)
Definition qp_feasible (q : qp) (x : nat -> R) : Prop :=
  forall i, (i < nr (q_A q))%N ->
    (forall l, lent (q_lb q) i = Some l -> l <= rowdot (q_A q) i x) /\
    rowdot (q_A q) i x <= ent (q_ub q) i 0.

(* 1/2 x'Hx + g'x *)
Definition qp_cost (q : qp) (x : nat -> R) : R :=
  1 / 2%:R * (\sum_(0 <= i < nr (q_H q)) \sum_(0 <= j < nc (q_H q)) x i * ent (q_H q) i j * x j)
  + \sum_(0 <= i < nr (q_g q)) ent (q_g q) i 0 * x i.

Definition qp_optimal (q : qp) (x : nat -> R) : Prop :=
  qp_feasible q x /\ forall y, qp_feasible q y -> qp_cost q x <= qp_cost q y.

(* the contact force of joint torque tau: J_C_INV_T (0; tau) - P_C, stacked over the K active
   plane contacts *)
Definition contact_force (rd : rdata) (m K : nat) (tau : 'cV[R]_m) : nat -> R :=
  fun j => ent (of_mx (mx_of (6 * K) (6 + m) (r_JcT rd) *m col_mx 0 tau - mx_of (6 * K) 1 (r_PC rd))) j 0.

(* torque limits (if set) and the contact cone of every active contact *)
Definition admissible (rd : rdata) (d : pcontact) (m K : nat) (tau : 'cV[R]_m) : Prop :=
  (r_lset rd -> forall i : 'I_m, `|tau i 0| <= ent (r_lim rd) i 0) /\
  (forall k, (k < K)%N ->
     in_cone (nth d (actives (r_cc rd)) k)
       (blk3 (contact_force rd K tau) (6 * k)) (blk3 (contact_force rd K tau) (6 * k + 3))).

(* sizes after SetContact, CalcContactConstraint and CalcGravCompensation with K active plane
   contacts and m joints.  NwJw has 6K - 6 columns if K >= 2; no assumption for K <= 1. *)
Definition rd_sized (rd : rdata) (m K : nat) : Prop :=
  [/\ r_m rd = m, size (actives (r_cc rd)) = K,
      List.Forall (fun c => p_on c -> plane c) (r_cc rd),
      (r_lset rd -> dims (r_lim rd) m 1) &
  [/\ dims (r_JcT rd) (6 * K) (6 + m), dims (r_PC rd) (6 * K) 1,
      dims (r_grav rd) m 1 & ((1 < K)%N -> dims (r_NwJw rd) m (6 * K - 6))]].

(* sizes of a task of t dimensions after CalcTaskSpace and SetTaskSpace *)
Definition ts_sized (m t : nat) (s : tspace) : Prop :=
  [/\ dims (t_fstar s) t 1, dims (t_Jkt s) m t & dims (t_Lam s) t t].
(* the sizes of all tasks after CalcTaskSpace, which does not compute the null-space matrix of the last one *)
Fixpoint tasks_sized (m : nat) (ts : seq tspace) : Prop :=
  match ts with
  | [::] => True
  | s :: ts' => [/\ exists t, ts_sized m t s, ts' <> [::] -> dims (t_Null s) m m & tasks_sized m ts']
  end.

(* the joint torque of a level: N J_kt Lambda (f* + df) *)
Definition level_torque (m : nat) (N : 'M[R]_m) (s : tspace) (t : nat) (df : 'cV[R]_t) : 'cV[R]_m :=
  N *m mx_of m t (t_Jkt s) *m mx_of t t (t_Lam s) *m (mx_of t 1 (t_fstar s) + df).

Definition sqnorm n (v : 'cV[R]_n) : R := \sum_i v i 0 ^+ 2.
End QPSpec.

Section LoopSpec.
Variable R : realFieldType.

(* the accumulated task torque of levels 0, 1, ...: the first acts through N, level i+1
   through the null-space matrix of level i *)
Fixpoint sum_levels (m : nat) (N : 'M[R]_m) (l : seq (tspace R)) : 'cV[R]_m :=
  match l with
  | [::] => 0
  | s :: l' => level_torque N s (mx_of (nr (t_fstar s)) 1 (t_fqp s)) + sum_levels (mx_of m m (t_Null s)) l'
  end.

(* the data of a task that the torque computation must not change *)
Definition same_task (s s' : tspace R) : Prop :=
  [/\ t_fstar s' = t_fstar s, t_Jkt s' = t_Jkt s, t_Lam s' = t_Lam s & t_Null s' = t_Null s].
End LoopSpec.
