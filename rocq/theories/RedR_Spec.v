(* Specification: one-sided torque limits, tangential contact wrench. *)
From mathcomp Require Import all_ssreflect all_algebra.
From Verif Require Import DMat DMatL Cone_Model Cone_Spec QP_Model QP_Spec.
Set Implicit Arguments.
Unset Strict Implicit.
Unset Printing Implicit Defensive.
Import Order.TTheory GRing.Theory Num.Theory.
Local Open Scope ring_scope.

Section RedRSpec.
Variable R : realFieldType.

(* no joint below its lower limit, and every active contact in its cone *)
Definition admissible_below (rd : rdata R) (d : pcontact R) (m K : nat) (tau : 'cV[R]_m) : Prop :=
  (r_lset rd -> forall i : 'I_m, - ent (r_lim rd) i 0 <= tau i 0) /\
  (forall k, (k < K)%N ->
     in_cone (nth d (actives (r_cc rd)) k)
       (blk3 (contact_force rd K tau) (6 * k)) (blk3 (contact_force rd K tau) (6 * k + 3))).

(* squared norm of a wrench (f, m) without its force along the z axis of the contact frame *)
Definition tangential1 (c : pcontact R) (f m : 'cV[R]_3) : R :=
  let lf := (p_rotm c)^T *m f in
  let lm := (p_rotm c)^T *m m in
  vx lf ^+ 2 + vy lf ^+ 2 + (vx lm ^+ 2 + vy lm ^+ 2 + vz lm ^+ 2).

(* summed over the active contacts, for joint torque tau *)
Definition tangential (rd : rdata R) (d : pcontact R) (m K : nat) (tau : 'cV[R]_m) : R :=
  \sum_(0 <= k < K) tangential1 (nth d (actives (r_cc rd)) k)
     (blk3 (contact_force rd K tau) (6 * k)) (blk3 (contact_force rd K tau) (6 * k + 3)).
End RedRSpec.
