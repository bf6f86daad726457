(* Specification: friction / ZMP / yaw cone of a plane contact, centre of pressure. *)
From mathcomp Require Import all_ssreflect all_algebra.
From Verif Require Import DMat Cone_Model.
Set Implicit Arguments.
Unset Strict Implicit.
Unset Printing Implicit Defensive.
Import Order.TTheory GRing.Theory Num.Theory.
Local Open Scope ring_scope.

Section ConeSpec.
Variable R : realFieldType.
Local Notation pcontact := (pcontact R).

(* k-th 3-block of a stacked vector *)
Definition blk3 (F : nat -> R) (k : nat) : 'cV[R]_3 := \col_(i < 3) F (k + i)%N.

(* components of a 3-vector *)
Definition vx (v : 'cV[R]_3) : R := v 0 0.
Definition vy (v : 'cV[R]_3) : R := v 1 0.
Definition vz (v : 'cV[R]_3) : R := v 2%:R 0.

(* the wrench (f, m) on contact c, expressed in the contact frame, is in the cone.
   The sign convention of the library: a pressing force has a negative z component. *)
Definition in_cone (c : pcontact) (f m : 'cV[R]_3) : Prop :=
  let lf := (p_rotm c)^T *m f in
  let lm := (p_rotm c)^T *m m in
  [/\ `|vx lf| <= - (p_mu c * vz lf), `|vy lf| <= - (p_mu c * vz lf),
      `|vz lm| <= - (p_muz c * vz lf),
      `|vy lm| <= - (p_lx c * vz lf) & `|vx lm| <= - (p_ly c * vz lf)].

(* plane contact as constructed by the library *)
Definition plane (c : pcontact) : Prop := p_dof c = 6%N /\ p_num c = 10%N.

Definition actives (cc : seq pcontact) : seq pcontact := [seq c <- cc | p_on c].

(* weighted average of points *)
Definition wavg (l : seq (R * 'cV[R]_3)) : 'cV[R]_3 :=
  (\sum_(p <- l) p.1)^-1 *: \sum_(p <- l) p.1 *: p.2.
End ConeSpec.
