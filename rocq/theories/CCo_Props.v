(* C153-C155: a contact object *)
From mathcomp Require Import all_ssreflect all_algebra.
From mathcomp Require Import zify.
From mathcomp.algebra_tactics Require Import ring.
From Verif Require Import DMat Cone_Model Cone_Spec Cone_Proofs CCo_Model CCo_Spec.
Set Implicit Arguments.
Unset Strict Implicit.
Unset Printing Implicit Defensive.
Import Order.TTheory GRing.Theory Num.Theory.
Local Open Scope ring_scope.

Section C.
Variable R : realFieldType.
Implicit Type ks : seq (ccall R).

Lemma crun_cat (c : cobj R) ks1 ks2 : crun c (ks1 ++ ks2) = crun (crun c ks1) ks2.
Proof. by rewrite /crun foldl_cat. Qed.
Lemma crun_fixed (c : cobj R) ks : let c' := crun c ks in
  [/\ o_type c' = o_type c, o_dof c' = o_dof c, o_num c' = o_num c, o_lx c' = o_lx c & o_ly c' = o_ly c] /\ o_limiter c' = o_limiter c.
Proof. by elim: ks c => [|k ks IH] c //=; have [[-> -> -> -> ->] ->] := IH (cstep c k); case: k. Qed.
Lemma crun_no_friction (c : cobj R) ks : ~~ has (@is_friction R) ks -> o_mu (crun c ks) = o_mu c /\ o_muz (crun c ks) = o_muz c.
Proof. by elim: ks c => [|k ks IH] c //=; rewrite negb_or => /andP[hk /IH -/(_ (cstep c k)) [-> ->]]; case: k hk. Qed.
Lemma crun_no_switch (c : cobj R) ks : ~~ has (@is_switch R) ks -> o_contact (crun c ks) = o_contact c.
Proof. by elim: ks c => [|k ks IH] c //=; rewrite negb_or => /andP[hk /IH -/(_ (cstep c k)) ->]; case: k hk. Qed.

Lemma mat_rows (c : cobj R) : exists M, GetContactConstMatrix c = Some M /\ [/\ nr M = 10%N, nc M = 6%N &
  forall i j, (i < 10)%N -> (j < 6)%N -> ent M i j =
    if (i < 4)%N then ent (GetZMPConstMatrix (o_lx c) (o_ly c)) i j else ent (GetForceConstMatrix (o_mu c) (o_muz c)) (i - 4) j].
Proof.
rewrite /GetContactConstMatrix; case e1: (blockw _ 0 0 4 6 _) => [M1|] /=; last by move: e1; rewrite /blockw.
have [[_ _ _ _] [n1 c1 h1]] := blockwP e1.
case e2: (blockw _ 4 0 6 6 _) => [M2|]; last by move: e2; rewrite /blockw n1 c1.
have [[_ _ _ _] [n2 c2 h2]] := blockwP e2; exists M2; split=> //; rewrite n2 c2 n1 c1; split=> // i j hi hj.
rewrite h2 h1; have -> : (4 <= i < 4 + 6)%N = ~~ (i < 4)%N by lia.
by rewrite !subn0 !add0n hj; case: (i < 4)%N.
Qed.

(* C153: the matrix accepts exactly the wrenches the contact can hold with the friction ratios last set, whatever
   other calls were made; the dimensions given to the constructor never change *)
Theorem C153_cone t (lx ly : R) ks mu muz : friction_in_force ks mu muz ->
  exists M, GetContactConstMatrix (crun (new_contact t lx ly) ks) = Some M /\ nr M = 10%N /\ nc M = 6%N /\
  forall F : nat -> R, (forall i, (i < 10)%N -> 0 <= rowdot M i F) <-> held lx ly mu muz F.
Proof.
move=> hf; set c := crun _ ks.
have [e1 e2] : o_mu c = mu /\ o_muz c = muz.
  case: hf => [[nf [-> ->]]|[ks1 [ks2 [ek nf]]]]; first by have [-> ->] := crun_no_friction (new_contact t lx ly) nf.
  by rewrite /c ek crun_cat /=; have [-> ->] := crun_no_friction (SetFrictionRatio (crun (new_contact t lx ly) ks1) mu muz) nf.
have [[_ _ _ e3 e4] _] := crun_fixed (new_contact t lx ly) ks; rewrite -/c /= in e3 e4.
have [M [eM [n1 n2 h]]] := mat_rows c; exists M; split=> //; split=> //; split=> // F.
have row i : (i < 10)%N -> rowdot M i F = \sum_(0 <= j < 6) (if (i < 4)%N then ent (GetZMPConstMatrix lx ly) i j else ent (GetForceConstMatrix mu muz) (i - 4) j) * F j.
  move=> hi; rewrite /rowdot n2 !big_nat; apply: eq_bigr => j /andP[_ hj]; by rewrite h // e1 e2 e3 e4.
have eqv : (forall i, (i < 10)%N -> 0 <= rowdot M i F) <->
  [/\ 0 <= F 0%N - mu * F 2%N /\ 0 <= - F 0%N - mu * F 2%N, 0 <= F 1%N - mu * F 2%N /\ 0 <= - F 1%N - mu * F 2%N,
      0 <= F 5%N - muz * F 2%N /\ 0 <= - F 5%N - muz * F 2%N, 0 <= F 4%N - lx * F 2%N /\ 0 <= - F 4%N - lx * F 2%N &
      0 <= F 3%N - ly * F 2%N /\ 0 <= - F 3%N - ly * F 2%N].
  have r0 : rowdot M 0 F = - F 4%N - lx * F 2%N by rewrite row // sum6 /=; ring.
  have r1 : rowdot M 1 F = F 4%N - lx * F 2%N by rewrite row // sum6 /=; ring.
  have r2 : rowdot M 2 F = - F 3%N - ly * F 2%N by rewrite row // sum6 /=; ring.
  have r3 : rowdot M 3 F = F 3%N - ly * F 2%N by rewrite row // sum6 /=; ring.
  have r4 : rowdot M 4 F = F 0%N - mu * F 2%N by rewrite row // sum6 /=; ring.
  have r5 : rowdot M 5 F = - F 0%N - mu * F 2%N by rewrite row // sum6 /=; ring.
  have r6 : rowdot M 6 F = F 1%N - mu * F 2%N by rewrite row // sum6 /=; ring.
  have r7 : rowdot M 7 F = - F 1%N - mu * F 2%N by rewrite row // sum6 /=; ring.
  have r8 : rowdot M 8 F = F 5%N - muz * F 2%N by rewrite row // sum6 /=; ring.
  have r9 : rowdot M 9 F = - F 5%N - muz * F 2%N by rewrite row // sum6 /=; ring.
  rewrite -r0 -r1 -r2 -r3 -r4 -r5 -r6 -r7 -r8 -r9.
  split=> [hr|[[? ?] [? ?] [? ?] [? ?] [? ?]]]; first by split; split; apply: hr.
  by case=> [|[|[|[|[|[|[|[|[|[|i]]]]]]]]]].
have nm (a b : R) : (`|a| <= - b) <-> (0 <= a - b /\ 0 <= - a - b).
  rewrite le_norm -(subr_ge0 a) -(subr_ge0 (- a)) opprK !(addrC (- b)).
  by split=> -[? ?].
rewrite eqv /held; split=> [[k1 k2 k3 k4 k5]|[/nm k1 /nm k2 /nm k3 /nm k4 /nm k5]]; split=> //; exact/nm.
Qed.

(* C154: after a call that switches it, a contact is in the state last asked for *)
Theorem C154_switch_partial t (lx ly : R) ks b : switched ks b -> o_contact (crun (new_contact t lx ly) ks) = Some b.
Proof.
move=> [ks1 [k [ks2 [-> ns hk]]]]; rewrite crun_cat /= crun_no_switch //.
by case: k hk => [b'|||? ?] //= ->.
Qed.
(* C154 refuted: before that, its state is whatever the memory held *)
Theorem C154_unset_refuted t (lx ly : R) ks : ~~ has (@is_switch R) ks -> o_contact (crun (new_contact t lx ly) ks) = None.
Proof. by move=> h; rewrite crun_no_switch. Qed.

(* C155 refuted: a point contact announces six constraints and its matrix has ten *)
Theorem C155_point_refuted (lx ly : R) ks : exists M n, GetContactConstMatrix (crun (new_contact CONTACT_POINT lx ly) ks) = Some M /\
  o_num (crun (new_contact CONTACT_POINT lx ly) ks) = Some n /\ nr M <> n.
Proof.
have [M [eM [n1 _ _]]] := mat_rows (crun (new_contact CONTACT_POINT lx ly) ks).
by have [[_ _ e _ _] _] := crun_fixed (new_contact CONTACT_POINT lx ly) ks; exists M, 6%N; rewrite eM e n1.
Qed.
(* C155 refuted: a contact of type CONTACT_LINK has neither a number of constraints nor of coordinates *)
Theorem C155_link_refuted (lx ly : R) ks : o_num (crun (new_contact CONTACT_LINK lx ly) ks) = None /\
  o_dof (crun (new_contact CONTACT_LINK lx ly) ks) = None.
Proof. by have [[_ -> -> _ _] _] := crun_fixed (new_contact CONTACT_LINK lx ly) ks. Qed.
(* C155, what holds: plane and line contacts *)
Theorem C155_plane_line_partial t (lx ly : R) ks : t = CONTACT_6D \/ t = CONTACT_LINE ->
  exists M, GetContactConstMatrix (crun (new_contact t lx ly) ks) = Some M /\ o_num (crun (new_contact t lx ly) ks) = Some (nr M).
Proof.
have [M [eM [n1 _ _]]] := mat_rows (crun (new_contact t lx ly) ks).
by have [[_ _ e _ _] _] := crun_fixed (new_contact t lx ly) ks; case=> et; exists M; rewrite eM e n1 et.
Qed.
(* C155: the type and the number of coordinates held are those of the constructor, whatever is called *)
Theorem C155_coordinates t (lx ly : R) ks : o_type (crun (new_contact t lx ly) ks) = t /\
  o_dof (crun (new_contact t lx ly) ks) = held_coordinates t /\ o_limiter (crun (new_contact t lx ly) ks) = false.
Proof. by have [[-> -> _ _ _] ->] := crun_fixed (new_contact t lx ly) ks; case: t. Qed.
(* C153: the pressure matrix restricts nothing *)
Theorem C153_no_pressure (F : nat -> R) i : (i < nr (GetPressConstMatrix3x6 R))%N -> rowdot (GetPressConstMatrix3x6 R) i F = 0.
Proof. by move=> _; rewrite /rowdot big1 // => j _; rewrite mul0r. Qed.
End C.

(* Examples *)
Local Notation Q := [realFieldType of rat].
Definition kex : seq (ccall Q) := [:: KEnable; KFriction (1 / 2%:R) (1 / 4%:R); KDisable].
Example C153_ex : friction_in_force kex (1 / 2%:R) (1 / 4%:R) /\
  held (15%:R / 100%:R : Q) (75%:R / 1000%:R) (1 / 2%:R) (1 / 4%:R) (nth 0 [:: 10%:R; 0; - 100%:R; 1; 2%:R; 3%:R]) /\
  ~ held (15%:R / 100%:R : Q) (75%:R / 1000%:R) (1 / 2%:R) (1 / 4%:R) (nth 0 [:: 60%:R; 0; - 100%:R; 0; 0; 0]).
Proof.
split; first by right; exists [:: KEnable], [:: KDisable].
by split=> [|[]]; [split; vm_compute|vm_compute].
Qed.
Example C154_ex : switched kex false /\ ~~ has (@is_switch Q) [:: KFriction 1 1].
Proof. by split=> //; exists [:: KEnable; KFriction (1 / 2%:R) (1 / 4%:R)], KDisable, [::]. Qed.
Example C155_ex : o_num (crun (new_contact CONTACT_6D (1 : Q) 1) kex) = Some 10%N.
Proof. by []. Qed.

Print Assumptions C153_cone.
Print Assumptions C153_no_pressure.
Print Assumptions C155_coordinates.
Print Assumptions C154_switch_partial.
Print Assumptions C154_unset_refuted.
Print Assumptions C155_point_refuted.
Print Assumptions C155_link_refuted.
Print Assumptions C155_plane_line_partial.
