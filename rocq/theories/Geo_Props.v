(* C41: skew is the cross product matrix. *)
From mathcomp Require Import all_ssreflect all_algebra.
From mathcomp.algebra_tactics Require Import ring.
From Verif Require Import Geo_Model Geo_Spec Geo_Proofs.
Set Implicit Arguments.
Unset Strict Implicit.
Unset Printing Implicit Defensive.
Import GRing.Theory.
Local Open Scope ring_scope.

(* C41 *)
Theorem C41_skew_is_cross_product (R : comRingType) (a : 'cV[R]_3) :
  [/\ (forall b, skew a *m b = crossp a b), (skew a)^T = - skew a &
      forall Q, rotation Q -> skew (Q *m a) = Q *m skew a *m Q^T].
Proof. by split=> [b||Q]; [exact: skew_cross|exact: skew_tr|exact: skew_rot]. Qed.
Print Assumptions C41_skew_is_cross_product.

(* a rotation with a nonzero angle, and what the theorem says of it *)
Example C41_ex : rotation (rotZ (0 : int) 1) /\ skew (vec3 1 2%:R 3%:R : 'cV[int]_3) *m vec3 0 1 0 = vec3 (- 3%:R) 0 1.
Proof.
split; first by apply: rotZ_rotation.
by rewrite skew_cross; apply: vecP; rewrite !xyz.
Qed.
