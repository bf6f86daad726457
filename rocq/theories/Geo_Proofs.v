From mathcomp Require Import all_ssreflect all_algebra.
From mathcomp.algebra_tactics Require Import ring.
From Verif Require Import Geo_Model Geo_Spec.
Set Implicit Arguments.
Unset Strict Implicit.
Unset Printing Implicit Defensive.
Import GRing.Theory.
Local Open Scope ring_scope.

Section GeoProofs.
Variable R : comRingType.
Implicit Types (a b v : 'cV[R]_3) (Q M : 'M[R]_3).

Lemma X3 (x y z : R) : X (vec3 x y z) = x. Proof. by rewrite /X mxE inordK. Qed.
Lemma Y3 (x y z : R) : Y (vec3 x y z) = y. Proof. by rewrite /Y mxE inordK. Qed.
Lemma Z3 (x y z : R) : Z (vec3 x y z) = z. Proof. by rewrite /Z mxE inordK. Qed.

Lemma ordP3 (P : 'I_3 -> Prop) : P (inord 0) -> P (inord 1) -> P (inord 2) -> forall i, P i.
Proof.
move=> h0 h1 h2 i.
have [e|[e|e]] : i = inord 0 \/ (i = inord 1 \/ i = inord 2); try by rewrite e.
by case: i => -[|[|[|i]]] hi //; [left|right; left|right; right]; apply/val_inj; rewrite /= inordK.
Qed.

Lemma vec3E v : v = vec3 (X v) (Y v) (Z v).
Proof. by apply/matrixP => i j; rewrite ord1; move: i; apply: ordP3; rewrite mxE inordK. Qed.

Lemma vecP a b : X a = X b -> Y a = Y b -> Z a = Z b -> a = b.
Proof. by move=> h1 h2 h3; rewrite [a]vec3E [b]vec3E h1 h2 h3. Qed.

Lemma vec3P a : exists x y z, a = vec3 x y z.
Proof. by exists (X a), (Y a), (Z a); exact: vec3E. Qed.

Lemma mx3E M : M = mx3 [:: [:: M (inord 0) (inord 0); M (inord 0) (inord 1); M (inord 0) (inord 2)];
  [:: M (inord 1) (inord 0); M (inord 1) (inord 1); M (inord 1) (inord 2)];
  [:: M (inord 2) (inord 0); M (inord 2) (inord 1); M (inord 2) (inord 2)]].
Proof. by apply/matrixP; apply: ordP3; apply: ordP3; rewrite mxE !inordK. Qed.

Lemma sum3 (f : 'I_3 -> R) : \sum_i f i = f (inord 0) + f (inord 1) + f (inord 2).
Proof.
rewrite !big_ord_recl big_ord0 addr0 addrA.
by congr (f _ + f _ + f _); apply/val_inj; rewrite /= inordK.
Qed.

Lemma mulmv M v : M *m v = vec3
  (M (inord 0) (inord 0) * X v + M (inord 0) (inord 1) * Y v + M (inord 0) (inord 2) * Z v)
  (M (inord 1) (inord 0) * X v + M (inord 1) (inord 1) * Y v + M (inord 1) (inord 2) * Z v)
  (M (inord 2) (inord 0) * X v + M (inord 2) (inord 1) * Y v + M (inord 2) (inord 2) * Z v).
Proof. by apply/matrixP => i j; rewrite ord1; move: i; apply: ordP3; rewrite !mxE sum3 inordK. Qed.

Lemma XD a b : X (a + b) = X a + X b. Proof. by rewrite /X mxE. Qed.
Lemma YD a b : Y (a + b) = Y a + Y b. Proof. by rewrite /Y mxE. Qed.
Lemma ZD a b : Z (a + b) = Z a + Z b. Proof. by rewrite /Z mxE. Qed.
Lemma XN a : X (- a) = - X a. Proof. by rewrite /X mxE. Qed.
Lemma YN a : Y (- a) = - Y a. Proof. by rewrite /Y mxE. Qed.
Lemma ZN a : Z (- a) = - Z a. Proof. by rewrite /Z mxE. Qed.
Lemma XZ k a : X (k *: a) = k * X a. Proof. by rewrite /X mxE. Qed.
Lemma YZ k a : Y (k *: a) = k * Y a. Proof. by rewrite /Y mxE. Qed.
Lemma ZZ k a : Z (k *: a) = k * Z a. Proof. by rewrite /Z mxE. Qed.
Lemma X0 : X (0 : 'cV[R]_3) = 0. Proof. by rewrite /X mxE. Qed.
Lemma Y0 : Y (0 : 'cV[R]_3) = 0. Proof. by rewrite /Y mxE. Qed.
Lemma Z0 : Z (0 : 'cV[R]_3) = 0. Proof. by rewrite /Z mxE. Qed.

Definition xyz := (X3, Y3, Z3, XD, YD, ZD, XN, YN, ZN, XZ, YZ, ZZ, X0, Y0, Z0).

Lemma skew_cross a b : skew a *m b = crossp a b.
Proof. by rewrite mulmv !mxE !inordK //=; apply: vecP; rewrite !xyz; ring. Qed.

Lemma skew_tr a : (skew a)^T = - skew a.
Proof.
by apply/matrixP; apply: ordP3; apply: ordP3; rewrite !mxE !inordK //= ?oppr0 ?opprK.
Qed.

Lemma det3 M : \det M =
  M (inord 0) (inord 0) * (M (inord 1) (inord 1) * M (inord 2) (inord 2) - M (inord 1) (inord 2) * M (inord 2) (inord 1))
  - M (inord 0) (inord 1) * (M (inord 1) (inord 0) * M (inord 2) (inord 2) - M (inord 1) (inord 2) * M (inord 2) (inord 0))
  + M (inord 0) (inord 2) * (M (inord 1) (inord 0) * M (inord 2) (inord 1) - M (inord 1) (inord 1) * M (inord 2) (inord 0)).
Proof.
have e k (h : (k < 3)%N) : Ordinal h = inord k by apply/val_inj; rewrite /= inordK.
rewrite (expand_det_row _ (inord 0)) sum3 /cofactor.
have d2 (N : 'M[R]_2) : \det N = N 0 0 * N 1 1 - N 0 1 * N 1 0.
  rewrite (expand_det_row _ 0) !big_ord_recl big_ord0 /cofactor !det_mx11 !mxE /= !expr0 expr1 addr0.
  by rewrite mul1r mulN1r mulrN; congr (_ * N _ _ - N _ _ * N _ _); apply/val_inj.
rewrite !d2 !mxE !inordK //= !expr0 !expr1.
have l (i : nat) (j : 'I_2) (k : nat) : (i < 3)%N -> (k < 3)%N -> bump i j = k -> lift (inord i : 'I_3) j = inord k.
  by move=> hi hk h; apply/val_inj; rewrite /= !inordK.
rewrite !(@l 0%N 0 1%N) // !(@l 0%N 1 2%N) // !(@l 1%N 0 0%N) // !(@l 1%N 1 2%N) //.
rewrite !(@l 2%N 0 0%N) // !(@l 2%N 1 1%N) //; ring.
Qed.

Lemma skew_conj M a : M^T *m skew (M *m a) *m M = \det M *: skew a.
Proof.
rewrite det3 [skew (_ *m _)]/skew (mulmv M a) !xyz; apply/matrixP; apply: ordP3; apply: ordP3;
  by rewrite !(mxE, sum3) !inordK //=; ring.
Qed.

Lemma skew_rot Q a : rotation Q -> skew (Q *m a) = Q *m skew a *m Q^T.
Proof.
case=> h d; have h' := mulmx1C h.
by have := skew_conj Q a; rewrite d scale1r => <-; rewrite !mulmxA h' mul1mx -mulmxA h' mulmx1.
Qed.

Lemma cross_rot Q a b : rotation Q -> crossp (Q *m a) (Q *m b) = Q *m crossp a b.
Proof.
move=> h; rewrite -!skew_cross skew_rot // -!mulmxA (mulmxA Q^T).
by case: h => -> _; rewrite mul1mx.
Qed.

Lemma rotZ_rotation (c s : R) : c * c + s * s = 1 -> rotation (rotZ c s).
Proof.
move=> h; have e x y : y = 1 -> x = c * c + s * s -> x = y by move=> -> ->.
split; first last.
  by rewrite det3 !mxE !inordK //=; apply: e => //; ring.
apply/matrixP; apply: ordP3; apply: ordP3; rewrite !(mxE, sum3) !inordK //= ?eqE /= ?inordK //=;
  by first [ring | apply: e => //; ring].
Qed.

Lemma crossD a b v : crossp (a + b) v = crossp a v + crossp b v.
Proof. by apply: vecP; rewrite !xyz; ring. Qed.
Lemma crossDr a b v : crossp v (a + b) = crossp v a + crossp v b.
Proof. by apply: vecP; rewrite !xyz; ring. Qed.
Lemma crossN a b : crossp (- a) b = - crossp a b.
Proof. by apply: vecP; rewrite !xyz; ring. Qed.
Lemma crossNr a b : crossp a (- b) = - crossp a b.
Proof. by apply: vecP; rewrite !xyz; ring. Qed.
Lemma crossZ k a b : crossp (k *: a) b = k *: crossp a b.
Proof. by apply: vecP; rewrite !xyz; ring. Qed.
Lemma crossZr k a b : crossp a (k *: b) = k *: crossp a b.
Proof. by apply: vecP; rewrite !xyz; ring. Qed.
Lemma cross0 a : crossp a 0 = 0.
Proof. by apply: vecP; rewrite !xyz; ring. Qed.
End GeoProofs.
