(* C168: the 6 x 6 transforms of a link.  GetSpatialTranform carries twists, GetAdjointMatrix wrenches. *)
From mathcomp Require Import all_ssreflect all_algebra.
From mathcomp.algebra_tactics Require Import ring.
From Verif Require Import Geo_Model Geo_Spec Geo_Proofs Inr_Model Inr_Spec Inr_Proofs.
Set Implicit Arguments.
Unset Strict Implicit.
Unset Printing Implicit Defensive.
Import GRing.Theory.
Local Open Scope ring_scope.

Section Adj.
Variable R : fieldType.
Implicit Types (p q : 'cV[R]_3) (Q S : 'M[R]_3).
Local Notation six x := (x : 'cV[R]_(3 + 3)).

(* a twist (velocity of the link's origin, angular velocity) in the link's frame becomes, in the world frame, the
   velocity of the point of the body at the world's origin and the angular velocity *)
Theorem C168_twist p Q (v w : 'cV[R]_3) :
  spatialTransformMatrix p Q *m six (col_mx v w) = six (col_mx (Q *m v + crossp p (Q *m w)) (Q *m w)).
Proof. by rewrite mul_block_col mul0mx add0r -mulmxA skew_cross. Qed.

(* a wrench (force, moment about the link's origin) in the link's frame becomes the force and the moment about the
   world's origin *)
Theorem C168_wrench p Q (f m : 'cV[R]_3) :
  GetAdjointMatrix p Q *m six (col_mx f m) = six (col_mx (Q *m f) (crossp p (Q *m f) + Q *m m)).
Proof. by rewrite mul_block_col mul0mx addr0 -mulmxA skew_cross. Qed.

(* both agree on power *)
Theorem C168_power p Q (x y : 'cV[R]_(3 + 3)) : rotation Q ->
  (spatialTransformMatrix p Q *m x)^T *m (GetAdjointMatrix p Q *m y) = x^T *m y.
Proof.
case=> h _; have k : (spatialTransformMatrix p Q)^T *m GetAdjointMatrix p Q = 1%:M.
  rewrite /spatialTransformMatrix /GetAdjointMatrix tr_block_mx mulmx_block trmx0 !mul0mx !mulmx0 !addr0 !add0r h.
  rewrite trmx_mul skew_tr mulmxN !mulmxA mulNmx addNr; exact/esym/scalar_mx_block.
by rewrite trmx_mul mulmxA -(mulmxA x^T) k mulmx1.
Qed.

(* frames compose *)
Theorem C168_compose p q Q S : rotation Q ->
  spatialTransformMatrix p Q *m spatialTransformMatrix q S = spatialTransformMatrix (p + Q *m q) (Q *m S) /\
  GetAdjointMatrix p Q *m GetAdjointMatrix q S = GetAdjointMatrix (p + Q *m q) (Q *m S).
Proof.
move=> hQ; have e : Q *m skew q *m S = skew (Q *m q) *m (Q *m S).
  by rewrite (skew_rot _ hQ) -!mulmxA; congr (_ *m (_ *m _)); case: hQ => h _; rewrite mulmxA h mul1mx.
rewrite /spatialTransformMatrix /GetAdjointMatrix !mulmx_block !mul0mx !mulmx0 !addr0 !add0r skewD mulmxDl.
by split; congr block_mx; rewrite !mulmxA in e *; rewrite e // addrC.
Qed.

(* and are undone by the inverse frame *)
Theorem C168_inverse p Q : rotation Q ->
  spatialTransformMatrix (- (Q^T *m p)) Q^T *m spatialTransformMatrix p Q = 1%:M /\
  GetAdjointMatrix (- (Q^T *m p)) Q^T *m GetAdjointMatrix p Q = 1%:M.
Proof.
move=> hQ; have [-> ->] := C168_compose (- (Q^T *m p)) p Q (rotation_trmx hQ); rewrite addNr.
case: hQ => h _; rewrite /spatialTransformMatrix /GetAdjointMatrix h skew0 mul0mx; split; exact/esym/scalar_mx_block.
Qed.

(* the wrench transform of inertia times twist is the momentum: m times the velocity of the centre of mass, and the
   angular momentum about the world's origin *)
Theorem C168_momentum n (l : link R n) (v w : 'cV[R]_3) : rotation (rotm l) ->
  GetAdjointMatrix (xpos l) (rotm l) *m (GetSpatialInertiaMatrix (bd l) false *m six (col_mx v w)) =
  six (col_mx (mass (bd l) *: com_velocity l (rotm l *m v) (rotm l *m w))
              (angular_momentum l (rotm l *m v) (rotm l *m w) 0)).
Proof.
move=> hr; rewrite /GetSpatialInertiaMatrix mul_block_col C168_wrench.
set Q := rotm l; set m := mass (bd l); set c := com (bd l).
have hQ : rotation Q by [].
have e1 : Q *m (m%:M *m v + m *: (skew c)^T *m w) = m *: com_velocity l (Q *m v) (Q *m w).
  rewrite mul_scalar_mx -scalemxAl -scalerDr -scalemxAr mulmxDr /com_velocity -/Q -/c; congr (_ *: (_ + _)).
  by rewrite skew_tr mulNmx mulmxN skew_cross -(cross_rot _ _ hQ) (cross_anti (Q *m w)).
rewrite e1; congr col_mx; rewrite /angular_momentum subr0 /xi -/Q -/c crossD [RHS]addrCA; congr (_ + _).
rewrite mulmxDl mulmxDr mulmxDr /world_inertia -/Q -/m.
have -> : Q *m inertia (bd l) *m Q^T *m (Q *m w) = Q *m (inertia (bd l) *m w).
  by case: hQ => h _; rewrite -!mulmxA (mulmxA Q^T) h mul1mx.
rewrite addrCA; congr (_ + _).
rewrite -!scalemxAl -!scalemxAr -scalerDr crossZr; congr (_ *: _).
rewrite /com_velocity -/Q -/c crossDr skew_cross -(cross_rot _ _ hQ) -mulmxA skew_tr mulNmx mulmxN mulmxN.
by rewrite !skew_cross -!(cross_rot _ _ hQ) (cross_anti (Q *m w)) crossNr.
Qed.

(* a quarter turn about z, one metre along x *)
Example C168_ex : let Q := rotZ 0 1 : 'M[R]_3 in rotation Q /\
  spatialTransformMatrix (vec3 1 0 0) Q *m six (col_mx 0 (vec3 0 0 1)) = six (col_mx (vec3 0 (-1) 0) (vec3 0 0 1)).
Proof.
move=> Q; split; first by apply: rotZ_rotation; rewrite mul0r mul1r add0r.
have e : Q *m vec3 0 0 1 = vec3 0 0 1 by apply: vecP; rewrite mulmv !X3 !Y3 !Z3 !mxE !inordK //= !(mulr0, mul0r, add0r, mulr1).
rewrite C168_twist e mulmx0 add0r; congr col_mx.
by apply: vecP; rewrite !(X3, Y3, Z3); ring.
Qed.
End Adj.
Print Assumptions C168_twist.
Print Assumptions C168_wrench.
Print Assumptions C168_power.
Print Assumptions C168_compose.
Print Assumptions C168_inverse.
Print Assumptions C168_momentum.
