From mathcomp Require Import all_ssreflect all_algebra.
From mathcomp.algebra_tactics Require Import ring.
From Verif Require Import Geo_Model Geo_Spec Geo_Proofs Inr_Model Inr_Spec.
Set Implicit Arguments.
Unset Strict Implicit.
Unset Printing Implicit Defensive.
Import GRing.Theory.
Local Open Scope ring_scope.

Section InrProofs.
Variable R : fieldType.
Implicit Types (a b u p c : 'cV[R]_3) (Q : 'M[R]_3).

Lemma skewD a b : skew (a + b) = skew a + skew b.
Proof. by apply/matrixP; apply: ordP3; apply: ordP3; rewrite !mxE !inordK //= ?xyz; ring. Qed.
Lemma skewZ k a : skew (k *: a) = k *: skew a.
Proof. by apply/matrixP; apply: ordP3; apply: ordP3; rewrite !mxE !inordK //= ?xyz; ring. Qed.
Lemma skewN a : skew (- a) = - skew a.
Proof. by apply/matrixP; apply: ordP3; apply: ordP3; rewrite !mxE !inordK //= ?xyz; ring. Qed.
Lemma skew0 : skew (0 : 'cV[R]_3) = 0.
Proof. by rewrite -(scale0r 0) skewZ scale0r. Qed.
Lemma skew_sum (T : Type) (s : seq T) (f : T -> 'cV[R]_3) : skew (\sum_(x <- s) f x) = \sum_(x <- s) skew (f x).
Proof. by elim: s => [|x s IH]; rewrite ?big_nil ?skew0 // !big_cons skewD IH. Qed.

Lemma point_inertia_skew u : point_inertia u = skew u *m (skew u)^T.
Proof.
rewrite /point_inertia [in LHS](vec3E u); apply/matrixP; apply: ordP3; apply: ordP3;
  by rewrite !(mxE, sum3, big_ord1) !inordK //= ?eqE /= ?inordK //=; ring.
Qed.

Definition S u : 'M[R]_3 := skew u *m (skew u)^T.
Definition Bil u p : 'M[R]_3 := skew u *m (skew p)^T + skew p *m (skew u)^T.
Lemma SB u p : S (u - p) = S u - Bil u p + S p.
Proof.
rewrite /S /Bil skewD skewN linearD linearN /= mulmxBl !mulmxBr.
by rewrite opprB opprD !addrA addrAC; congr (_ + _); rewrite -!addrA; congr (_ + _); rewrite addrC.
Qed.
Lemma BilD u u' p : Bil (u + u') p = Bil u p + Bil u' p.
Proof. by rewrite /Bil skewD linearD /= mulmxDl mulmxDr addrACA. Qed.
Lemma BilZ k u p : Bil (k *: u) p = k *: Bil u p.
Proof. by rewrite /Bil skewZ linearZ /= -scalemxAl -scalemxAr scalerDr. Qed.

Lemma merge_inertia (b1 b2 b : body R) Q x : AddLink b1 b2 Q x = Some b ->
  [/\ mass b = mass b1 + mass b2, mass b != 0,
      mass b *: com b = mass b1 *: com b1 + mass b2 *: (Q *m com b2 + x) &
      forall p, inertia_about b p = inertia_about b1 p + inertia_about (moved b2 Q x) p].
Proof.
rewrite /AddLink; case: eqP => // /eqP nz [<-] /=; split=> //.
  by rewrite scalerA divff // scale1r.
move=> p; rewrite /inertia_about /moved /= !point_inertia_skew -!/(S _).
set C := _^-1 *: _; set c2 := Q *m com b2 + x.
have hC : (mass b1 + mass b2) *: C = mass b1 *: com b1 + mass b2 *: c2 by rewrite scalerA divff // scale1r.
have hB : (mass b1 + mass b2) *: Bil C p = mass b1 *: Bil (com b1) p + mass b2 *: Bil c2 p by rewrite -BilZ hC BilD !BilZ.
rewrite !SB; move: hB; set m1 := mass b1; set m2 := mass b2.
move: (Bil C p) (Bil (com b1) p) (Bil c2 p) (S C) (S (com b1)) (S c2) (S p) (inertia b1) (Q *m _ *m _).
move=> B B1 B2 SC S1 S2 Sp I1 I2 hB; apply/matrixP => i j; move/matrixP/(_ i j): hB; rewrite !mxE.
move: (B i j) (B1 i j) (B2 i j) (SC i j) (S1 i j) (S2 i j) (Sp i j) (I1 i j) (I2 i j).
move=> x0 x1 x2 y0 y1 y2 z t1 t2 h.
have -> : t1 + m1 * y1 + (t2 + m2 * y2) - (m1 + m2) * y0 + (m1 + m2) * (y0 - x0 + z) =
  t1 + m1 * y1 + (t2 + m2 * y2) + (m1 + m2) * z - (m1 + m2) * x0 by ring.
by rewrite h; ring.
Qed.

(* sums of rigid links *)
Variable n : nat.
Implicit Types l : link R n.

Lemma trmx_rot Q : rotation Q -> Q *m Q^T = 1%:M.
Proof. by case=> h _; apply: mulmx1C. Qed.

Lemma Hb_q l q : rotation (rotm l) ->
  H_bottom l *m q = mass (bd l) *: com_velocity l (jac_top l *m q) (jac_bottom l *m q).
Proof.
move=> hr; rewrite /H_bottom /com_velocity mulmxDl -!scalemxAl -scalerDr addrC; congr (_ *: (_ + _)).
rewrite -skew_cross; set om := jac_bottom l *m q; set r := rotm l *m com (bd l).
have e : rotm l *m (skew (com (bd l)))^T *m (rotm l)^T = (skew r)^T.
  by rewrite /r (skew_rot _ hr) !trmx_mul trmxK mulmxA.
by rewrite e -mulmxA -/om skew_tr mulNmx !skew_cross; apply: vecP; rewrite !xyz; ring.
Qed.

Lemma skew_world l : rotation (rotm l) ->
  rotm l *m skew (com (bd l)) *m (rotm l)^T = skew (rotm l *m com (bd l)).
Proof. by move=> hr; rewrite (skew_rot _ hr). Qed.
Lemma skewT_world l : rotation (rotm l) ->
  rotm l *m (skew (com (bd l)))^T *m (rotm l)^T = (skew (rotm l *m com (bd l)))^T.
Proof. by move=> hr; rewrite (skew_rot _ hr) !trmx_mul trmxK mulmxA. Qed.
Lemma S_world l : rotation (rotm l) ->
  rotm l *m (skew (com (bd l)) *m (skew (com (bd l)))^T) *m (rotm l)^T =
  skew (rotm l *m com (bd l)) *m (skew (rotm l *m com (bd l)))^T.
Proof.
move=> hr; rewrite -(skewT_world hr) -(skew_world hr) !mulmxA -(mulmxA _ (rotm l)^T (rotm l)).
by case: hr => -> _; rewrite mulmx1.
Qed.

Lemma H_topE l : rotation (rotm l) -> let r := rotm l *m com (bd l) in let m := mass (bd l) in
  H_top l = (world_inertia l + m *: (skew r *m (skew r)^T) + m *: (skew (xpos l) *m (skew r)^T)) *m jac_bottom l
            + m *: (skew r + skew (xpos l)) *m jac_top l.
Proof.
move=> hr r m; rewrite /H_top -/m (skew_world hr) -/r -scalerDr; congr (_ *m _ + _).
rewrite mulmxDr mulmxDl -scalemxAr -scalemxAl (S_world hr) -/r; congr (_ + _ *: _).
by rewrite -(skewT_world hr) !mulmxA.
Qed.

Lemma cross_anti a b : crossp a b = - crossp b a.
Proof. by apply: vecP; rewrite !xyz; ring. Qed.

Lemma Ht_q l q : rotation (rotm l) -> let vel := jac_top l *m q in let om := jac_bottom l *m q in
  H_top l *m q = world_inertia l *m om + crossp (xi l) (mass (bd l) *: com_velocity l vel om).
Proof.
move=> hr vel om; rewrite (H_topE hr) mulmxDl -!mulmxA -/vel -/om /com_velocity /xi.
set r := rotm l *m com (bd l); set m := mass (bd l); set W := world_inertia l.
rewrite !mulmxDl -!scalemxAl mulmxDl -!mulmxA skew_tr mulNmx !mulmxN !skew_cross.
rewrite crossZr (cross_anti r om) !crossNr !opprK crossD !crossDr -!addrA; congr (_ + _).
move: (crossp r (crossp om r)) (crossp (xpos l) (crossp om r)) (crossp r vel) (crossp (xpos l) vel).
by move=> A B C D; rewrite -!scalerDr; congr (_ *: _); 
rewrite [LHS]addrCA [RHS]addrCA; congr (_ + _); rewrite [LHS]addrCA [RHS]addrCA; congr (_ + _); exact: addrC.
Qed.

Lemma rotation_trmx Q : rotation Q -> rotation Q^T.
Proof. by case=> h d; split; rewrite ?det_tr // trmxK; apply: mulmx1C. Qed.

Lemma baseframeE l c : rotation (rotm l) ->
  let d := xpos l - c in
  let Ai := block_mx (rotm l)^T 0 (skew (- ((rotm l)^T *m d)) *m (rotm l)^T) (rotm l)^T : 'M[R]_(3 + 3) in
  let e := xi l - c in let m := mass (bd l) in
  Ai^T *m GetSpatialInertiaMatrix (bd l) true *m Ai =
  block_mx (world_inertia l + m *: (skew e *m (skew e)^T)) (m *: skew e) (- (m *: skew e)) m%:M.
Proof.
move=> hr d Ai e m.
set r := rotm l *m com (bd l); set W := world_inertia l.
have er : e = r + d by rewrite /e /xi /r /d -addrA addrC -addrA (addrC (- c)) addrC.
pose D : 'M[R]_(3 + 3) := block_mx (rotm l)^T 0 0 (rotm l)^T.
pose T : 'M[R]_(3 + 3) := block_mx 1%:M 0 (- skew d) 1%:M.
have hA : Ai = D *m T.
  rewrite /Ai /D /T mulmx_block !mul0mx !mulmx0 !mulmx1 !add0r !addr0; congr block_mx.
  rewrite skewN (skew_rot _ (rotation_trmx hr)) trmxK mulNmx -!mulmxA (trmx_rot hr).
  by rewrite mulmx1 mulmxN.
have hD : D^T *m GetSpatialInertiaMatrix (bd l) true *m D =
    block_mx (W + m *: (skew r *m (skew r)^T)) (m *: skew r) (m *: (skew r)^T) m%:M.
  rewrite /D /GetSpatialInertiaMatrix -/m tr_block_mx !trmx0 trmxK !mulmx_block !mul0mx !mulmx0 !add0r !addr0.
  congr block_mx.
  - by rewrite mulmxDr mulmxDl -scalemxAr -scalemxAl (S_world hr).
  - by rewrite -scalemxAr -scalemxAl (skew_world hr).
  - by rewrite -scalemxAr -scalemxAl (skewT_world hr).
  - by rewrite mul_mx_scalar -scalemxAl (trmx_rot hr) scalemx1.
rewrite hA trmx_mul -!mulmxA (mulmxA D^T) (mulmxA (D^T *m _)) hD /T.
rewrite tr_block_mx !trmx0 !trmx1 linearN /= [(skew d)^T]skew_tr opprK !mulmx_block.
rewrite !mul0mx !mulmx0 !mul1mx !mulmx1 !add0r mul_mx_scalar mul_scalar_mx; congr block_mx.
- have es : skew e = skew r + skew d by rewrite er skewD.
  have et : (skew e)^T = (skew r)^T - skew d by rewrite es linearD /= [(skew d)^T]skew_tr.
  rewrite et es -scalerDr -scalemxAl -scalemxAr mulmxDr mulmxDl !mulmxBr !mulmxN.
  move: (skew r *m _) (skew d *m (skew r)^T) (skew d *m skew d) (skew r *m skew d) => A B C E.
  by rewrite -!addrA -!scalerDr.
- by rewrite -scalerDr -(skewD r) er.
- by rewrite skew_tr -scalerDr -opprD -(skewD r) er scalerN.
Qed.

Lemma momentum_term l c : rotation (rotm l) -> let d := xpos l - c in
  block_mx (world_inertia l + mass (bd l) *: (skew (xi l - c) *m (skew (xi l - c))^T)) (mass (bd l) *: skew (xi l - c))
           (- (mass (bd l) *: skew (xi l - c))) (mass (bd l))%:M
  *m (block_mx (rotm l) 0 (skew d *m rotm l) (rotm l) : 'M[R]_(3 + 3))
  *m (block_mx (rotm l)^T 0 0 (rotm l)^T : 'M[R]_(3 + 3)) *m col_mx (w l) (v l) =
  col_mx (angular_momentum l (v l) (w l) c) (mass (bd l) *: com_velocity l (v l) (w l)).
Proof.
move=> hr d; set e := xi l - c; set m := mass (bd l); set W := world_inertia l.
have eAD : (block_mx (rotm l) 0 (skew d *m rotm l) (rotm l) : 'M[R]_(3 + 3)) *m (block_mx (rotm l)^T 0 0 (rotm l)^T : 'M[R]_(3 + 3)) =
    block_mx 1%:M 0 (skew d) 1%:M.
  by rewrite mulmx_block !mul0mx !mulmx0 !add0r !addr0 -mulmxA !(trmx_rot hr) mulmx1.
rewrite -(mulmxA (block_mx (W + _) _ _ _)) eAD -mulmxA !mul_block_col !mul0mx !addr0 !mul1mx mul_scalar_mx.
set u := skew d *m w l + v l.
have hu : com_velocity l (v l) (w l) = u - skew e *m w l.
  rewrite /com_velocity /u (cross_anti (w l)) -skew_cross /e /xi; set r := rotm l *m _.
  have -> : xpos l + r - c = r + d by rewrite /d addrAC addrC.
  rewrite (skewD r) mulmxDl; move: (skew d *m _) (skew r *m _) => P Q.
  by rewrite opprD (addrC P) addrACA subrr addr0.
congr col_mx.
- rewrite /angular_momentum -/e -/m -/W hu mulmxDl -addrA; congr (_ + _).
  rewrite -!scalemxAl crossZr -scalerDr -skew_cross mulmxBr addrC; congr (_ *: (_ + _)).
  by rewrite skew_tr mulmxN mulNmx mulmxA.
- by rewrite hu mulNmx -scalemxAl -scalerN -scalerDr addrC.
Qed.

Lemma block_sum (T : Type) (s : seq T) (A B C D : T -> 'M[R]_3) :
  \sum_(x <- s) (block_mx (A x) (B x) (C x) (D x) : 'M[R]_(3 + 3)) =
  block_mx (\sum_(x <- s) A x) (\sum_(x <- s) B x) (\sum_(x <- s) C x) (\sum_(x <- s) D x).
Proof.
elim: s => [|x s IH]; last by rewrite !big_cons IH add_block_mx.
by rewrite !big_nil; apply/matrixP => i j; rewrite -[i]splitK -[j]splitK; case: (split i) => ?; case: (split j) => ?; rewrite !(block_mxEul, block_mxEur, block_mxEdl, block_mxEdr) !mxE.
Qed.
Lemma col_sum (T : Type) (s : seq T) (A B : T -> 'cV[R]_3) :
  \sum_(x <- s) (col_mx (A x) (B x) : 'cV[R]_(3 + 3)) = col_mx (\sum_(x <- s) A x) (\sum_(x <- s) B x).
Proof.
elim: s => [|x s IH]; last by rewrite !big_cons IH add_col_mx.
by rewrite !big_nil; apply/matrixP => i j; rewrite -[i]splitK; case: (split i) => ?; rewrite !(col_mxEu, col_mxEd) !mxE.
Qed.

Lemma eq_Forall (V : zmodType) (P : link R n -> Prop) s (f g : link R n -> V) :
  all_links P s -> (forall l, P l -> f l = g l) -> \sum_(l <- s) f l = \sum_(l <- s) g l.
Proof. by elim: s => [|l s IH] /=; rewrite ?big_nil // !big_cons => -[hl hs] h; rewrite (h _ hl) IH. Qed.
End InrProofs.
