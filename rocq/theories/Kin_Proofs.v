From mathcomp Require Import all_ssreflect all_algebra.
From mathcomp Require Import ring.
From Verif Require Import LinAlg Dyn_Model Dyn_Proofs Geo_Model Geo_Spec Geo_Proofs Inr_Model Inr_Spec Inr_Proofs Kin_Model Kin_Spec.
Set Implicit Arguments.
Unset Strict Implicit.
Unset Printing Implicit Defensive.
Import Order.TTheory GRing.Theory Num.Theory.
Local Open Scope ring_scope.

Section KinProofs.
Variable R : realFieldType.

Lemma mulmx_ext a b (M N : 'M[R]_(a, b)) : (forall v : 'cV[R]_b, M *m v = N *m v) -> M = N.
Proof.
move=> h; apply/matrixP => i j; have := h (delta_mx j 0); rewrite -!colE => /matrixP/(_ i 0).
by rewrite !mxE.
Qed.

Lemma dotC k (a b : 'cV[R]_k) : dot a b = dot b a.
Proof. by rewrite /dot -[in RHS](trmxK a) -trmx_mul [RHS]mxE. Qed.
Lemma dotDl k (a b c : 'cV[R]_k) : dot (a + b) c = dot a c + dot b c.
Proof. by rewrite /dot linearD mulmxDl mxE. Qed.
Lemma dotDr k (a b c : 'cV[R]_k) : dot c (a + b) = dot c a + dot c b.
Proof. by rewrite /dot mulmxDr mxE. Qed.
Lemma dotZr k x (a b : 'cV[R]_k) : dot a (x *: b) = x * dot a b.
Proof. by rewrite /dot -scalemxAr mxE. Qed.
Lemma dotM k j (M : 'M[R]_(k, j)) a b : dot a (M *m b) = dot (M^T *m a) b.
Proof. by rewrite /dot trmx_mul trmxK mulmxA. Qed.
Lemma dot0 k (a : 'cV[R]_k) : dot a 0 = 0.
Proof. by rewrite /dot mulmx0 mxE. Qed.
Lemma dot_sumr (T : Type) (s : seq T) k (a : 'cV[R]_k) f : dot a (\sum_(x <- s) f x) = \sum_(x <- s) dot a (f x).
Proof. by rewrite /dot mulmx_sumr summxE. Qed.
Lemma dot_col i j (a c : 'cV[R]_i) (b d : 'cV[R]_j) : dot (col_mx a b) (col_mx c d) = dot a c + dot b d.
Proof. by rewrite /dot tr_col_mx mul_row_col mxE. Qed.
Lemma dot_ext k (a b : 'cV[R]_k) : (forall v, dot v a = dot v b) -> a = b.
Proof.
move=> h; apply/matrixP => i j; rewrite ord1; have := h (delta_mx i 0).
by rewrite /dot trmx_delta -!rowE !mxE.
Qed.
Lemma dot3 (a b : 'cV[R]_3) : dot a b = X a * X b + Y a * Y b + Z a * Z b.
Proof. by rewrite /dot mxE sum3 !mxE. Qed.
Lemma triple (a b c : 'cV[R]_3) : dot (crossp a b) c = dot a (crossp b c).
Proof. rewrite !dot3 /crossp !X3 !Y3 !Z3; ring. Qed.
Lemma unskew_skew (c : 'cV[R]_3) : unskew (skew c) = c.
Proof. by rewrite /unskew /skew; apply: vecP; rewrite ?X3 ?Y3 ?Z3 mxE !inordK. Qed.

Variable n : nat.
Local Notation sys := (3 + 3 + n)%N.
Implicit Types (l : link R sys) (links : seq (link R sys)).

Lemma vcomD l p q : vcom l (p + q) = vcom l p + vcom l q.
Proof. by rewrite /vcom /com_velocity !mulmxDr crossD addrACA. Qed.
Lemma omegaD l p q : omega l (p + q) = omega l p + omega l q.
Proof. by rewrite /omega mulmxDr. Qed.
Lemma world_sym l : (inertia (bd l))^T = inertia (bd l) -> (world_inertia l)^T = world_inertia l.
Proof. by move=> h; rewrite /world_inertia !trmx_mul trmxK h mulmxA. Qed.

(* polarisation *)
Lemma mass_bilinear links A : sane links -> mass_matrix links A -> forall p q, dot p (A *m q) =
  \sum_(l <- links) (mass (bd l) * dot (vcom l p) (vcom l q) + dot (omega l p) (world_inertia l *m omega l q)).
Proof.
move=> hs [As h] p q.
have e := h (p + q); move: (h p) (h q) => ep eq.
have sym : dot q (A *m p) = dot p (A *m q) by rewrite dotM As dotC.
have t2 : (2%:R : R) != 0 by rewrite pnatr_eq0.
apply: (mulfI t2).
have -> : 2%:R * dot p (A *m q) = energy2 links (p + q) - energy2 links p - energy2 links q.
  by rewrite -ep -eq -e mulmxDr !dotDl !dotDr sym; ring.
rewrite /energy2 -!sumrB mulr_sumr.
apply: (eq_Forall hs) => l [_ hl].
have symI : dot (omega l q) (world_inertia l *m omega l p) = dot (omega l p) (world_inertia l *m omega l q).
  by rewrite dotM world_sym // dotC.
have symv : dot (vcom l q) (vcom l p) = dot (vcom l p) (vcom l q) by rewrite dotC.
rewrite vcomD omegaD mulmxDr; move: symI symv; move: (vcom l p) (vcom l q) (omega l p) (omega l q) => a b c d symI symv.
by rewrite !dotDl !dotDr symI symv; ring.
Qed.

Lemma dotZl k x (a b : 'cV[R]_k) : dot (x *: a) b = x * dot a b.
Proof. by rewrite dotC dotZr dotC. Qed.

Definition base (a w : 'cV[R]_3) : 'cV[R]_sys := col_mx (col_mx a w) 0.

Lemma all_linksW (P P' : link R sys -> Prop) links : (forall l, P l -> P' l) -> all_links P links -> all_links P' links.
Proof. by move=> h; elim: links => //= l s IH [/h ? /IH]. Qed.

Lemma float_v links x0 R0 (P := fun l => forall a w, vcom l (base a w) = a + crossp (R0 *m w) (xi l - x0) /\ omega l (base a w) = R0 *m w) :
  floating links x0 R0 -> all_links P links.
Proof.
apply: all_linksW => l h a w; have [h1 h2] := h a w; rewrite /vcom /omega /base h1 h2; split=> //.
by rewrite /com_velocity /xi -[LHS]addrA; congr (_ + _); rewrite -crossDr; congr (crossp _ _); rewrite addrAC.
Qed.

Lemma base_rows links A x0 R0 q : sane links -> mass_matrix links A -> floating links x0 R0 ->
  usubmx A *m q = col_mx (total_momentum links q) (R0^T *m total_angular links x0 q) :> 'cV[R]_(3 + 3).
Proof.
move=> hs hA /float_v hf; apply: dot_ext => v; rewrite -[v]vsubmxK.
move: (usubmx v) (dsubmx v) => a w.
have -> : dot (col_mx a w) (usubmx A *m q) = dot (base a w) (A *m q).
  by rewrite -[in RHS](vsubmxK (A *m q)) /base dot_col -mul_usub_mx [dot 0 _]dotC dot0 addr0.
rewrite (mass_bilinear hs hA) dot_col dotM trmxK /total_momentum /total_angular !dot_sumr -big_split /=.
apply: (eq_Forall hf) => l hl; have [-> ->] := hl a w.
rewrite /angular_momentum -/(vcom l q) -/(omega l q); move: (vcom l q) (omega l q) => v' o.
by rewrite !dotDl !dotDr dotZr triple crossZr dotZr mulrDr -!addrA [X in _ + X]addrC.
Qed.

Lemma ang_shift links p c q : total_angular links (p + c) q = total_angular links p q - crossp c (total_momentum links q).
Proof.
rewrite /total_angular /total_momentum -skew_cross mulmx_sumr -sumrB; apply: eq_bigr => l _.
rewrite /angular_momentum opprD addrA crossD crossN addrA; congr (_ - _).
by rewrite skew_cross.
Qed.

Lemma lin_base links x0 R0 a w : floating links x0 R0 ->
  total_momentum links (base a w) = total_mass links *: a + crossp (R0 *m w) (\sum_(l <- links) mass (bd l) *: (xi l - x0)).
Proof.
move=> /float_v hf; rewrite /total_momentum /total_mass scaler_suml -skew_cross mulmx_sumr -big_split /=.
by apply: (eq_Forall hf) => l hl; have [-> _] := hl a w; rewrite scalerDr skew_cross crossZr.
Qed.

Lemma sub_base (A : 'M[R]_sys) a w : @usubmx R (3 + 3) n sys A *m base a w = @ulsubmx R (3 + 3) n (3 + 3) n A *m col_mx a w.
Proof. by rewrite -[@usubmx R (3 + 3) n sys A]hsubmxK /base mul_row_col mulmx0 addr0. Qed.

Section Blocks.
Variables (links : seq (link R sys)) (A : 'M[R]_sys) (x0 c : 'cV[R]_3) (R0 : 'M[R]_3).
Hypothesis hs : sane links.
Hypothesis hA : mass_matrix links A.
Hypothesis hf : floating links x0 R0.
Hypothesis hR : rotation R0.
Hypothesis hc : total_mass links *: c = \sum_(l <- links) mass (bd l) *: (xi l - x0).

Let A00 : 'M[R]_(3 + 3) := @ulsubmx R (3 + 3) n (3 + 3) n A.

Lemma rotR (v : 'cV[R]_3) : R0 *m (R0^T *m v) = v.
Proof. by case: hR => h _; rewrite mulmxA (mulmx1C h) mul1mx. Qed.

Lemma block_base a w : A00 *m col_mx a w = col_mx (total_momentum links (base a w)) (R0^T *m total_angular links x0 (base a w)).
Proof. by rewrite -sub_base (base_rows _ hs hA hf). Qed.

Lemma ang_trans a : total_angular links x0 (base a 0) = total_mass links *: crossp c a.
Proof.
rewrite /total_angular -crossZ hc cross_anti -skew_cross mulmx_sumr -sumrN.
apply: (eq_Forall (float_v hf)) => l hl.
have [h1 h2] := hl a 0; rewrite /angular_momentum -/(vcom l _) -/(omega l _) h1 h2 !mulmx0 add0r.
by rewrite -[crossp 0 _]skew_cross skew0 mul0mx addr0 skew_cross -cross_anti crossZ crossZr.
Qed.

Lemma block30 (a : 'cV[R]_3) : @dlsubmx R 3 3 3 3 A00 *m a = R0^T *m (total_mass links *: crossp c a).
Proof.
have := block_base a 0; rewrite -[in LHS](submxK A00) mul_block_col mulmx0 addr0 ang_trans.
by rewrite mulmx0 addr0 => /eq_col_mx[_ ->].
Qed.

Lemma ang_rot w : total_angular links x0 (base 0 w) = (\sum_(l <- links) (world_inertia l + mass (bd l) *: S (xi l - x0))) *m (R0 *m w).
Proof.
rewrite /total_angular mulmx_suml; apply: (eq_Forall (float_v hf)) => l hl.
have [h1 h2] := hl 0 w; rewrite /angular_momentum -/(vcom l _) -/(omega l _) h1 h2 add0r mulmxDl; congr (_ + _).
by rewrite crossZr [crossp (R0 *m w) _]cross_anti crossNr /S -scalemxAl -mulmxA skew_tr mulNmx mulmxN !skew_cross.
Qed.

Lemma block33 (u : 'cV[R]_3) : @drsubmx R 3 3 3 3 A00 *m (R0^T *m u) = R0^T *m ((\sum_(l <- links) (world_inertia l + mass (bd l) *: S (xi l - x0))) *m u).
Proof.
have := block_base 0 (R0^T *m u); rewrite -[in LHS](submxK A00) mul_block_col !mulmx0 !add0r ang_rot rotR.
by move=> /eq_col_mx[_ ->].
Qed.

Lemma com_block : R0 *m @dlsubmx R 3 3 3 3 A00 = total_mass links *: skew c.
Proof.
by apply: mulmx_ext => v; rewrite -mulmxA block30 rotR -scalemxAl skew_cross.
Qed.
Lemma inertia_block : R0 *m @drsubmx R 3 3 3 3 A00 *m R0^T = \sum_(l <- links) (world_inertia l + mass (bd l) *: S (xi l - x0)).
Proof. by apply: mulmx_ext => v; rewrite -!mulmxA block33 rotR. Qed.

Lemma Icom_sum : R0 *m @drsubmx R 3 3 3 3 A00 *m R0^T - total_mass links *: S c =
  \sum_(l <- links) inertia_about (moved (bd l) (rotm l) (xpos l)) (x0 + c).
Proof.
rewrite inertia_block.
have hb : \sum_(l <- links) mass (bd l) *: Bil (xi l - x0) c = total_mass links *: S c + total_mass links *: S c.
  rewrite -scalerDr -/(Bil c c) -BilZ hc; elim: (links) => [|l s IH]; last by rewrite !big_cons IH -BilZ -BilD.
  by rewrite !big_nil /Bil skew0 trmx0 mulmx0 mul0mx addr0.
have -> : \sum_(l <- links) inertia_about (moved (bd l) (rotm l) (xpos l)) (x0 + c) =
  \sum_(l <- links) ((world_inertia l + mass (bd l) *: S (xi l - x0)) - mass (bd l) *: Bil (xi l - x0) c + mass (bd l) *: S c).
  apply: eq_bigr => l _; rewrite /inertia_about /moved /= -/(world_inertia l) point_inertia_skew -/(S _).
  rewrite [rotm l *m com (bd l) + _]addrC -/(xi l) opprD addrA SB scalerDr scalerBr -!addrA; congr (_ + (_ + _)).
rewrite [RHS]big_split /= [X in _ = X + _]sumrB hb -[X in _ = _ + X]scaler_suml -/(total_mass links) opprD.
by rewrite -[RHS]addrA -[in RHS]addrA addNr addr0.
Qed.

Hypothesis hpos : forall qd, qd != 0 -> 0 < energy2 links qd.

Lemma mtot_pos : 0 < total_mass links.
Proof.
pose a : 'cV[R]_3 := vec3 1 0 0.
have nz : base a 0 != 0.
  apply/eqP => /(congr1 (fun v => X (usubmx (usubmx (v : 'cV[R]_(3 + 3 + n)))))); rewrite /base !col_mxKu /a X3 !linear0 /X mxE => /eqP.
  by rewrite oner_eq0.
have := hpos nz; case: hA => _ <-.
have -> : dot (base a 0) (A *m base a 0) = total_mass links.
  rewrite (mass_bilinear hs hA) -[RHS]mulr1 /total_mass mulr_suml; apply: (eq_Forall (float_v hf)) => l hl.
  have [-> ->] := hl a 0; rewrite !mulmx0 dot0 addr0 -skew_cross skew0 mul0mx addr0.
  by rewrite dot3 /a X3 Y3 Z3; ring.
by [].
Qed.

Lemma Icom_unit : R0 *m @drsubmx R 3 3 3 3 A00 *m R0^T - total_mass links *: S c \in unitmx.
Proof.
apply: unitmx_ker => u e; apply/eqP; apply: contraT => nu.
pose a := crossp c u; pose w := R0^T *m u.
have nz : base a w != 0.
  apply: contra_neq nu => /(congr1 (fun v => dsubmx (usubmx (v : 'cV[R]_(3 + 3 + n))))).
  by rewrite /base col_mxKu col_mxKd !linear0 /w => /(congr1 (mulmx R0)); rewrite rotR mulmx0.
have := hpos nz; case: (hA) => _ <-.
have -> : dot (base a w) (A *m base a w) = 0; last by rewrite ltxx.
have e1 : usubmx A *m base a w = A00 *m col_mx a w by rewrite sub_base.
rewrite -[A *m base a w](@vsubmxK R (3 + 3) n) /base dot_col [dot 0 _]dotC dot0 addr0 -mul_usub_mx e1 block_base.
rewrite (lin_base _ _ hf) dot_col -hc rotR crossZr.
have -> : total_mass links *: a + total_mass links *: crossp u c = 0 by rewrite /a (cross_anti c) scalerN addNr.
rewrite dot0 add0r dotM trmxK rotR.
have eb : base a w = base a 0 + base 0 w by rewrite /base !add_col_mx !addr0 add0r.
have -> : total_angular links x0 (base a w) = (R0 *m @drsubmx R 3 3 3 3 A00 *m R0^T - total_mass links *: S c) *m u.
  rewrite inertia_block eb.
  have -> : total_angular links x0 (base a 0 + base 0 w) = total_angular links x0 (base a 0) + total_angular links x0 (base 0 w).
    rewrite /total_angular -big_split /=; apply: eq_bigr => l _; rewrite /angular_momentum -!/(vcom l _) -!/(omega l _).
    by rewrite vcomD omegaD mulmxDr scalerDr crossDr addrACA.
  rewrite ang_trans ang_rot rotR mulmxBl addrC; congr (_ + _).
  by rewrite /S -scalemxAl -mulmxA skew_tr mulNmx mulmxN scalerN opprK !skew_cross.
by rewrite e dot0.
Qed.
End Blocks.

(* what one complete call returns *)
Lemma update_run st q qd qdd e l0 ls :
  size q = k_qsize st -> size qd = sys -> size qdd = sys -> e_links e = l0 :: ls ->
  sane (e_links e) -> mass_matrix (e_links e) (e_crba e) -> (forall v, v != 0 -> 0 < energy2 (e_links e) v) ->
  floating (e_links e) (xpos l0) (rotm l0) -> xpos l0 = colv 3 q -> k_mass st = total_mass (e_links e) ->
  exists st', UpdateKinematics st q qd qdd true e = Some st' /\
    [/\ k_mass st *: k_compos st' = \sum_(l <- e_links e) mass (bd l) *: xi l,
        forall v, k_CMM st' *m v = col_mx (total_momentum (e_links e) v) (total_angular (e_links e) (k_compos st') v),
        k_SI st' = block_mx (k_mass st)%:M 0 0 (\sum_(l <- e_links e) inertia_about (moved (bd l) (rotm l) (xpos l)) (k_compos st')) /\
        forall v, dot (k_G st') v = 981%:R / 100%:R * \sum_(l <- e_links e) mass (bd l) * Z (vcom l v),
        k_A st' = e_crba e /\ k_A st' *m k_Ainv st' = 1%:M &
        let b := k_back st' in let v := colv sys qd in
        [/\ b_xpos b = k_compos st' /\ b_xipos b = k_compos st', b_mass b = k_mass st,
            b_inertia b = \sum_(l <- e_links e) inertia_about (moved (bd l) (rotm l) (xpos l)) (k_compos st'),
            b_vi b = b_v b /\ k_mass st *: b_v b = total_momentum (e_links e) v &
            b_inertia b *m b_w b = total_angular (e_links e) (k_compos st') v]] /\
    [/\ k_q st' = q, k_qd st' = qd, k_qdd st' = qdd, k_links st' = e_links e &
        k_B st' = e_nle e /\ k_mass st' = k_mass st /\ k_qsize st' = k_qsize st].
Proof.
move=> hq hqd hqdd el hs hA hpos hf hx hm.
have hR : rotation (rotm l0) by move: hs; rewrite el /= => -[[]].
have mp := mtot_pos hs hA hf hpos; have mnz : total_mass (e_links e) != 0 by rewrite gt_eqF.
pose c : 'cV[R]_3 := (total_mass (e_links e))^-1 *: \sum_(l <- e_links e) mass (bd l) *: (xi l - xpos l0).
have hc : total_mass (e_links e) *: c = \sum_(l <- e_links e) mass (bd l) *: (xi l - xpos l0) by rewrite scalerA divff // scale1r.
have uA : e_crba e \in unitmx.
  apply: unitmx_ker => v ev; apply/eqP; apply: contraT => /hpos; case: (hA) => _ <-.
  by rewrite ev dot0 ltxx.
have h1 := com_block hs hA hf hR hc; have h2 := Icom_sum hs hA hf hR hc; have h3 := Icom_unit hs hA hf hR hc hpos.
rewrite /UpdateKinematics hq hqd hqdd !eqxx /= inverseE // {1}el hm (negbTE mnz) h1 scalerA mulVf // scale1r unskew_skew.
rewrite -/(S c) h2 in h3 *.
set I := \sum_(l <- e_links e) _ in h2 h3 *.
move: {c}(c : 'cV[R]_3) hc h1 @I h2 h3 => c hc h1 I h2 h3.
set M := total_mass (e_links e) in hm mp mnz hc h1 h2 h3 *.
set SI := block_mx M%:M 0 0 I.
have uSI : SI \in unitmx by rewrite unitmxE det_ublock det_scalar unitrM unitrX ?unitfE // -unitfE -unitmxE h3.
rewrite inverseE //; set CMM := block_mx _ _ _ _ *m _.
have eC v : CMM *m v = col_mx (total_momentum (e_links e) v) (total_angular (e_links e) (xpos l0 + c) v).
  rewrite /CMM -mulmxA (base_rows _ hs hA hf) mul_block_col !mul0mx mul1mx addr0 (rotR hR) ang_shift.
  by rewrite skew_tr mulNmx skew_cross addrC.
have eS (v : 'cV[R]_sys) : SI *m (invmx SI *m CMM *m v) = CMM *m v by rewrite !mulmxA mulmxV // mul1mx.
have eSv (v : 'cV[R]_sys) : M *: usubmx (invmx SI *m CMM *m v) = total_momentum (e_links e) v /\
    I *m dsubmx (invmx SI *m CMM *m v) = total_angular (e_links e) (xpos l0 + c) v.
  have := eS v; rewrite -[in LHS](vsubmxK (invmx SI *m CMM *m v)) eC /SI mul_block_col !mul0mx addr0 add0r.
  by rewrite mul_scalar_mx => /eq_col_mx.
have ec : c + colv 3 q = xpos l0 + c by rewrite hx addrC.
eexists; split; first by reflexivity.
rewrite /= ec; split; last by split.
split=> //.
- rewrite scalerDr hc /M /total_mass scaler_suml -big_split /=; apply: eq_bigr => l _.
  by rewrite scalerBr addrC addrNK.
- split=> //.
  move=> v; have [e1 _] := eSv v.
  have gen (J : 'M[R]_(3, sys)) g : dot (- J^T *m (M *: vec3 0 0 (- g))) v = g * Z (M *: (J *m v)).
    by rewrite dotC dotM linearN /= trmxK mulNmx; move: (J *m v) => y; rewrite dot3 /X /Y /Z !mxE !inordK //=; ring.
  rewrite gen mul_usub_mx e1 /total_momentum; congr (_ * _); rewrite /Z summxE.
  by apply: eq_bigr => l _; rewrite mxE.
- by split; rewrite // mulmxV.
- split=> //; have [e1 e2] := eSv (colv sys qd) => //.
Qed.
End KinProofs.
