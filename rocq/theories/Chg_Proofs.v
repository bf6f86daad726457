From Coq Require Import String Ascii.
From mathcomp Require Import all_ssreflect all_algebra.
From mathcomp Require Import ring.
From Verif Require Import LinAlg Dyn_Model Dyn_Proofs Geo_Model Geo_Spec Geo_Proofs Inr_Model Inr_Spec Inr_Proofs Kin_Model Kin_Spec Kin_Proofs Con_Model Chg_Model Chg_Spec.
Set Implicit Arguments.
Unset Strict Implicit.
Unset Printing Implicit Defensive.
Import Order.TTheory GRing.Theory Num.Theory.
Local Open Scope ring_scope.

Section Tables.
Lemma onth_put (T : Type) (s : seq T) i (x : T) k : (i < size s)%N ->
  onth (put s i x) k = if k == i then Some x else onth s k.
Proof.
rewrite /onth /put; elim: s i k => [|a s IH] [|i] [|k] //=; rewrite ?drop0 // ltnS => hi.
by rewrite IH.
Qed.
Lemma onth_size (T : Type) (s : seq T) i (x : T) : onth s i = Some x -> (i < size s)%N.
Proof.
rewrite /onth; case: (ltnP i (size s)) => // h; rewrite drop_oversize //.
Qed.
Lemma size_put (T : Type) (s : seq T) i (x : T) : (i < size s)%N -> size (put s i x) = size s.
Proof. by elim: s i => [|a s IH] [|i] //=; rewrite ?drop0 // ltnS /put /= => /IH ->. Qed.

Variable R : fieldType.
Implicit Types (r : robot R).

Lemma find_from (ls : seq (nlink R)) name i : 
  match find_link_from i [seq l_name l | l <- ls] name with
  | Some k => exists j l, [/\ k = (i + j)%N, onth ls j = Some l, strcaseeq (l_name l) name &
      forall i' li, (i' < j)%N -> onth ls i' = Some li -> strcaseeq (l_name li) name = false]
  | None => forall j l, onth ls j = Some l -> strcaseeq (l_name l) name = false
  end.
Proof.
elim: ls i => [|l ls IH] i /=; first by case.
case e: (strcaseeq (l_name l) name); first by exists 0%N, l; split; rewrite ?addn0.
have := IH i.+1; case: (find_link_from _ _ _) => [k [j [l' [-> h1 h2 h3]]]|h].
  exists j.+1, l'; split=> //; first by rewrite addSnnS.
  by case=> [|i'] li; [move=> _ [<-]|move=> hi; apply: h3].
by case=> [|j] l'; [move=> [<-]|apply: h].
Qed.
Lemma getLinkID_some r name k l : first_named r name k l -> getLinkID r name = Some k.
Proof.
case=> h1 h2 h3; have := find_from (r_link r) name 0; rewrite /getLinkID /find_link.
case: (find_link_from _ _ _) => [k' [j [l' [-> h1' h2' h3']]]|h]; last by rewrite (h _ _ h1) in h2.
rewrite add0n; congr Some; case: (ltngtP j k) => // hj.
  by rewrite (h3 _ _ hj h1') in h2'.
by rewrite (h3' _ _ hj h1) in h2.
Qed.
Lemma getLinkID_ok r name k : getLinkID r name = Some k -> exists l, first_named r name k l.
Proof.
have := find_from (r_link r) name 0; rewrite /getLinkID /find_link.
by case: (find_link_from _ _ _) => // k' [j [l' [-> h1' h2' h3']]] [<-]; exists l'.
Qed.
Lemma getLinkID_none r name : (forall k l, onth (r_link r) k = Some l -> strcaseeq (l_name l) name = false) ->
  getLinkID r name = None.
Proof.
move=> h; case e: (getLinkID r name) => [k|//]; have [l [h1 h2 _]] := getLinkID_ok e.
by rewrite (h _ _ h1) in h2.
Qed.

Lemma strcase_cong a b : strcaseeq a b -> forall s, strcaseeq s a = strcaseeq s b.
Proof.
elim: a b => [|x a IH] [|y b] //= /andP[/Ascii.eqb_eq e /IH h] [|z s] //=.
by rewrite e h.
Qed.

Lemma create_describes (b : body R) : describes (createFromMassComInertiaC b) b.
Proof. by split=> //=; rewrite /inertia_about subr0 point_inertia_skew. Qed.

Lemma put_split (T : Type) (s : seq T) i (x : T) : onth s i = Some x -> s = take i s ++ x :: drop i.+1 s.
Proof.
rewrite /onth => h; rewrite -[LHS](cat_take_drop i s); congr (_ ++ _).
by elim: s i h => [|a s IH] [|i] //=; [move=> [->]; rewrite drop0|apply: IH].
Qed.
Lemma mass_put r k l (l' : nlink R) : onth (r_link r) k = Some l -> l_body_id l' = l_body_id l -> isSome (l_body_id l) ->
  \sum_(l <- put (r_link r) k l' | isSome (l_body_id l)) mass (l_body l) = mass_of_links r - mass (l_body l) + mass (l_body l').
Proof.
move=> h e hs; rewrite /mass_of_links [in RHS](put_split h) /put !big_cat !big_cons /= e hs.
set a := \sum_(_ <- _ | _) _; set b := \sum_(_ <- _ | _) _.
by move: (mass _) (mass _) => u v; ring.
Qed.
End Tables.

Section Stale.
Variable R : realFieldType.
Variable n : nat.
Local Notation sys := (3 + 3 + n)%N.

Lemma psd_S (a u : 'cV[R]_3) : 0 <= dot u (S a *m u).
Proof.
rewrite /S -mulmxA dotM; have -> : (skew a)^T *m u = - crossp a u by rewrite skew_tr mulNmx skew_cross.
rewrite dot3; move: (- _) => y.
by rewrite !addr_ge0 // -expr2 sqr_ge0.
Qed.
Lemma S_scale k (a : 'cV[R]_3) : S (k *: a) = (k * k) *: S a.
Proof. by rewrite /S skewZ linearZ /= -scalemxAl -scalemxAr scalerA. Qed.

Section Pos.
Variables (links : seq (link R sys)) (A : 'M[R]_sys) (x0 c : 'cV[R]_3) (R0 : 'M[R]_3).
Hypothesis hs : sane links.
Hypothesis hA : mass_matrix links A.
Hypothesis hf : floating links x0 R0.
Hypothesis hR : rotation R0.
Hypothesis hc : total_mass links *: c = \sum_(l <- links) mass (bd l) *: (xi l - x0).
Hypothesis hpos : forall qd, qd != 0 -> 0 < energy2 links qd.
Let A00 : 'M[R]_(3 + 3) := @ulsubmx R (3 + 3) n (3 + 3) n A.
Let I := R0 *m @drsubmx R 3 3 3 3 A00 *m R0^T.

Lemma Icom_pos u : u != 0 -> 0 < dot u ((I - total_mass links *: S c) *m u).
Proof.
move=> nu; pose a := crossp c u; pose w := R0^T *m u.
have nz : base n a w != 0.
  apply: contra_neq nu => /(congr1 (fun v => dsubmx (usubmx (v : 'cV[R]_(3 + 3 + n))))).
  by rewrite /base col_mxKu col_mxKd !linear0 /w => /(congr1 (mulmx R0)); rewrite (rotR hR) mulmx0.
have := hpos nz; case: (hA) => _ <-; suff -> : dot (base n a w) (A *m base n a w) = dot u ((I - total_mass links *: S c) *m u) by [].
have e1 : usubmx A *m base n a w = A00 *m col_mx a w by rewrite sub_base.
rewrite -[A *m base n a w](@vsubmxK R (3 + 3) n) /base dot_col [dot 0 _]dotC dot0 addr0 -mul_usub_mx e1 (block_base hs hA hf).
rewrite (lin_base _ _ hf) dot_col -hc (rotR hR) crossZr.
have -> : total_mass links *: a + total_mass links *: crossp u c = 0 by rewrite /a (cross_anti c) scalerN addNr.
rewrite dot0 add0r dotM trmxK (rotR hR).
have eb : base n a w = base n a 0 + base n 0 w by rewrite /base !add_col_mx !addr0 add0r.
have -> // : total_angular links x0 (base n a w) = (I - total_mass links *: S c) *m u.
rewrite /I (inertia_block hs hA hf hR) eb.
have -> : total_angular links x0 (base n a 0 + base n 0 w) = total_angular links x0 (base n a 0) + total_angular links x0 (base n 0 w).
  rewrite /total_angular -big_split /=; apply: eq_bigr => l _; rewrite /angular_momentum -!/(vcom l _) -!/(omega l _).
  by rewrite vcomD omegaD mulmxDr scalerDr crossDr addrACA.
rewrite (ang_trans hf hc) (ang_rot hf) (rotR hR) mulmxBl addrC; congr (_ + _).
by rewrite /S -scalemxAl -mulmxA skew_tr mulNmx mulmxN scalerN opprK !skew_cross.
Qed.

(* with a total mass m not below the true one *)
Local Notation M := (total_mass links).
Lemma Icom_unit_stale m : total_mass links <= m ->
  I - m *: S (m^-1 *: \sum_(l <- links) mass (bd l) *: (xi l - x0)) \in unitmx.
Proof.
have M0 := mtot_pos hs hA hf hpos.
move=> hm; have m0 : 0 < m := lt_le_trans M0 hm.
apply: unitmx_ker => u e; apply/eqP; apply: contraT => /Icom_pos.
have hk : 0 <= M - M * M / m.
  have -> : M - M * M / m = M * (1 - M / m) by rewrite mulrBr mulr1 mulrA.
  apply: mulr_ge0; first exact: ltW.
  by rewrite subr_ge0 ler_pdivr_mulr // mul1r.
have k0 : 0 <= (M - M * M / m) * dot u (S c *m u) by rewrite mulr_ge0 // psd_S.
have : dot u ((I - m *: S (m^-1 *: \sum_(l <- links) mass (bd l) *: (xi l - x0))) *m u) =
       dot u ((I - M *: S c) *m u) + (M - M * M / m) * dot u (S c *m u).
  rewrite -hc scalerA S_scale scalerA.
  have -> : m * (m^-1 * M * (m^-1 * M)) = M * M / m.
    have nz : m != 0 by rewrite gt_eqF.
    by move: nz; move: M => y nz; field.
  rewrite !mulmxBl -!scalemxAl -dotZr -dotDr; congr dot.
  by rewrite scalerBl addrA addrNK.
rewrite e dot0 => e' h; have : 0 < 0 :> R by rewrite {2}e' ltr_spaddl.
by rewrite ltxx.
Qed.
End Pos.

Lemma stale_run (st : kstate R n) q qd qdd e l0 ls st' :
  size q = k_qsize st -> size qd = sys -> size qdd = sys -> e_links e = l0 :: ls ->
  sane (e_links e) -> mass_matrix (e_links e) (e_crba e) -> (forall v, v != 0 -> 0 < energy2 (e_links e) v) ->
  floating (e_links e) (xpos l0) (rotm l0) -> xpos l0 = colv 3 q ->
  UpdateKinematics st q qd qdd true e = Some st' ->
  [/\ k_mass st *: (k_compos st' - xpos l0) = \sum_(l <- e_links e) mass (bd l) *: (xi l - xpos l0),
      forall v, k_CMM st' *m v = col_mx (total_momentum (e_links e) v) (total_angular (e_links e) (k_compos st') v),
      forall v, dot (k_G st') v = 981%:R / 100%:R * \sum_(l <- e_links e) mass (bd l) * Z (vcom l v),
      k_A st' = e_crba e /\ k_A st' *m k_Ainv st' = 1%:M &
      b_xpos (k_back st') = k_compos st' /\ k_mass st *: b_v (k_back st') = total_momentum (e_links e) (colv sys qd)].
Proof.
move=> hq hqd hqdd el hs hA hpos hf hx.
have hR : rotation (rotm l0) by move: hs; rewrite el /= => -[[]].
have mp := mtot_pos hs hA hf hpos; have Mnz : total_mass (e_links e) != 0 by rewrite gt_eqF.
pose c0 : 'cV[R]_3 := (total_mass (e_links e))^-1 *: \sum_(l <- e_links e) mass (bd l) *: (xi l - xpos l0).
have hc0 : total_mass (e_links e) *: c0 = \sum_(l <- e_links e) mass (bd l) *: (xi l - xpos l0) by rewrite scalerA divff // scale1r.
have uA : e_crba e \in unitmx.
  apply: unitmx_ker => v ev; apply/eqP; apply: contraT => /hpos; case: (hA) => _ <-.
  by rewrite ev dot0 ltxx.
have h1 := com_block hs hA hf hR hc0.
rewrite /UpdateKinematics hq hqd hqdd !eqxx /= inverseE // {1}el.
set m := k_mass st; case: (altP (m =P 0)) => // mnz.
rewrite h1 -skewZ hc0 -skewZ unskew_skew.
set c := m^-1 *: _.
have hc : m *: c = \sum_(l <- e_links e) mass (bd l) *: (xi l - xpos l0) by rewrite scalerA divff // scale1r.
set Ic := rotm l0 *m _ *m _ - _; set SI := block_mx m%:M 0 0 Ic.
case eSI: (inverse SI) => [SIi|//].
have {eSI} uSI : SI *m SIi = 1%:M.
  by move: eSI; rewrite /inverse; case: ifP => // u [<-]; rewrite mulmxV.
set CMM := block_mx _ _ _ _ *m _.
have eC v : CMM *m v = col_mx (total_momentum (e_links e) v) (total_angular (e_links e) (xpos l0 + c) v).
  rewrite /CMM -mulmxA (base_rows _ hs hA hf) mul_block_col !mul0mx mul1mx addr0 (rotR hR) ang_shift.
  by rewrite skew_tr mulNmx skew_cross addrC.
have eSv (v : 'cV[R]_sys) : m *: usubmx (SIi *m CMM *m v) = total_momentum (e_links e) v.
  have : SI *m (SIi *m CMM *m v) = CMM *m v by rewrite !mulmxA uSI mul1mx.
  rewrite -[in LHS](vsubmxK (SIi *m CMM *m v)) eC /SI mul_block_col !mul0mx addr0 add0r.
  by rewrite mul_scalar_mx => /eq_col_mx[].
have ec : c + colv 3 q = xpos l0 + c by rewrite hx addrC.
case=> <-; rewrite /= ec; split=> //.
- by rewrite addrC addKr.
- move=> v; have e1 := eSv v.
  have gen (J : 'M[R]_(3, sys)) g : dot (- J^T *m (m *: vec3 0 0 (- g))) v = g * Z (m *: (J *m v)).
    by rewrite dotC dotM linearN /= trmxK mulNmx; move: (J *m v) => y; rewrite dot3 /X /Y /Z !mxE !inordK //=; ring.
  rewrite gen mul_usub_mx e1 /total_momentum; congr (_ * _); rewrite /Z summxE.
  by apply: eq_bigr => l _; rewrite mxE.
- by split; rewrite // mulmxV.
Qed.

Lemma stale_defined (st : kstate R n) q qd qdd e l0 ls :
  size q = k_qsize st -> size qd = sys -> size qdd = sys -> e_links e = l0 :: ls ->
  sane (e_links e) -> mass_matrix (e_links e) (e_crba e) -> (forall v, v != 0 -> 0 < energy2 (e_links e) v) ->
  floating (e_links e) (xpos l0) (rotm l0) -> xpos l0 = colv 3 q -> total_mass (e_links e) <= k_mass st ->
  exists st', UpdateKinematics st q qd qdd true e = Some st'.
Proof.
move=> hq hqd hqdd el hs hA hpos hf hx hm.
have hR : rotation (rotm l0) by move: hs; rewrite el /= => -[[]].
have mp := mtot_pos hs hA hf hpos; have Mnz : total_mass (e_links e) != 0 by rewrite gt_eqF.
pose c0 : 'cV[R]_3 := (total_mass (e_links e))^-1 *: \sum_(l <- e_links e) mass (bd l) *: (xi l - xpos l0).
have hc0 : total_mass (e_links e) *: c0 = \sum_(l <- e_links e) mass (bd l) *: (xi l - xpos l0) by rewrite scalerA divff // scale1r.
have uA : e_crba e \in unitmx.
  apply: unitmx_ker => v ev; apply/eqP; apply: contraT => /hpos; case: (hA) => _ <-.
  by rewrite ev dot0 ltxx.
have h1 := com_block hs hA hf hR hc0.
have mnz : k_mass st != 0 by rewrite gt_eqF // (lt_le_trans mp hm).
have u := Icom_unit_stale hs hA hf hR hc0 hpos hm.
rewrite /UpdateKinematics hq hqd hqdd !eqxx /= inverseE // {1}el (negbTE mnz).
rewrite h1 -skewZ hc0 -skewZ unskew_skew -/(S _) inverseE; first by eexists.
by rewrite unitmxE det_ublock det_scalar unitrM unitrX ?unitfE // -unitfE -unitmxE.
Qed.
End Stale.

Section Locked.
Variable R : realFieldType.
Variable n : nat.
Local Notation sys := (3 + 3 + n)%N.
Implicit Types (r l : link R sys) (q : 'cV[R]_sys).

Lemma rot_tr (Q : 'M[R]_3) : rotation Q -> Q *m Q^T = 1%:M. Proof. by case=> h _; exact: mulmx1C. Qed.

(* a carried link in terms of its body seen from the frame of r: mass, first moment and inertia at the origin *)
Lemma carried_world r Q x l : rotation (rotm r) -> carried r Q x l ->
  let b := moved (bd l) Q x in
  [/\ forall q, vcom l q = jac_top r *m q + crossp (jac_bottom r *m q) (rotm r *m com b),
      forall q, omega l q = jac_bottom r *m q,
      world_inertia l = rotm r *m inertia b *m (rotm r)^T &
      xi l = xpos r + rotm r *m com b].
Proof.
move=> hr [e1 e2 e3 e4] /=; split.
- by move=> q; rewrite /vcom /com_velocity e1 e3 e4 mulmxDr crossDr mulmxA -addrA; congr (_ + _); rewrite addrC.
- by move=> q; rewrite /omega e3.
- by rewrite /world_inertia e1 trmx_mul !mulmxA.
- by rewrite /xi e1 e2 mulmxDr mulmxA -addrA; congr (_ + _); rewrite addrC.
Qed.

Lemma pt_rot (Q : 'M[R]_3) c : rotation Q -> S (Q *m c) = Q *m S c *m Q^T.
Proof.
move=> hQ; have h : Q^T *m Q = 1%:M by case: hQ.
rewrite /S skew_rot // !trmx_mul trmxK !mulmxA; congr (_ *m _ *m _).
by rewrite -mulmxA h mulmx1.
Qed.
Lemma cross_S (a w : 'cV[R]_3) : crossp a (crossp w a) = S a *m w.
Proof. by rewrite (cross_anti w) crossNr /S -mulmxA skew_tr mulNmx mulmxN !skew_cross. Qed.

Lemma world_origin r Q x l : rotation (rotm r) -> carried r Q x l ->
  rotm r *m inertia_about (moved (bd l) Q x) 0 *m (rotm r)^T =
  world_inertia l + mass (bd l) *: S (rotm r *m com (moved (bd l) Q x)).
Proof.
move=> hr hc; have [_ _ -> _] := carried_world hr hc.
rewrite /inertia_about subr0 point_inertia_skew -/(S _) mulmxDr mulmxDl pt_rot //; congr (_ + _).
by rewrite -scalemxAr -scalemxAl.
Qed.

Lemma one_energy r Q x l q : rotation (rotm r) -> carried r Q x l ->
  let b := moved (bd l) Q x in let V := jac_top r *m q in let w := jac_bottom r *m q in
  mass (bd l) * dot (vcom l q) (vcom l q) + dot (omega l q) (world_inertia l *m omega l q) =
  mass b * dot V V + (2%:R * dot V (crossp w (rotm r *m (mass b *: com b))) +
    dot w (rotm r *m inertia_about b 0 *m (rotm r)^T *m w)).
Proof.
move=> hr hc /=; rewrite (world_origin hr hc); have [-> -> _ _] := carried_world hr hc.
rewrite mulmxDl -scalemxAl -cross_S /moved /= -scalemxAr crossZr.
set V := jac_top r *m q; set w := jac_bottom r *m q; set a := rotm r *m (_ + _).
rewrite !dotDl !dotDr !dotZr [dot (crossp w a) V]dotC [dot (crossp w a) _]triple.
by move: (dot w (_ *m w)) (dot w (crossp a _)) (dot V V) (dot V _) (mass _) => y z t u k; ring.
Qed.
Lemma one_momentum r Q x l q : rotation (rotm r) -> carried r Q x l ->
  let b := moved (bd l) Q x in
  mass (bd l) *: vcom l q = mass b *: (jac_top r *m q) + crossp (jac_bottom r *m q) (rotm r *m (mass b *: com b)).
Proof.
move=> hr hc /=; have [-> _ _ _] := carried_world hr hc.
by rewrite scalerDr -scalemxAr crossZr.
Qed.
Lemma one_angular r Q x l q p : rotation (rotm r) -> carried r Q x l ->
  let b := moved (bd l) Q x in let V := jac_top r *m q in let w := jac_bottom r *m q in
  angular_momentum l (jac_top l *m q) (jac_bottom l *m q) p =
  crossp (xpos r - p) (mass b *: V + crossp w (rotm r *m (mass b *: com b))) +
  (crossp (rotm r *m (mass b *: com b)) V + rotm r *m inertia_about b 0 *m (rotm r)^T *m w).
Proof.
move=> hr hc /=; rewrite -(one_momentum q hr hc) (world_origin hr hc).
rewrite /angular_momentum -/(vcom l q) -/(omega l q).
have [ev ew _ ex] := carried_world hr hc; rewrite ex ew addrAC crossD [LHS]addrC -[LHS]addrA; congr (_ + _).
rewrite ev scalerDr crossDr mulmxDl -scalemxAl -cross_S crossZr -scalemxAr [in RHS]crossZ [in RHS]/=.
by rewrite crossZr [X in _ = _ + X]addrC addrA.
Qed.
End Locked.
