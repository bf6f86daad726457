From mathcomp Require Import all_ssreflect all_algebra zify.
From Verif Require Import LinAlg Dyn_Model Dyn_Spec Dyn_Proofs Geo_Model Geo_Proofs Geo_Spec Inr_Model Inr_Proofs RedM_Model RedM_Spec.
Set Implicit Arguments.
Unset Strict Implicit.
Unset Printing Implicit Defensive.
Import GRing.Theory Num.Theory.
Local Open Scope ring_scope.

Section Block.
Variable R : realFieldType.
Variables v k n : nat.
Variables (A : 'M[R]_(v + n)) (J : 'M[R]_(k, n)).
Hypotheses (hA : posdef A) (hJ : row_free J).
Let Ai := invmx A.
Let JR : 'M[R]_(v + k, v + n) := block_mx 1%:M 0 0 J.
Let ARi := JR *m Ai *m JR^T.
Let AR := invmx ARi.

Lemma JRt_inj (x : 'cV[R]_(v + k)) : JR^T *m x = 0 -> x = 0.
Proof.
rewrite -[x]vsubmxK /JR tr_block_mx !linear0 trmx1 mul_block_col !mul0mx mul1mx addr0 add0r.
move=> h; have e := col_mx0 R v n 1; rewrite -e in h; case/eq_col_mx: h => -> h.
by rewrite (full_ker (free_tr_full hJ) h) col_mx0.
Qed.
Lemma ARi_posdef : posdef ARi.
Proof.
have [sA pA] := posdef_inv hA; split; first by rewrite /symmetric /ARi !trmx_mul trmxK sA mulmxA.
move=> x nx; have -> : quad ARi x = quad Ai (JR^T *m x) by rewrite /quad /ARi trmx_mul trmxK !mulmxA.
by apply: pA; apply: contra nx => /eqP /JRt_inj ->.
Qed.
Lemma AR_unit : ARi \in unitmx. Proof. exact: posdef_unit ARi_posdef. Qed.
Lemma Ai_A : Ai *m A = 1%:M. Proof. by rewrite mulVmx ?posdef_unit. Qed.
Lemma A_Ai : A *m Ai = 1%:M. Proof. by rewrite mulmxV ?posdef_unit. Qed.

Variable M : 'M[R]_(v, k).
Hypothesis hM : ursubmx A = M *m J.

Lemma AM_JR : row_mx (ulsubmx A) M *m JR = usubmx A.
Proof. by rewrite /JR mul_row_block !mulmx0 mulmx1 addr0 add0r -hM -[usubmx A]hsubmxK. Qed.
Lemma u_one p q : usubmx (1%:M : 'M[R]_(p + q)) = row_mx 1%:M 0.
Proof. by rewrite -[1%:M in LHS]submxK /block_mx col_mxKu -[1%:M in LHS]/(1%:M) scalar_mx_block block_mxKul block_mxKur. Qed.
Lemma AM_ARi : row_mx (ulsubmx A) M *m ARi = row_mx 1%:M 0.
Proof.
rewrite /ARi !mulmxA AM_JR mul_usub_mx A_Ai u_one /JR tr_block_mx mul_row_block !linear0 trmx1.
by rewrite !mul0mx ?mulmx0 !mul1mx !addr0.
Qed.
Lemma AR_top : usubmx AR = row_mx (ulsubmx A) M.
Proof.
have h := AM_ARi; rewrite -[row_mx _ M](mulmxK AR_unit) h -u_one mul_usub_mx mul1mx //.
Qed.
(* J_R_INV_T computed from its nonzero block is the dynamically consistent inverse *)
Lemma JR_INV : AR *m JR *m Ai = block_mx 1%:M 0 0 (dlsubmx AR *m ursubmx Ai + drsubmx AR *m J *m drsubmx Ai).
Proof.
have t : usubmx (AR *m JR *m Ai) = row_mx 1%:M 0.
  by rewrite -!mul_usub_mx AR_top AM_JR mul_usub_mx A_Ai u_one.
have l : lsubmx (AR *m JR *m Ai) = col_mx 1%:M 0.
  have e : JR^T *m (col_mx 1%:M 0 : 'M_(v + k, v)) = col_mx 1%:M 0.
    by rewrite /JR tr_block_mx mul_block_col !linear0 trmx1 ?mulmx0 ?mul0mx ?mulmx1 ?addr0.
  have e2 (p : nat) (Y : 'M[R]_(p, v + n)) : lsubmx Y = Y *m (col_mx 1%:M 0 : 'M_(v + n, v)).
    by rewrite -{2}[Y]hsubmxK mul_row_col mulmx0 mulmx1 addr0.
  by rewrite e2 -e !mulmxA -(mulmxA AR) -(mulmxA AR) -/ARi (mulVmx AR_unit) mul1mx.
rewrite -[LHS]submxK /ulsubmx t /ursubmx t row_mxKl row_mxKr; congr block_mx.
  by rewrite /dlsubmx -[LHS]/(lsubmx (dsubmx _)) lsubmxEsub dsubmxEsub -!mxsub_comp; move: l => /(congr1 dsubmx); rewrite col_mxKd dsubmxEsub lsubmxEsub -!mxsub_comp.
rewrite /drsubmx -mul_dsub_mx -mul_dsub_mx -mulmx_rsub -[dsubmx AR]hsubmxK.
rewrite /JR mul_row_block !mulmx0 mulmx1 addr0 add0r -[rsubmx Ai]vsubmxK mul_row_col.
have e1 : usubmx (rsubmx Ai) = rsubmx (usubmx Ai) by apply/matrixP => i j; rewrite !mxE.
have e2 : dsubmx (rsubmx Ai) = rsubmx (dsubmx Ai) by apply/matrixP => i j; rewrite !mxE.
by rewrite row_mxKr e1 e2.
Qed.
End Block.

Section Lead.
Variable R : realFieldType.
Variables c n : nat.
Variables (vcj : 'I_(6 + c) -> 'I_(6 + c + n)) (ncj : 'I_n -> 'I_(6 + c + n)).
Hypothesis L : leading vcj ncj.

Lemma J_R_lead (J : 'M[R]_(6, n)) : J_R vcj ncj J = block_mx 1%:M 0 0 J.
Proof.
have [l1 l2] := L; rewrite /J_R /block_mx; congr col_mx; apply/matrixP => i k; rewrite mxE; case: (split_ordP k) => k' ->.
- rewrite row_mxEl mxE l1 (inj_eq (@lshift_inj _ _)) [val (lshift _ _)]/= (eq_sym (val k')) val_eqE.
  by case: eqP => // _; rewrite andbF.
- rewrite row_mxEr mxE l1 eq_lrshift /=; have := ltn_ord i.
  by case: eqP => [|_ _]; [lia|rewrite andbF].
- rewrite row_mxEl mxE; case: pickP => // j; by rewrite l2 eq_rlshift.
rewrite row_mxEr; case: pickP => [j|/(_ k')]; rewrite l2 ?eqxx //.
by rewrite (inj_eq (@rshift_inj _ _)) => /eqP ->.
Qed.
Lemma block_prod (Ai : 'M[R]_(6 + c + n)) (J : 'M[R]_(6, n)) :
  (block_mx 1%:M 0 0 J : 'M[R]_(6 + c + 6, _)) *m Ai *m (block_mx 1%:M 0 0 J)^T =
  block_mx (ulsubmx Ai) (ursubmx Ai *m J^T) (J *m dlsubmx Ai) (J *m drsubmx Ai *m J^T).
Proof.
rewrite -{1}[Ai]submxK tr_block_mx trmx1 !linear0 !mulmx_block.
by rewrite !mul1mx !mulmx1 !mul0mx !mulmx0 !addr0 !add0r.
Qed.
Lemma A_R_inv_lead (Ai : 'M[R]_(6 + c + n)) (J : 'M[R]_(6, n)) : Ai^T = Ai ->
  A_R_inv vcj ncj Ai J = block_mx 1%:M 0 0 J *m Ai *m (block_mx 1%:M 0 0 J)^T.
Proof.
have [l1 l2] := L => s; rewrite block_prod /A_R_inv J_R_lead.
have e1 : rsubmx (\matrix_(i < 6 + c, k < 6 + c + n) Ai (vcj i) k) = ursubmx Ai.
  by apply/matrixP => i j; rewrite !mxE l1.
have e3 : (ursubmx Ai)^T = dlsubmx Ai by rewrite -{2}s; apply/matrixP => i j; rewrite !mxE.
rewrite e1 trmx_mul trmxK e3 /block_mx col_mxKd -/(block_mx _ _ _ _); congr col_mx; congr row_mx.
  by apply/matrixP => i j; rewrite !mxE !l1.
have e4 : row_mx 0 J *m Ai = J *m dsubmx Ai by rewrite -{1}[Ai]vsubmxK mul_row_col mul0mx add0r.
by rewrite e4 tr_row_mx -[dsubmx Ai]hsubmxK linear0 mul_mx_row mul_row_col mulmx0 add0r.
Qed.
End Lead.

Section Facts.
Variable R : realFieldType.
Variables c n : nat.
Variables (vcj : 'I_(6 + c) -> 'I_(6 + c + n)) (ncj : 'I_n -> 'I_(6 + c + n)).
Hypothesis L : leading vcj ncj.
Variables (A B : 'M[R]_(6 + c + n)) (SI : 'M[R]_(3 + 3)) (Q : 'M[R]_3) (G : 'cV[R]_(6 + c + n)).
Hypotheses (hA : posdef A) (hB : carried_by_base A B) (hQ : rotation Q).
Variable J : 'M[R]_(6, n).
Hypotheses (eJ : J_I_nc ncj B SI Q = Some J) (hJ : row_free J).

Lemma coupling : exists M : 'M[R]_(6 + c, 6), ursubmx A = M *m J.
Proof.
have [l1 l2] := L; have [b1 b2] := hB; move: eJ; rewrite /J_I_nc.
case: (InertiaMatrixSegment SI) => [[[I com0] mass0]|] //.
set T := \matrix_(i, j) _; set S := InertiaMatrix I mass0.
case e: (inverse S) => [Si|] //= -[eJ'].
have [uS eS] := inverseP e.
pose P : 'M[R]_(3 + 3) := block_mx Q 0 0 1%:M.
pose K : 'M[R]_(3 + 3) := block_mx 1%:M 0 (- (skew com0)^T) 1%:M.
have hT : T = P *m K *m S *m J.
  rewrite -eJ' eS !mulmxA mulmxK //.
  rewrite -[P *m K *m _]mulmxA mulmx_block !mul0mx !mulmx0 !mul1mx !mulmx1 !addr0 addNr add0r.
  rewrite -[P *m _ *m _]mulmxA (_ : block_mx 1%:M 0 0 1%:M = 1%:M :> 'M[R]_(3 + 3)); last by rewrite -scalar_mx_block.
  rewrite mul1mx mul_block_col !mul0mx mul1mx addr0 add0r mulmxA (trmx_rot hQ) mul1mx vsubmxK //.
exists (col_mx (P *m K *m S) 0); rewrite mul_col_mx mul0mx -hT.
apply/matrixP => i j; rewrite !mxE; case: (split_ordP i) => i' e'; rewrite e' ?b2 ?b1 ?mxE ?l2 //.
Qed.

Let Ai := invmx A.
Let JR : 'M[R]_(6 + c + 6, 6 + c + n) := block_mx 1%:M 0 0 J.
Let ARi := JR *m Ai *m JR^T.

Lemma Ai_sym : Ai^T = Ai. Proof. by have [] := posdef_inv hA. Qed.

Lemma red_facts : exists rd, [/\ ReducedDynamics vcj ncj Ai B SI Q G = Some rd,
  [/\ rd_JI rd = J, rd_JR rd = JR & rd_ARinv rd = ARi], rd_AR rd = invmx ARi,
  rd_JRinvT rd = rd_AR rd *m JR *m Ai /\ rd_JRinvT rd = block_mx 1%:M 0 0 (rd_JIinvT rd) &
  rd_GR rd = rd_JRinvT rd *m G /\ rd_NI rd = 1%:M - J^T *m rd_JIinvT rd].
Proof.
have [M hM] := coupling.
rewrite /ReducedDynamics eJ /= A_R_inv_lead ?Ai_sym // -/JR -/ARi inverseE ?(AR_unit hA hJ) //=.
eexists; split; first by reflexivity.
- by split=> //=; exact: (J_R_lead L).
- by [].
- by split=> //=; rewrite (JR_INV hA hJ hM).
split=> //=; rewrite -{3}[G]vsubmxK mul_block_col !mul0mx mul1mx addr0 add0r //.
Qed.
Lemma AR_posdef : posdef ARi. Proof. exact: ARi_posdef hA hJ. Qed.
End Facts.

Section Contact.
Variable R : realFieldType.
Variables c n m : nat.
Variables (A : 'M[R]_(6 + c + n)) (J : 'M[R]_(6, n)) (J_C : 'M[R]_(m, 6 + c + n)) (G : 'cV[R]_(6 + c + n)) (rd : reduced R c n).
Let Ai := invmx A.
Let JR : 'M[R]_(6 + c + 6, 6 + c + n) := block_mx 1%:M 0 0 J.
Let ARi := JR *m Ai *m JR^T.
Hypotheses (hA : posdef A) (hJ : row_free J) (hC : contacts_on_chains J_C).
Hypotheses (e1 : rd_JI rd = J) (e2 : rd_ARinv rd = ARi) (e3 : rd_AR rd = invmx ARi)
  (e4 : rd_JRinvT rd = rd_AR rd *m JR *m Ai) (e5 : rd_JRinvT rd = block_mx 1%:M 0 0 (rd_JIinvT rd))
  (e6 : rd_GR rd = rd_JRinvT rd *m G) (e7 : rd_NI rd = 1%:M - J^T *m rd_JIinvT rd).
Local Notation JCR := (J_CR J_C).

Lemma JC_split : J_C = JCR *m JR.
Proof. by rewrite /J_CR /JR mul_row_block !mulmx0 mul0mx mulmx1 !addr0 -{1}[J_C]hsubmxK hC. Qed.
Lemma JCR_pid : (c <= m)%N -> JCR *m (pid_mx (m + 6) : 'M_(6 + c + 6)) = JCR.
Proof.
move=> h; apply/matrixP => i j; rewrite mxE (bigD1 j) //= big1 => [|k nk].
  have -> : (pid_mx (m + 6) : 'M[R]_(6 + c + 6)) j j = (j < m + 6)%N%:R by rewrite mxE eqxx.
  rewrite addr0; case: ltnP => hj; rewrite ?mulr1 ?mulr0 //.
  rewrite /J_CR; case: (split_ordP j) => j' e; rewrite e ?row_mxEl ?row_mxEr ?mxE //.
  by move: hj; rewrite e /=; have := ltn_ord j'; lia.
have -> : (pid_mx (m + 6) : 'M[R]_(6 + c + 6)) k j = 0 by rewrite mxE (_ : (k == j :> nat) = false) //; apply/negbTE.
by rewrite mulr0.
Qed.
Lemma lambda_eq : JCR *m ARi *m JCR^T = J_C *m Ai *m J_C^T.
Proof. by have := JC_split; move: (J_CR J_C) => X ->; rewrite /ARi trmx_mul !mulmxA. Qed.

Lemma red_contact : (c <= m <= c + 6)%N ->
  ReducedCalcContactConstraint Ai J_C rd = CalculateContactConstraint (n := c + 6) JCR (rd_ARinv rd).
Proof.
case/andP=> h1 h2; rewrite /ReducedCalcContactConstraint /CalculateContactConstraint.
have -> : (m + 6 <= 6 + c + 6)%N by lia.
rewrite JCR_pid // e2 e1; case: (inverse _) => [La|] //=.
have e : row_mx (lsubmx (La *m J_C *m Ai)) (rsubmx (La *m J_C *m Ai) *m J^T) = La *m JCR *m ARi :> 'M[R]_(m, 6 + c + 6).
  have := JC_split; move: (J_CR J_C) => X ->; rewrite /ARi !mulmxA.
  set Y := La *m X *m JR *m Ai; rewrite -{3}[Y]hsubmxK /JR tr_block_mx trmx1 !linear0 mul_row_block.
  by rewrite !mulmx0 mulmx1 addr0 add0r.
by rewrite e.
Qed.

Lemma JCR_free : row_free J_C -> row_free JCR.
Proof.
rewrite -!row_leq_rank {1}JC_split => h; apply: leq_trans h _.
exact: mxrankM_maxl.
Qed.
Lemma JCR_base : contacts_fix_base (n := c + n) J_C -> contacts_fix_base (n := c + 6) JCR.
Proof.
rewrite /contacts_fix_base => h; apply: etrans h; congr (\rank _); apply/matrixP => i j; rewrite [LHS]mxE [RHS]mxE /J_CR.
have -> : @lshift 6 (c + 6) j = @lshift (6 + c) 6 (lshift c j) by apply: val_inj.
apply: etrans (@row_mxEl _ _ (6 + c) 6 (lsubmx J_C) 0 i (lshift c j)) _.
rewrite mxE; congr (J_C _ _); exact: val_inj.
Qed.
Lemma ARpd : posdef (rd_AR rd). Proof. by rewrite e3; apply: posdef_inv; apply: ARi_posdef. Qed.
Lemma inv_AR : invmx (rd_AR rd) = rd_ARinv rd. Proof. by rewrite e3 e2 invmxK. Qed.

Lemma JIJ : rd_JIinvT rd *m J^T = 1%:M.
Proof.
have : rd_JRinvT rd *m JR^T = 1%:M.
  by rewrite e4 e3 -!mulmxA (mulmxA JR) -/ARi mulVmx // AR_unit.
rewrite e5 /JR tr_block_mx trmx1 !linear0 mulmx_block !mulmx0 !mul0mx mul1mx !addr0 !add0r.
by rewrite [RHS](scalar_mx_block (6 + c) 6) => /eq_block_mx [].
Qed.
Lemma act_split (t1 : 'cV[R]_c) (k : nat) (t2 : 'cV[R]_k) :
  actuate (col_mx t1 t2) = (col_mx (col_mx 0 t1) t2 : 'cV[R]_(6 + c + k)).
Proof. by rewrite /actuate col_mxA castmx_id. Qed.

Lemma red_motion tR tN a f : contact_motion (n := c + n) A J_C G (distribute rd tR tN) a f ->
  contact_motion (n := c + 6) (rd_AR rd) JCR (rd_GR rd) tR (JR *m (a : 'cV_(6 + c + n))) f.
Proof.
case=> h1 h2; split; last by rewrite mulmxA -JC_split.
have: rd_JRinvT rd *m (A *m a + J_C^T *m f + G) = rd_JRinvT rd *m (actuate (distribute rd tR tN) : 'cV_(6 + c + n)).
  by congr (_ *m _).
rewrite !mulmxDr -e6 /distribute act_split {3}e5 mul_block_col !mul0mx mul1mx addr0 add0r mulmxDr.
rewrite e1 e7 !mulmxA JIJ mul1mx mulmxBr mulmx1 mulmxA JIJ mul1mx subrr mul0mx addr0.
have x1 : rd_JRinvT rd *m A = rd_AR rd *m JR by rewrite e4 mulmxKV // posdef_unit.
have x2 : rd_JRinvT rd *m J_C^T = JCR^T.
  have := JC_split; move: (J_CR J_C) => X ->.
  rewrite e4 trmx_mul !mulmxA -(mulmxA (rd_AR rd)) -(mulmxA (rd_AR rd)) -/ARi e3 mulVmx ?mul1mx //.
  exact: AR_unit.
rewrite x1 x2 => ->; rewrite -[in RHS](vsubmxK tR) act_split //.
Qed.

(* the joint torques are those of the reduced model for the contact chains and the reduced model's wrench on the rest *)
Section Grav.
Variables (rb : robot R m (c + 6)).
Hypotheses (hCf : row_free J_C) (hb : contacts_fix_base (n := c + n) J_C)
  (hrb : UpdateRobot (n := c + 6) (rd_AR rd) JCR (rd_GR rd) = Some rb).
Lemma red_still a f tg : tg = col_mx (usubmx (rb_tgrav rb)) (dsubmx G) -> contact_motion (n := c + n) A J_C G tg a f -> a = 0.
Proof.
move=> et hm.
have [aR [fR hmR]] := rb_motion_ex ARpd (JCR_free hCf) hrb (rb_tgrav rb).
have [_ /(_ (JCR_base hb)) [_ eq]] := rb_grav ARpd (JCR_free hCf) hrb hmR.
have m0 : contact_motion (n := c + n) A J_C G tg 0 fR.
  split; last by rewrite mulmx0.
  rewrite mulmx0 add0r et act_split.
  have := congr1 (fun y : 'cV_(6 + (c + 6)) => usubmx (y : 'cV_(6 + c + 6))) eq.
  rewrite -{1}[rb_tgrav rb]vsubmxK act_split col_mxKu => <-.
  have x1 : J_C^T = col_mx (lsubmx J_C)^T 0 by rewrite -{1}[J_C]hsubmxK hC tr_row_mx linear0.
  have x2 : JCR^T = col_mx (lsubmx J_C)^T 0 by rewrite /J_CR tr_row_mx linear0.
  have x3 : rd_GR rd = col_mx (usubmx G) (rd_JIinvT rd *m dsubmx G).
    by rewrite e6 e5 -{1}[G]vsubmxK mul_block_col !mul0mx mul1mx addr0 add0r.
  have y1 : J_C^T *m fR + G = col_mx ((lsubmx J_C)^T *m fR + usubmx G) (dsubmx G).
    by rewrite x1 -{1}[G]vsubmxK mul_col_mx mul0mx add_col_mx add0r.
  have y2 : JCR^T *m fR + rd_GR rd = col_mx ((lsubmx J_C)^T *m fR + usubmx G) (rd_JIinvT rd *m dsubmx G).
    by rewrite x2 x3 mul_col_mx mul0mx add_col_mx add0r.
  by apply: etrans y1 _; congr col_mx; apply: etrans (congr1 usubmx (esym y2)); rewrite col_mxKu.
have [rbf [hrf _ _ _ _]] := UpdateRobotE (n := c + n) G hA hCf.
have /(rb_motion hA hCf hrf) [-> _] := hm; by have /(rb_motion hA hCf hrf) [<- _] := m0.
Qed.
End Grav.
End Contact.
