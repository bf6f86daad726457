(* C129, C130: closed-form contact force redistribution of the reduced model. *)
From mathcomp Require Import all_ssreflect all_algebra.
From mathcomp Require Import zify all_real_closed.
From Verif Require Import LinAlg Geo_Model Geo_Spec Geo_Proofs Dyn_Model Dyn_Spec Dyn_Proofs Dyn_Props Dyn_Ex.
From Verif Require Import Redis_Model Redis_Spec Redis_Proofs Redis_Dyn Redis_Ex Redis_Props.
From Verif Require Import RedM_Model RedM_Spec RedM_Proofs RedM_Props RTq_Props RedC_Model.
Set Implicit Arguments.
Unset Strict Implicit.
Unset Printing Implicit Defensive.
Import Order.TTheory GRing.Theory Num.Theory.
Local Open Scope ring_scope.

Section Props.
Variable R : rcfType.
Variable zs : bool.

(* C130: which branch is taken depends on co_dof, the number of joints of the contact chains *)
Theorem C130_other_legs_refuted c n m k cs PCR (V2R : 'M[R]_(k, c + 6)) ft (t : rtorques R c n) : c <> 12%N -> (6 < m)%N ->
  (m <= c + 6)%N -> (m <= c + n)%N ->
  CalcContactRedistributeR (m := m) zs cs PCR V2R ft t = Some (RT (rt_grav t) (rt_task t) 0 0, false).
Proof.
move=> /eqP /negbTE c12 m6 l1 l2; rewrite /CalcContactRedistributeR m6 /CalcContactRedistributeRWith c12 /= /writeback l1 l2 /=.
congr (Some (RT _ _ _ _, _)); apply/matrixP => i j; rewrite !mxE; case: ifP => // _.
by case: insub => // x; rewrite mxE.
Qed.
Theorem C130_other_contacts_refuted n m k cs PCR (V2R : 'M[R]_(k, 12 + 6)) ft (t : rtorques R 12 n) : m <> 12%N -> (6 < m)%N ->
  CalcContactRedistributeR (m := m) zs cs PCR V2R ft t = None.
Proof.
move=> ne m6; rewrite /CalcContactRedistributeR m6 /CalcContactRedistributeRWith eqxx.
by case: eqP => // e; case: ne.
Qed.

(* the redistribution of the reduced model is that of Redis_Model on a robot with the same members *)
Lemma TwoFeetRE c k (rb : robot R (6 + 6) (c + 6)) (V2R : 'M[R]_(k, c + 6)) ft tin :
  TwoFeetR zs (cs_JCinvT (rb_cs rb)) (rb_PC rb) V2R ft tin = (if RedistributeTwo zs rb V2R ft tin is RedisOk tc then Some tc else None).
Proof.
rewrite /TwoFeetR /RedistributeTwo; case: (ft_cc ft) => [|c0 [|c1 cc]] //.
case: ContactRedistributetwomod => [[r e] res]; case: eqP => // e6.
by case: res => [r'|] //; case: inverse.
Qed.

(* the reduced robot as UpdateRobot would give it, and the gravity torque as a distribution of the reduced one *)
Lemma standing_robot c n K vcj ncj A B SI Q G J J_C rd cs tg tgR PC :
  @standing R c n K vcj ncj A B SI Q G J J_C rd cs tg tgR PC ->
  exists rb, [/\ posdef (rd_AR rd), row_free (J_CR J_C), UpdateRobot (n := c + 6) (rd_AR rd) (J_CR J_C) (rd_GR rd) = Some rb,
    rb_cs rb = cs /\ rb_PC rb = PC & forall tR tN, tg + distribute rd tR tN = distribute rd (tgR + tR) (dsubmx G + tN)].
Proof.
move=> [[L hA hB hQ] [eJ hJ erd] [hC hCf hm hb] ecs eg].
have [cs' [rbt [v1 v2 v3 v4 v5]]] := C82_contact_partial L hA hB hQ eJ hJ erd hC hCf hm.
have ecs' : rb_cs rbt = cs by rewrite v3; move: v1; rewrite ecs => -[].
have [rd' [h0 [h1 h2 h3] h4 [h5 h6] [h7 h8]]] := red_facts L G hA hB hQ eJ hJ.
have ? : rd' = rd by move: erd; rewrite h0 => -[].
subst rd'.
have pAR : posdef (rd_AR rd) by rewrite h4; apply: posdef_inv; apply: (AR_posdef hA hJ).
have fC := JCR_free J hC hCf.
have iA : invmx (rd_AR rd) = rd_ARinv rd by rewrite h4 h3 invmxK.
have [u1 u2 u3 u4] := rbE pAR fC v2.
have [etg etgR ePC] : [/\ tg = col_mx (usubmx tgR) (dsubmx G), tgR = rb_tgrav rbt & PC = cs_JCinvT cs *m rd_GR rd].
  move: eg; rewrite /ReducedCalcGravCompensation u2 /tau_g iA ecs'; case: ifP => // _ [<- <- <-] //.
have [aR [fR hmR]] := rb_motion_ex pAR fC v2 (rb_tgrav rbt).
have [_ /(_ (JCR_base hb)) [_ eqg]] := rb_grav pAR fC v2 hmR.
have gbot : dsubmx tgR = rd_JIinvT rd *m dsubmx G.
  have := congr1 (fun y : 'cV_(6 + (c + 6)) => dsubmx (y : 'cV_(6 + c + 6))) eqg.
  rewrite -etgR -{1}[tgR]vsubmxK act_split col_mxKd => <-.
  have x2 : (J_CR J_C)^T = col_mx (lsubmx J_C)^T 0 by rewrite /J_CR tr_row_mx linear0.
  have x3 : rd_GR rd = col_mx (usubmx G) (rd_JIinvT rd *m dsubmx G).
    by rewrite h7 h6 -{1}[G]vsubmxK mul_block_col !mul0mx mul1mx addr0 add0r.
  have y2 : (J_CR J_C)^T *m fR + rd_GR rd = col_mx ((lsubmx J_C)^T *m fR + usubmx G) (rd_JIinvT rd *m dsubmx G).
    by rewrite x2 x3 mul_col_mx mul0mx add_col_mx add0r.
  by apply: etrans (congr1 dsubmx y2) _; rewrite col_mxKd.
have dg : tg = distribute rd tgR (dsubmx G).
  by rewrite etg /distribute gbot h1 h8 mulmxBl mul1mx mulmxA addrC subrK.
exists rbt; split=> //; first by split=> //; rewrite u3 ePC ecs'.
move=> tR tN; rewrite dg /distribute !add_col_mx !mulmxDr; congr col_mx; first by rewrite raddfD.
by rewrite raddfD /= mulmxDr addrACA.
Qed.

(* C129: the hypotheses on the robot.  It stands on two plane contacts at p1, p2 of its twelve leading joints; base at p0
   with orientation Bo, V2_R a basis of the null space of W_R, cc_ lists these contacts first. *)
Record two_footed n k vcj ncj A B SI Q G J J_C rd cs tg tgR PC (V2R : 'M[R]_(k, 12 + 6)) (ft : feet R) (p1 p2 : 'cV[R]_3) : Prop := TwoFooted {
  wf_st : @standing R 12 n 2 vcj ncj A B SI Q G J J_C rd cs tg tgR PC;
  wf_V2 : left_null_basis (cs_W cs) V2R;
  wf_rigid : exists p0 Bo, Bo \in unitmx /\ rigid_feet (n := 12 + n) p0 Bo p1 p2 J_C;
  wf_yaw : ft_c ft * ft_c ft + ft_s ft * ft_s ft = 1;
  wf_cc : exists on1 on2 cc, ft_cc ft = (on1, p1) :: (on2, p2) :: cc }.

Lemma JCR_left c n m (J_C : 'M[R]_(m, 6 + c + n)) i x : J_CR J_C i (lshift 6 x) = J_C i (lshift n x).
Proof. by rewrite /J_CR row_mxEl mxE. Qed.
(* seen from the reduced model *)
Lemma footed_two n k vcj ncj A B SI Q G J J_C rd cs tg tgR PC (V2R : 'M[R]_(k, 12 + 6)) ft p1 p2 :
  @two_footed n k vcj ncj A B SI Q G J J_C rd cs tg tgR PC V2R ft p1 p2 ->
  exists rb : robot R (6 + 6) (12 + 6),
    [/\ two_feet (rd_AR rd) (J_CR J_C) (rd_GR rd) rb V2R ft p1 p2, rb_cs rb = cs, rb_PC rb = PC &
     forall tR tN, tg + distribute rd tR tN = distribute rd (tgR + tR) (dsubmx G + tN)].
Proof.
case=> st hV [p0 [Bo [uB rg]]] yw cc.
have [rb [h1 h2 h3 [h4 h5] h6]] := standing_robot st.
exists rb; split=> //; split=> //; first by rewrite h4.
exists p0, Bo; split=> //; apply: etrans rg.
apply/matrixP => i j; rewrite mxE [RHS]mxE.
have x1 : lshift (12 + 6) j = lshift 6 (lshift 12 j) by apply: val_inj.
have x2 : lshift (12 + n) j = lshift n (lshift 12 j) by apply: val_inj.
by rewrite x1 x2; exact: JCR_left.
Qed.

Lemma RWith12 n k (cs : contact_space R (6 + 6) (12 + 6)) PC (V2R : 'M[R]_(k, 12 + 6)) ft (t : rtorques R 12 n) :
  CalcContactRedistributeR zs cs PC V2R ft t =
  omap (fun tcR => (RT (rt_grav t) (rt_task t) tcR (col_mx (usubmx tcR) 0), true)) (TwoFeetR zs (cs_JCinvT cs) PC V2R ft (rt_grav t + rt_task t)).
Proof.
rewrite /CalcContactRedistributeR /CalcContactRedistributeRWith eqxx; case: eqP => // e; rewrite !castmx_id /=.
case: TwoFeetR => //= tc; congr (Some (RT _ _ _ _, _)).
apply/matrixP => i j; rewrite !mxE; case: splitP => x ex.
  case: insubP => [y _ ey|/negP]; last by have := ltn_ord x; rewrite ex; lia.
  by rewrite mxE (ord1 j); congr (tc _ _); apply: val_inj; rewrite /= ey ex.
by rewrite mxE.
Qed.

Lemma diff4 (V : zmodType) (x y z g : V) : (z + x + g) - (z + y + g) = x - y.
Proof. by rewrite opprD addrACA subrr addr0 opprD addrACA subrr add0r. Qed.
Lemma act_d c n (t : 'cV[R]_(c + n)) : dsubmx (actuate t : 'cV[R]_(6 + c + n)) = dsubmx t.
Proof. by rewrite -{1}[t]vsubmxK act_split col_mxKd. Qed.
(* a torque of the contact joints balanced by the contacts in the reduced model is so in the full one *)
Lemma lift_motion c n m (A : 'M[R]_(6 + c + n)) (J_C : 'M[R]_(m, 6 + c + n)) G t (tc : 'cV[R]_(c + 6)) a f f' :
  contacts_on_chains J_C -> (J_CR J_C)^T *m (f' - f) = actuate tc -> dsubmx tc = 0 ->
  contact_motion (n := c + n) A J_C G t a f -> contact_motion (n := c + n) A J_C G (t + col_mx (usubmx tc) 0) a f'.
Proof.
move=> hC e0 d0 [h1 h2]; split=> //.
have [e _] : (lsubmx J_C)^T *m (f' - f) = col_mx 0 (usubmx tc) /\ (0 : 'cV[R]_6) = 0.
  apply: eq_col_mx; move: e0; rewrite -{1}[tc]vsubmxK d0 act_split /J_CR tr_row_mx linear0 mul_col_mx mul0mx.
  exact: id.
have eJ : J_C^T = col_mx (lsubmx J_C)^T 0 by rewrite -{1}[J_C]hsubmxK hC tr_row_mx linear0.
have e2 : (J_C^T *m (f' - f) : 'cV_(6 + c + n)) = actuate (col_mx (usubmx tc) (0 : 'cV_n)).
  by rewrite act_split eJ mul_col_mx mul0mx e.
have -> : actuate (t + col_mx (usubmx tc) 0) = actuate t + actuate (col_mx (usubmx tc) (0 : 'cV_n)).
  by rewrite /actuate add_col_mx addr0.
rewrite -h1 -(e2 : J_C^T *m (f' - f) = _ :> 'cV_(6 + (c + n))) mulmxBr.
set x := _ *m f'; set y := _ *m f; set z := _ *m a.
by rewrite [x - y]addrC addrA [z + y + G - y]addrAC addrK addrAC.
Qed.

Theorem C129_force_produced n k vcj ncj A B SI Q G J J_C rd cs tg tgR PC (V2R : 'M[R]_(k, 12 + 6)) ft p1 p2 (t t' : rtorques R 12 n) tN a f a' f' :
  two_footed vcj ncj A B SI Q G J J_C rd cs tg tgR PC V2R ft p1 p2 -> rt_grav t = tgR ->
  CalcContactRedistributeR zs cs PC V2R ft t = Some (t', true) ->
  contact_motion (n := 12 + n) A J_C G (tg + distribute rd (rt_task t) tN) a f ->
  contact_motion (n := 12 + n) A J_C G (tg + distribute rd (rt_task t) tN + rt_con t') a' f' ->
  [/\ rt_grav t' = rt_grav t, rt_task t' = rt_task t, a' = a &
   exists e, 1 / 100%:R <= e <= 99%:R / 100%:R /\ f' = split_wrench p1 p2 f e].
Proof.
move=> wf eg; have [rb [tf ecs ePC dis]] := footed_two wf.
case: (wf) => -[[L hA hB hQ] [eJ hJ erd] [hC hCf hm hb] ecs0 eg0] _ _ _ _.
rewrite RWith12 -ecs -ePC TwoFeetRE; set tin := rt_grav t + rt_task t.
case E: RedistributeTwo => [tc|||] //= [<-] /= m1 m2.
pose T := Torques (rt_grav t) (rt_task t) 0; pose T' := Torques (rt_grav t) (rt_task t) tc.
have eT : CalcContactRedistribute12 zs rb V2R ft T = Some T' by rewrite /CalcContactRedistribute12 /= addr0 E.
have e1 := m1; rewrite dis -eg in e1.
have r1 := C84_distribution_partial L hA hB hQ eJ hJ erd hC e1.
have [aR [fR r2]] := rb_motion_ex (tf_A tf) (tf_J tf) (tf_rb tf) (tin + tc).
have q1 : contact_motion (rd_AR rd) (J_CR J_C) (rd_GR rd) (command T) (rd_JR rd *m (a : 'cV_(6 + 12 + n))) f.
  by rewrite /command /= addr0.
have [_ _ eaR [e [he ef]]] := C28_force_produced_partial tf (erefl : tq_con T = 0) eT q1 r2.
have bal : (J_CR J_C)^T *m (fR - f) = actuate tc.
  case: q1 r2 => k1 _ [k2 _]; move: k2; rewrite eaR => k2.
  rewrite mulmxBr; have -> : actuate tc = actuate (tin + tc) - actuate (command T).
    by rewrite /actuate opp_col_mx add_col_mx subrr /command /= addr0 -/tin addrAC subrr add0r.
  by rewrite -[LHS](diff4 _ _ (rd_AR rd *m (rd_JR rd *m (a : 'cV_(6 + 12 + n)))) (rd_GR rd)); congr (_ - _).
(* the torque acts on the contact joints only *)
have tc0 : dsubmx tc = 0.
  have x (g : 'cV[R]_(6 * 2)) : dsubmx ((J_CR J_C)^T *m g : 'cV_(6 + 12 + 6)) = 0.
    by rewrite /J_CR tr_row_mx linear0 mul_col_mx mul0mx col_mxKd.
  by have := x (fR - f); rewrite bal act_d.
have m2' : tg + distribute rd (rt_task t) tN + col_mx (usubmx tc) 0 = distribute rd (tin + tc) (dsubmx G + tN).
  rewrite dis -eg /distribute add_col_mx addr0 -/tin; congr col_mx; first by apply/esym; exact: raddfD.
  by have -> : dsubmx (tin + tc) = dsubmx tin by rewrite -[RHS]addr0 -tc0; exact: raddfD.
have e2 := m2; rewrite m2' in e2.
have r3 := C84_distribution_partial L hA hB hQ eJ hJ erd hC e2.
have [_ _ eaR' [e' [he' ef']]] := C28_force_produced_partial tf (erefl : tq_con T = 0) eT q1 r3.
split=> //; last by exists e'.
have m3 := lift_motion hC bal tc0 m1.
have [rbf [hrf _ _ _ _]] := UpdateRobotE (n := 12 + n) G hA hCf.
have [-> _] := proj1 (rb_motion hA hCf hrf _ _ _) m2.
by have [-> _] := proj1 (rb_motion hA hCf hrf _ _ _) m3.
Qed.


(* C129: it returns 1 unless the moments about both feet vanish along the heading of the robot *)
Theorem C129_defined_iff n k vcj ncj A B SI Q G J J_C rd cs tg tgR PC (V2R : 'M[R]_(k, 12 + 6)) ft p1 p2 (t : rtorques R 12 n) tN a f :
  two_footed vcj ncj A B SI Q G J J_C rd cs tg tgR PC V2R ft p1 p2 -> rt_grav t = tgR ->
  contact_motion (n := 12 + n) A J_C G (tg + distribute rd (rt_task t) tN) a f ->
  let along v := ft_c ft * X v + ft_s ft * Y v in
  (exists t', CalcContactRedistributeR zs cs PC V2R ft t = Some (t', true)) <->
  ~ (along (net_moment p1 p1 p2 f) = 0 /\ along (net_moment p2 p1 p2 f) = 0).
Proof.
move=> wf eg m1; have [rb [tf ecs ePC dis]] := footed_two wf.
case: (wf) => -[[L hA hB hQ] [eJ hJ erd] [hC hCf hm hb] ecs0 eg0] _ _ _ _.
rewrite RWith12 -ecs -ePC TwoFeetRE; set tin := rt_grav t + rt_task t.
pose T := Torques (rt_grav t) (rt_task t) 0.
rewrite dis -eg in m1.
have r1 := C84_distribution_partial L hA hB hQ eJ hJ erd hC m1.
have q1 : contact_motion (rd_AR rd) (J_CR J_C) (rd_GR rd) (command T) (rd_JR rd *m (a : 'cV_(6 + 12 + n))) f.
  by rewrite /command /= addr0.
move=> along; have <- := C28_defined_iff zs tf q1; rewrite /CalcContactRedistribute12 /= addr0 -/tin.
by case: RedistributeTwo => [tc|||] /=; split=> -[t'] // _; eexists.
Qed.

(* C129: calling it again changes nothing *)
Theorem C129_again c n m k cs PCR (V2R : 'M[R]_(k, c + 6)) ft (t t' : rtorques R c n) b :
  CalcContactRedistributeR (m := m) zs cs PCR V2R ft t = Some (t', b) ->
  CalcContactRedistributeR zs cs PCR V2R ft t' = Some (t', b).
Proof.
rewrite /CalcContactRedistributeR; case: ifP => // m6; last by case=> <- <-.
by case E: CalcContactRedistributeRWith => [r|] //=; case W: writeback => [tc|] //= [<- <-] /=; rewrite E /= W.
Qed.

(* A robot with two legs of six joints and six other joints, all the weight asked of the left foot *)
Definition Jy : 'M[R]_(6 * 2, 6 + 12 + 6) := row_mx (Jx R : 'M[R]_(6 * 2, 6 + 12)) 0.
Definition Gy : 'cV[R]_(6 + 12 + 6) := col_mx (Gx R : 'cV[R]_(6 + 12)) 0.

Lemma foot_T (p : 'cV[R]_3) : (foot_base 0 1%:M p)^T = block_mx 1%:M 0 (skew p) 1%:M.
Proof.
apply: etrans (tr_block_mx _ _ _ _) _.
by rewrite !trmx1 trmx0 linearN /= mulmx1 subr0 skew_tr opprK.
Qed.
Lemma base_T : (lsubmx (Jx R))^T = Wmx (xl R) (xr R).
Proof. by rewrite /Jx row_mxKl tr_col_mx /Wmx !foot_T. Qed.

Lemma Jy_free : row_free Jy.
Proof.
have /row_freeP [X hX] := Jx_free R.
apply/row_freeP; exists (col_mx (X : 'M[R]_(6 + 12, 6 * 2)) 0); rewrite /Jy mul_row_col mulmx0 addr0.
exact: hX.
Qed.
Lemma topT m n (J : 'M[R]_(m, 6 + n)) (f : 'cV[R]_m) : usubmx (J^T *m f) = (lsubmx J)^T *m f.
Proof. by rewrite -{1}[J]hsubmxK tr_row_mx mul_col_mx col_mxKu. Qed.
Lemma Jy_left : lsubmx (Jy : 'M_(6 * 2, 6 + (12 + 6))) = lsubmx (Jx R : 'M_(6 * 2, 6 + (6 + 6))).
Proof.
apply/matrixP => i j; rewrite mxE [RHS]mxE /Jy.
have -> : lshift (12 + 6) j = lshift 6 (lshift 12 j) by apply: val_inj.
by rewrite (row_mxEl (Jx R : 'M[R]_(6 * 2, 6 + 12))); congr (Jx R _ _); exact: val_inj.
Qed.
Lemma Jy_base : contacts_fix_base (n := 12 + 6) Jy.
Proof.
rewrite /contacts_fix_base Jy_left; apply/eqP.
have le : (\rank (lsubmx (Jx R : 'M_(6 * 2, 6 + (6 + 6)))) <= 6)%N by exact: rank_leq_col.
rewrite eqn_leq le /= -mxrank_tr base_T.
have h : Wmx (xl R) (xr R) *m (col_mx (block_mx 1%:M 0 (- skew (xl R)) 1%:M) 0 : 'M_((3 + 3) + (3 + 3), 3 + 3)) = 1%:M.
  rewrite /Wmx mul_row_col mulmx0 addr0 mulmx_block !mul1mx !mulmx1 !mul0mx !mulmx0 !addr0 !add0r subrr.
  by rewrite -scalar_mx_block.
have := mxrankM_maxl (Wmx (xl R) (xr R)) (col_mx (block_mx 1%:M 0 (- skew (xl R)) 1%:M) 0 : 'M_((3 + 3) + (3 + 3), 3 + 3)).
by rewrite h mxrank1.
Qed.

Example C129_example : exists rd cs tg tgR PC k (V2R : 'M[R]_(k, 12 + 6)) a f t',
  [/\ two_footed (@exv 12) (@exn 12) (exA R 12) (exA R 12) (exSI R) 1%:M Gy 1%:M Jy rd cs tg tgR PC V2R (ftx R) (xl R) (xr R),
      contact_motion (n := 12 + 6) (exA R 12) Jy Gy (tg + distribute rd 0 0) a f &
      CalcContactRedistributeR zs cs PC V2R (ftx R) (RT (n := 6) tgR 0 0 0) = Some (t', true)].
Proof.
have [rd [erd _ _ _ _]] := C54_projection_partial Gy (ex_lead 12) (exA_posdef R 12) (ex_carried R 12) (ex_rot1 R) (ex_J R 12) (ex_free R).
have hC : contacts_on_chains Jy by rewrite /contacts_on_chains row_mxKr.
have hm : (12 <= 6 * 2 <= 12 + 6)%N by [].
have [cs [rb [ecs hrb _ _ _]]] := C82_contact_partial (ex_lead 12) (exA_posdef R 12) (ex_carried R 12) (ex_rot1 R) (ex_J R 12) (ex_free R) erd hC Jy_free hm.
case eg : (ReducedCalcGravCompensation Gy rd cs) => [[[tg tgR] PC]|]; last by move: eg; rewrite /ReducedCalcGravCompensation.
have st : @standing R 12 6 2 (@exv 12) (@exn 12) (exA R 12) (exA R 12) (exSI R) 1%:M Gy 1%:M Jy rd cs tg tgR PC.
  split=> //; last by split=> //; [exact: Jy_free|exact: Jy_base].
  - by split; [exact: ex_lead|exact: exA_posdef|exact: ex_carried|exact: ex_rot1].
  - by split=> //; [exact: ex_J|exact: ex_free].
have [k [V2 hV]] := left_null_basis_ex (cs_W cs).
have wf : two_footed (@exv 12) (@exn 12) (exA R 12) (exA R 12) (exSI R) 1%:M Gy 1%:M Jy rd cs tg tgR PC V2 (ftx R) (xl R) (xr R).
  split=> //; last by exists true, true, [::].
    exists 0, 1%:M; split; first exact: unitmx1.
    by apply: etrans (Jx_rigid R); exact: Jy_left.
  by rewrite /= mulr1 mulr0 addr0.
have [a [f mo]] := motion_exists_of (tg + distribute rd 0 0) st.
have [rbf [hrf _ _ _ _]] := UpdateRobotE (n := 12 + 6) Gy (exA_posdef R 12) Jy_free.
have d00 : distribute rd (0 : 'cV[R]_(12 + 6)) 0 = 0 by rewrite /distribute !linear0 addr0 col_mx0.
have a0 : a = 0.
  apply: (C83_gravity_partial (ex_lead 12) (exA_posdef R 12) (ex_carried R 12) (ex_rot1 R) (ex_J R 12) (ex_free R) erd hC Jy_free hm Jy_base ecs eg).
  by move: mo; rewrite d00 addr0; exact: id.
exists rd, cs, tg, tgR, PC, k, V2, a, f.
suff [t' h] : exists t', CalcContactRedistributeR zs cs PC V2 (ftx R) (RT tgR 0 0 (0 : 'cV[R]_(12 + 6))) = Some (t', true) by exists t'.
apply/(C129_defined_iff wf (erefl : rt_grav (RT tgR 0 0 (0 : 'cV[R]_(12 + 6))) = tgR) mo) => -[_].
have [nf nm] : net_force f = net_force (fx R) /\ net_moment 0 (xl R) (xr R) f = net_moment 0 (xl R) (xr R) (fx R).
  have [h _] := mo; move: h; rewrite a0 mulmx0 add0r => /(congr1 (fun y : 'cV_(6 + (12 + 6)) => usubmx y)).
  rewrite col_mxKu [LHS]raddfD /= (topT (Jy : 'M_(6 * 2, 6 + (12 + 6))) f) Jy_left base_T WmxE.
  have -> : usubmx (Gy : 'cV_(6 + (12 + 6))) = - col_mx (net_force (fx R)) (net_moment 0 (xl R) (xr R) (fx R)).
    rewrite -WmxE -base_T; apply/matrixP => i j; rewrite mxE /Gy.
    have -> : lshift (12 + 6) i = lshift 6 (lshift 12 i) by apply: val_inj.
    by rewrite (col_mxEu (Gx R : 'cV[R]_(6 + 12))) /Gx (col_mxEu (- _)).
  by move=> /eqP; rewrite subr_eq0 => /eqP h; apply: (@eq_col_mx R 3 3 1); exact: h.
rewrite net_moment_shift nf nm; have [-> ->] := fx_net R.
rewrite /= !xyz !(mul0r, mulr0, mul1r, addr0, subr0, add0r, mulrN1, mulN1r, opprK, oppr0).
by rewrite -opprD => /eqP; rewrite oppr_eq0 -mulr2n mulrn_eq0 oner_eq0.
Qed.

(* C130: two legs of five joints with both soles on the ground, whatever the torques; and three plane contacts on three
   legs of four joints *)
Example C130_example (cs : contact_space R 12 (10 + 6)) PCR (V2R : 'M[R]_(6, 10 + 6)) (t : rtorques R 10 6)
    (cs' : contact_space R 18 (12 + 6)) PCR' (V2R' : 'M[R]_(12, 12 + 6)) (t' : rtorques R 12 6) :
  CalcContactRedistributeR zs cs PCR V2R (ftx R) t = Some (RT (rt_grav t) (rt_task t) 0 0, false) /\
  CalcContactRedistributeR zs cs' PCR' V2R' (ftx R) t' = None.
Proof. by split; [apply: C130_other_legs_refuted|apply: C130_other_contacts_refuted]. Qed.
End Props.
Print Assumptions C129_force_produced.
Print Assumptions C129_defined_iff.
Print Assumptions C129_again.
Print Assumptions C130_other_legs_refuted.
Print Assumptions C130_other_contacts_refuted.
