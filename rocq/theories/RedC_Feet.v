(* C171: which feet the closed-form redistribution of the reduced model works with. *)
From mathcomp Require Import all_ssreflect all_algebra.
From mathcomp Require Import zify all_real_closed.
From mathcomp.algebra_tactics Require Import ring.
From Verif Require Import LinAlg Geo_Model Geo_Spec Geo_Proofs Dyn_Model Dyn_Spec Dyn_Proofs Dyn_Props Dyn_Ex.
From Verif Require Import Redis_Model Redis_Spec Redis_Proofs Redis_Dyn Redis_Ex Redis_Props.
From Verif Require Import RedM_Model RedM_Spec RedM_Proofs RedM_Props RTq_Props RedC_Model RedC_Props.
Set Implicit Arguments.
Unset Strict Implicit.
Unset Printing Implicit Defensive.
Import Order.TTheory GRing.Theory Num.Theory.
Local Open Scope ring_scope.

Section Feet.
Variable R : rcfType.
Variable zs : bool.

(* C171, what holds: whatever is registered second, at q, the acceleration and the net wrench on the two feet are kept;
   but the second foot is given the share of a foot at q *)
Theorem C171_second_contact_partial n k vcj ncj A B SI Q G J J_C rd cs tg tgR PC (V2R : 'M[R]_(k, 12 + 6)) ft p1 p2 q on1 on2 on cc
    (t t' : rtorques R 12 n) tN a f a' f' :
  two_footed vcj ncj A B SI Q G J J_C rd cs tg tgR PC V2R (Feet [:: (on1, p1); (on2, p2)] (ft_com ft) (ft_c ft) (ft_s ft)) p1 p2 ->
  ft_cc ft = (on1, p1) :: (on, q) :: cc -> rt_grav t = tgR ->
  CalcContactRedistributeR zs cs PC V2R ft t = Some (t', true) ->
  contact_motion (n := 12 + n) A J_C G (tg + distribute rd (rt_task t) tN) a f ->
  contact_motion (n := 12 + n) A J_C G (tg + distribute rd (rt_task t) tN + rt_con t') a' f' ->
  [/\ a' = a, same_net p1 p2 f f' &
   exists e, 1 / 100%:R <= e <= 99%:R / 100%:R /\
     dsubmx (f' : 'cV[R]_((3 + 3) + (3 + 3))) = dsubmx (split_wrench p1 q f e)].
Proof.
move=> wf ecc eg; have [rb [tf ecs ePC dis]] := footed_two wf.
case: (wf) => -[[L hA hB hQ] [eJ hJ erd] [hC hCf hm hb] ecs0 eg0] _ _ _ _.
have eft : ft = Feet ((on1, p1) :: (on, q) :: cc) (ft_com ft) (ft_c ft) (ft_s ft) by case: (ft) ecc => ? ? ? ? /= ->.
case: tf => tA tJ trb tV [p0 [Bo [uB rg]]] /= hcs _.
rewrite RWith12 -ecs -ePC TwoFeetRE; set tin := rt_grav t + rt_task t.
case E: RedistributeTwo => [tc|||] //= [<-] /= m1 m2.
rewrite eft in E.
have /= := redis_outcome tA tJ trb uB rg tV zs p1 q (ft_com ft) on1 on cc hcs tin.
case C: (chosen _ _ _ _ _ _ _) => [e||]; rewrite ?E // => _.
have e1 := m1; rewrite dis -eg in e1.
have r1 := C84_distribution_partial L hA hB hQ eJ hJ erd hC e1.
have [aR [fR r2]] := rb_motion_ex tA tJ trb (tin + tc).
have [eaR _ _] := redis_effect_any tA tJ trb uB rg tV hcs C E r1 r2.
have bal : (J_CR J_C)^T *m (fR - f) = actuate tc.
  case: r1 r2 => k1 _ [k2 _]; move: k2; rewrite eaR => k2.
  rewrite mulmxBr; have -> : actuate tc = actuate (tin + tc) - actuate tin.
    by rewrite /actuate opp_col_mx add_col_mx subrr addrAC subrr add0r.
  by rewrite -[LHS](diff4 _ _ (rd_AR rd *m (rd_JR rd *m (a : 'cV_(6 + 12 + n)))) (rd_GR rd)); congr (_ - _).
have tc0 : dsubmx tc = 0.
  have x (g : 'cV[R]_(6 * 2)) : dsubmx ((J_CR J_C)^T *m g : 'cV_(6 + 12 + 6)) = 0.
    by rewrite /J_CR tr_row_mx linear0 mul_col_mx mul0mx col_mxKd.
  by have := x (fR - f); rewrite bal act_d.
have m2' : tg + distribute rd (rt_task t) tN + col_mx (usubmx tc) 0 = distribute rd (tin + tc) (dsubmx G + tN).
  rewrite dis -eg /distribute add_col_mx addr0 -/tin; congr col_mx; first by apply/esym; exact: raddfD.
  by have -> : dsubmx (tin + tc) = dsubmx tin by rewrite -[RHS]addr0 -tc0; exact: raddfD.
have e2 := m2; rewrite m2' in e2.
have r3 := C84_distribution_partial L hA hB hQ eJ hJ erd hC e2.
have [_ sn d] := redis_effect_any tA tJ trb uB rg tV hcs C E r1 r3.
have m3 := lift_motion hC bal tc0 m1.
have [rbf [hrf _ _ _ _]] := UpdateRobotE (n := 12 + n) G hA hCf.
split=> //.
  have [-> _] := proj1 (rb_motion hA hCf hrf _ _ _) m2.
  by have [-> _] := proj1 (rb_motion hA hCf hrf _ _ _) m3.
exists e; split=> //.
have hc : 1 / 2%:R <= 99%:R / 100%:R :> R.
  by rewrite ler_pdivr_mulr ?ltr0n // mulrAC ler_pdivl_mulr ?ltr0n // mul1r -natrM ler_nat.
have := eta_range hc C.
suff -> : 1 - 99%:R / 100%:R = 1 / 100%:R :> R by [].
have h100 : (100%:R : R) != 0 by rewrite pnatr_eq0.
by apply: (mulIf h100); rewrite mulrBl !mulfVK // mul1r -natrB.
Qed.

(* C171 refuted: two legs of six joints, both feet on the ground, an inactive contact registered between them; the
   contact force becomes no split of the wrench between the two feet *)
Theorem C171_active_feet_refuted :
  exists k A B SI Q G J J_C rd cs tg tgR PC (V2R : 'M[R]_(k, 12 + 6)) ft p1 q p2 (t t' : rtorques R 12 6) tN a f a' f',
  [/\ ft_cc ft = [:: (true, p1); (false, q); (true, p2)] /\ rt_grav t = tgR,
      two_footed (@exv 12) (@exn 12) A B SI Q G J J_C rd cs tg tgR PC V2R (Feet [:: (true, p1); (true, p2)] (ft_com ft) (ft_c ft) (ft_s ft)) p1 p2,
      CalcContactRedistributeR zs cs PC V2R ft t = Some (t', true),
      contact_motion (n := 12 + 6) A J_C G (tg + distribute rd (rt_task t) tN) a f /\
      contact_motion (n := 12 + 6) A J_C G (tg + distribute rd (rt_task t) tN + rt_con t') a' f' &
      forall e, f' <> split_wrench p1 p2 f e].
Proof.
have [rd [erd _ _ _ _]] := C54_projection_partial (Gy R) (ex_lead 12) (exA_posdef R 12) (ex_carried R 12) (ex_rot1 R) (ex_J R 12) (ex_free R).
have hC : contacts_on_chains (Jy R) by rewrite /contacts_on_chains row_mxKr.
have hm : (12 <= 6 * 2 <= 12 + 6)%N by [].
have [cs [rb0 [ecs _ _ _ _]]] := C82_contact_partial (ex_lead 12) (exA_posdef R 12) (ex_carried R 12) (ex_rot1 R) (ex_J R 12) (ex_free R) erd hC (Jy_free R) hm.
case eg : (ReducedCalcGravCompensation (Gy R) rd cs) => [[[tg tgR] PC]|]; last by move: eg; rewrite /ReducedCalcGravCompensation.
have st : @standing R 12 6 2 (@exv 12) (@exn 12) (exA R 12) (exA R 12) (exSI R) 1%:M (Gy R) 1%:M (Jy R) rd cs tg tgR PC.
  split=> //; last by split=> //; [exact: Jy_free|exact: Jy_base].
  - by split; [exact: ex_lead|exact: exA_posdef|exact: ex_carried|exact: ex_rot1].
  - by split=> //; [exact: ex_J|exact: ex_free].
have [k [V2 hV]] := left_null_basis_ex (cs_W cs).
have wf : two_footed (@exv 12) (@exn 12) (exA R 12) (exA R 12) (exSI R) 1%:M (Gy R) 1%:M (Jy R) rd cs tg tgR PC V2 (ftx R) (xl R) (xr R).
  split=> //; last by exists true, true, [::].
    exists 0, 1%:M; split; first exact: unitmx1.
    by apply: etrans (Jx_rigid R); exact: Jy_left.
  by rewrite /= mulr1 mulr0 addr0.
have [rb [tf ecs' ePC dis]] := footed_two wf.
case: (tf) => tA tJ trb tV [p0 [Bo [uB rg]]] /= hcs _.
pose w : 'cV[R]_(6 + (12 + 6)) := (J_CR (Jy R))^T *m fx R + rd_GR rd.
have w0 : usubmx w = 0.
  have [rd' [h0 [h1 h2 h3] h4 [h5 h6] [h7 h8]]] := red_facts (ex_lead 12) (Gy R) (exA_posdef R 12) (ex_carried R 12) (ex_rot1 R) (ex_J R 12) (ex_free R).
  have ? : rd' = rd by move: erd; rewrite h0 => -[].
  subst rd'.
  have x3 : rd_GR rd = col_mx (usubmx (Gy R)) (rd_JIinvT rd *m dsubmx (Gy R)).
    by rewrite h7 h6 -{1}[Gy R]vsubmxK mul_block_col !mul0mx mul1mx addr0 add0r.
  have gl (j : 'I_1) (i : 'I_6) : (rd_GR rd : 'cV_(6 + (12 + 6))) (lshift (12 + 6) i) j = Gy R (lshift 6 (lshift 12 i)) j.
    have -> : lshift (12 + 6) i = lshift 6 (lshift 12 i) by apply: val_inj.
    by rewrite x3; apply: etrans (col_mxEu (usubmx (Gy R)) _ _ _) _; rewrite mxE.
  rewrite /w [LHS]raddfD /= (topT (J_CR (Jy R) : 'M_(6 * 2, 6 + (12 + 6))) (fx R)).
  have -> : lsubmx (J_CR (Jy R) : 'M_(6 * 2, 6 + (12 + 6))) = lsubmx (Jx R : 'M_(6 * 2, 6 + (6 + 6))).
    rewrite -Jy_left; apply/matrixP => i j; rewrite mxE [RHS]mxE.
    have -> : lshift (12 + 6) j = lshift 6 (lshift 12 j) by apply: val_inj.
    exact: JCR_left.
  rewrite base_T; apply/eqP; rewrite addrC addr_eq0; apply/eqP/matrixP => i j; rewrite mxE [LHS]gl.
  by rewrite /Gy (col_mxEu (Gx R : 'cV[R]_(6 + 12))) /Gx (col_mxEu (- _)) -base_T.
pose tin := dsubmx w.
have q1 : contact_motion (rd_AR rd) (J_CR (Jy R)) (rd_GR rd) tin 0 (fx R).
  split; last by rewrite mulmx0.
  by rewrite mulmx0 add0r -/w -[w]vsubmxK w0.
have [_ fE] := (rb_motion tA tJ trb _ _ _).1 q1.
pose q : 'cV[R]_3 := vec3 0 0 0.
pose ft := Feet [:: (true, xl R); (false, q); (true, xr R)] 0 1 0.
have Q1 : rotZ (1 : R) (- 0) = 1%:M.
  by apply/matrixP; apply: ordP3; apply: ordP3; rewrite !mxE !inordK //= ?eqE /= ?inordK //= ?oppr0.
have fr1 : force_rot_yaw (1%:M : 'M[R]_3) = 1%:M by rewrite /force_rot_yaw -!scalar_mx_block.
have [e C] : exists e, chosen zs (xl R) q 0 1 0 (getContactForce rb tin) = Fin e.
  rewrite -fE /chosen Q1 fr1 !mul1mx !subr0; apply/eta_defined.
  have [-> _] := fx_net R; rewrite /Ax /xl /q !xyz !(subr0, mul0r, add0r, mul1r, opprK).
  by rewrite oner_eq0.
have := redis_outcome tA tJ trb uB rg tV zs (xl R) q 0 true false [:: (true, xr R)] hcs tin.
rewrite /= C => -[tc [E _ _]].
pose t := RT tgR (tin - tgR) 0 (0 : 'cV[R]_(12 + 6)).
have [t' ht] : exists t', CalcContactRedistributeR zs cs PC V2 ft t = Some (t', true).
  have et : rt_grav t + rt_task t = tin by rewrite /= addrC subrK.
  by rewrite RWith12 -ecs' -ePC TwoFeetRE et E; eexists.
have [a [f mo]] := motion_exists_of (tg + distribute rd (rt_task t) 0) st.
have [a' [f' mo']] := motion_exists_of (tg + distribute rd (rt_task t) 0 + rt_con t') st.
have ef : f = fx R.
  have e1 := mo; rewrite dis /= [tgR + _]addrC subrK in e1.
  have r1 := C84_distribution_partial (ex_lead 12) (exA_posdef R 12) (ex_carried R 12) (ex_rot1 R) (ex_J R 12) (ex_free R) erd hC e1.
  have [_ ->] := (rb_motion tA tJ trb _ _ _).1 r1.
  by rewrite fE.
exists k, (exA R 12), (exA R 12), (exSI R), 1%:M, (Gy R), 1%:M, (Jy R), rd, cs, tg, tgR, PC, V2, ft, (xl R), q, (xr R), t, t', 0, a, f, a', f'.
split=> //.
have [_ sn [e0 [/andP [_ eub] d]]] := C171_second_contact_partial (ft := ft) wf (erefl : ft_cc ft = _) (erefl : rt_grav t = _) ht mo mo'.
rewrite ef in d *.
move=> e' fE'.
have [p1' p2' p3' p4'] := fx_parts R.
have d' : dsubmx (split_wrench (xl R) (xr R) (fx R) e') = dsubmx (split_wrench (xl R) q (fx R) e0).
  exact: (etrans (congr1 (@dsubmx R (3 + 3) (3 + 3) 1) (esym fE')) d).
have g p x : usubmx (dsubmx (split_wrench (xl R) p (fx R) x)) = (1 - x) *: net_force (fx R) /\
    dsubmx (dsubmx (split_wrench (xl R) p (fx R) x)) =
    (1 - x) *: net_moment (x *: xl R + (1 - x) *: p) (xl R) p (fx R).
  by rewrite /split_wrench !(col_mxKu, col_mxKd).
have [g1 g2] := g (xr R) e'; have [g3 g4] := g q e0.
have hf := etrans (esym g1) (etrans (congr1 (@usubmx R 3 3 1) d') g3).
have hm' := etrans (esym g2) (etrans (congr1 (@dsubmx R 3 3 1) d') g4).
clear g g1 g2 g3 g4 d d' fE' sn mo mo' E.
have ee : e' = e0.
  move: hf; have [-> _] := fx_net R => /(congr1 (@Z R)); rewrite !xyz !mulrN1.
  by move/oppr_inj/addrI/oppr_inj.
move: hm'; rewrite ee /net_moment p1' p2' p3' p4' => /(congr1 (@X R)); rewrite !xyz.
have e1 : e0 < 1 by apply: le_lt_trans eub _; rewrite ltr_pdivr_mulr ?ltr0n // mul1r ltr_nat.
move=> h; have : (1 - e0) ^+ 2 = 0.
  by move/eqP: h; rewrite eq_sym -subr_eq0 => /eqP h; rewrite -[RHS]h; ring.
by move/eqP; rewrite sqrf_eq0 subr_eq0 => /eqP e2; move: e1; rewrite -e2 ltxx.
Qed.
End Feet.
Print Assumptions C171_second_contact_partial.
Print Assumptions C171_active_feet_refuted.
