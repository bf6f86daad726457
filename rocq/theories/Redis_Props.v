(* C27, C28, C66-C69: closed-form two-foot contact force redistribution. *)
From mathcomp Require Import all_ssreflect all_algebra.
From mathcomp.algebra_tactics Require Import ring.
From mathcomp Require Import all_real_closed.
From Verif Require Import LinAlg Geo_Model Geo_Spec Geo_Proofs Dyn_Model Dyn_Spec Dyn_Proofs Dyn_Ex.
From Verif Require Import Redis_Model Redis_Spec Redis_Proofs Redis_Dyn Redis_Ex.
Set Implicit Arguments.
Unset Strict Implicit.
Unset Printing Implicit Defensive.
Import Order.TTheory GRing.Theory Num.Theory.
Local Open Scope ring_scope.

Section Props.
Variable R : rcfType.
Local Notation W12 := 'cV[R]_((3 + 3) + (3 + 3)).

(* C27 *)
Theorem C27_net_wrench_preserved (zs : bool) (ec fl fw mu rx ry : R) (P1 P2 : 'cV[R]_3) (F Fr : W12) Rf eta :
  ContactRedistributetwomod zs ec fl fw mu rx ry P1 P2 F = (Rf, eta, Some Fr) ->
  [/\ Rf = col_mx (net_force F) (net_moment 0 P1 P2 F), same_net P1 P2 F Fr &
   exists e, [/\ eta = Fin e, force1 Fr = e *: net_force F, force2 Fr = (1 - e) *: net_force F &
     (1 / 2%:R <= ec -> 1 - ec <= e <= ec)]].
Proof.
move=> h; have := twomodP zs ec fl fw mu rx ry P1 P2 F; rewrite h /= => -[e1 e2 e3].
split=> //; move: e2 e3; case: eta h => // e h e2 [->]; first exact: split_net.
exists e; have [k1 _ k3 _] := w12E (e *: net_force F)
    (e *: net_moment (e *: P1 + (1 - e) *: P2) P1 P2 F) ((1 - e) *: net_force F)
    ((1 - e) *: net_moment (e *: P1 + (1 - e) *: P2) P1 P2 F).
by split=> // hc; apply: (eta_range hc (esym e2)).
Qed.

(* C66: the chosen split meets the foot limits on both feet whenever some split does *)
Theorem C66_limits_met_when_possible (zs : bool) (ec fl fw mu rx ry : R) (P1 P2 : 'cV[R]_3) (F Fr : W12) Rf eta e0 :
  1 / 2%:R <= ec < 1 -> 0 <= fl -> 0 <= fw -> 0 <= mu -> 0 <= rx -> 0 <= ry ->
  ContactRedistributetwomod zs ec fl fw mu rx ry P1 P2 F = (Rf, eta, Some Fr) ->
  1 - ec <= e0 <= ec ->
  feet_ok (ry * fw / 2%:R) (rx * fl / 2%:R) mu (split_wrench P1 P2 F e0) ->
  feet_ok (ry * fw / 2%:R) (rx * fl / 2%:R) mu Fr.
Proof.
move=> /andP[hc hc1] h1 h2 h3 h4 h5 h r0 ok0.
have := twomodP zs ec fl fw mu rx ry P1 P2 F; rewrite h /= => -[_].
case: eta {h} => // e he [->].
have r := eta_range hc (esym he).
have ins x : 1 - ec <= x <= ec -> 0 < x < 1.
  by case/andP=> a b; rewrite (lt_le_trans _ a) ?subr_gt0 // (le_lt_trans b hc1).
move: ok0; rewrite !feet_okE ?ins // => -[k1 k2 k3].
have hz : 0 <= `|Z (net_force F)| by [].
have p1 : 0 <= ry * fw / 2%:R * `|Z (net_force F)| by rewrite !mulr_ge0 ?invr_ge0 ?ler0n.
have p2 : 0 <= rx * fl / 2%:R * `|Z (net_force F)| by rewrite !mulr_ge0 ?invr_ge0 ?ler0n.
have p3 : 0 <= mu * `|Z (net_force F)| by rewrite mulr_ge0.
have := eta_meets hc (esym he) r0.
rewrite !ABx !ABy !ABz !(ger0_norm p1) !(ger0_norm p2) !(ger0_norm p3) k1 k2 k3 !implybT => /(_ isT).
have same A B (x y : R) : A = 0 -> A * x + B = A * y + B :> R by move=> ->; rewrite !mul0r.
case/and3P=> m1 m2 m3; split.
- case: (eqVneq (Ax P1 P2 (net_force F)) 0) m1 => [z _|_ //].
  by rewrite -ABx (same _ _ _ e0 z) ABx.
- case: (eqVneq (Ay P1 P2 (net_force F)) 0) m2 => [z _|_ //].
  by rewrite -ABy (same _ _ _ e0 z) ABy.
- case: (eqVneq (Az P1 P2 (net_force F)) 0) m3 => [z _|_ //].
  by rewrite -ABz (same _ _ _ e0 z) ABz.
Qed.

(* C67: exactly when the result is not a number *)
Theorem C67_defined_iff (zs : bool) (ec fl fw mu rx ry : R) (P1 P2 : 'cV[R]_3) (F : W12) :
  (exists Fr, (ContactRedistributetwomod zs ec fl fw mu rx ry P1 P2 F).2 = Some Fr) <->
  ~ (X (net_moment P1 P1 P2 F) = 0 /\ X (net_moment P2 P1 P2 F) = 0).
Proof.
have [_ e2 ->] := twomodP zs ec fl fw mu rx ry P1 P2 F; rewrite e2.
have -> : net_moment P1 P1 P2 F = net_moment (1 *: P1 + (1 - 1) *: P2) P1 P2 F.
  by rewrite scale1r subrr scale0r addr0.
have -> : net_moment P2 P1 P2 F = net_moment (0 *: P1 + (1 - 0) *: P2) P1 P2 F.
  by rewrite scale0r subr0 scale1r add0r.
rewrite -!ABx mulr1 mulr0 add0r.
have d := eta_defined zs ec fl fw mu rx ry P1 P2 (net_force F) (net_moment 0 P1 P2 F).
split.
  case=> Fr; case E: (choose_eta _ _ _ _ _ _ _ _ _ _ _) => [e||] // _ [h1 h2].
  have : exists e, choose_eta zs ec fl fw mu rx ry P1 P2 (net_force F) (net_moment 0 P1 P2 F) = Fin e by exists e.
  by rewrite d; move: h1; rewrite h2 addr0 => ->; rewrite eqxx.
move=> h; have : exists e, choose_eta zs ec fl fw mu rx ry P1 P2 (net_force F) (net_moment 0 P1 P2 F) = Fin e.
  by rewrite d; apply/negP => /andP[/eqP h1 /eqP h2]; apply: h; rewrite h1 h2 addr0.
by case=> e ->; eexists.
Qed.

(* C67, refuted: a robot standing still with one foot exactly in front of the other *)
Theorem C67_tandem_stance_refuted (zs : bool) (ec fl fw mu rx ry : R) :
  let P1 := vec3 1 0 (- 1) in let P2 := vec3 (- 1) 0 (- 1) in
  let F : W12 := col_mx (col_mx (vec3 0 0 (- 1)) 0) (col_mx (vec3 0 0 (- 1)) 0) in
  (ContactRedistributetwomod zs ec fl fw mu rx ry P1 P2 F).2 = None.
Proof.
move=> P1 P2 F; have [_ _ e3] := twomodP zs ec fl fw mu rx ry P1 P2 F.
case E: (_.2) => [Fr|] //; exfalso.
have : exists Fr, (ContactRedistributetwomod zs ec fl fw mu rx ry P1 P2 F).2 = Some Fr by exists Fr.
have [k1 k2 k3 k4] := w12E (vec3 0 0 (- 1)) 0 (vec3 0 0 (- 1)) 0 : [/\ force1 F = _, moment1 F = _, force2 F = _ & moment2 F = _].
by rewrite C67_defined_iff /net_moment k1 k2 k3 k4; apply; rewrite !xyz; split; ring.
Qed.

(* C28: the hypotheses on the robot.  Two plane contacts at p1, p2, base at p0 with
   orientation B, contact Jacobian of full row rank, V2 a basis of the null space of W,
   and cc_ listing exactly these two contacts first. *)
Record two_feet n k (A : 'M[R]_(6 + n)) (J : 'M[R]_(6 + 6, 6 + n)) (G : 'cV[R]_(6 + n))
    (rb : robot R (6 + 6) n) (V2 : 'M[R]_(k, n)) (ft : feet R) (p1 p2 : 'cV[R]_3) : Prop := TwoFeet {
  tf_A : posdef A;
  tf_J : row_free J;
  tf_rb : UpdateRobot A J G = Some rb;
  tf_V2 : left_null_basis (cs_W (rb_cs rb)) V2;
  tf_rigid : exists p0 B, B \in unitmx /\ rigid_feet p0 B p1 p2 J;
  tf_yaw : ft_c ft * ft_c ft + ft_s ft * ft_s ft = 1;
  tf_cc : exists on1 on2 cc, ft_cc ft = (on1, p1) :: (on2, p2) :: cc }.

(* C28 for a state whose torque_contact_ is zero, as CalcGravCompensation and
   CalcTaskControlTorque leave it: the commanded torque produces a split of the contact
   wrench, the same acceleration, and nothing else is changed *)
Theorem C28_force_produced_partial (zs : bool) n k A J G rb (V2 : 'M[R]_(k, n)) ft p1 p2 (t t' : torques R n) a f a' f' :
  two_feet A J G rb V2 ft p1 p2 -> tq_con t = 0 ->
  CalcContactRedistribute12 zs rb V2 ft t = Some t' ->
  contact_motion A J G (command t) a f -> contact_motion A J G (command t') a' f' ->
  [/\ tq_grav t' = tq_grav t, tq_task t' = tq_task t, a' = a &
   exists e, 1 / 100%:R <= e <= 99%:R / 100%:R /\ f' = split_wrench p1 p2 f e].
Proof.
case=> hA hJ hrb hV [p0 [B [hB hR]]] hcs [on1 [on2 [cc ecc]]] c0.
have eft : ft = Feet ((on1, p1) :: (on2, p2) :: cc) (ft_com ft) (ft_c ft) (ft_s ft).
  by case: (ft) ecc => ? ? ? ? /= ->.
rewrite /CalcContactRedistribute12 /command c0 addr0; set tin := tq_grav t + tq_task t.
case E: (RedistributeTwo _ _ _ _ _) => [tc|||] // [<-] /= m1 m2.
rewrite eft in E.
have /= := redis_outcome hA hJ hrb hB hR hV zs p1 p2 (ft_com ft) on1 on2 cc hcs tin.
case C: (chosen _ _ _ _ _ _ _) => [e||]; rewrite ?E // => _.
have [-> ->] := redis_effect hA hJ hrb hB hR hV hcs C E m1 m2.
split=> //; exists e; split=> //.
have hc : 1 / 2%:R <= 99%:R / 100%:R :> R.
  by rewrite ler_pdivr_mulr ?ltr0n // mulrAC ler_pdivl_mulr ?ltr0n // mul1r -natrM ler_nat.
have := eta_range hc C.
suff -> : 1 - 99%:R / 100%:R = 1 / 100%:R :> R by [].
have h100 : (100%:R : R) != 0 by rewrite pnatr_eq0.
by apply: (mulIf h100); rewrite mulrBl !mulfVK // mul1r -natrB.
Qed.

(* whatever the previous torque_contact_, the step is defined unless the moments about
   both feet vanish along the heading (c, s, 0) of the robot *)
Theorem C28_defined_iff (zs : bool) n k A J G rb (V2 : 'M[R]_(k, n)) ft p1 p2 (t : torques R n) a f :
  two_feet A J G rb V2 ft p1 p2 -> contact_motion A J G (command t) a f ->
  let along v := ft_c ft * X v + ft_s ft * Y v in
  (exists t', CalcContactRedistribute12 zs rb V2 ft t = Some t') <->
  ~ (along (net_moment p1 p1 p2 f) = 0 /\ along (net_moment p2 p1 p2 f) = 0).
Proof.
move=> /= tf cm.
have XQ v : ft_c ft * X v + ft_s ft * Y v = X (rotZ (ft_c ft) (- ft_s ft) *m v).
  by rewrite mulmv !mxE !inordK //= !xyz; ring.
rewrite !XQ; move: tf cm.
case=> hA hJ hrb hV [p0 [B [hB hR]]] hcs [on1 [on2 [cc ecc]]].
have eft : ft = Feet ((on1, p1) :: (on2, p2) :: cc) (ft_com ft) (ft_c ft) (ft_s ft).
  by case: (ft) ecc => ? ? ? ? /= ->.
move=> /(rb_motion hA hJ hrb)[_ ->]; rewrite /CalcContactRedistribute12 -/(command t) eft /=.
set F := getContactForce rb (command t); set Q := rotZ _ _; set com := ft_com ft.
have hQ : rotation Q by exact: Qrot.
have /= := redis_outcome hA hJ hrb hB hR hV zs p1 p2 com on1 on2 cc hcs (command t).
have mom q : net_moment (Q *m (q - com)) (Q *m (p1 - com)) (Q *m (p2 - com)) (force_rot_yaw Q *m F) =
    Q *m net_moment q p1 p2 F.
  have [a1 a2 a3 a4] := rot_parts Q F.
  rewrite /net_moment a1 a2 a3 a4 -!mulmxBr !cross_rot //.
  have sh r : r - com - (q - com) = r - q by apply: vecP; rewrite !xyz; ring.
  by rewrite !sh !mulmxDr.
have D := C67_defined_iff zs (99%:R / 100%:R) (26%:R / 100%:R) (1 / 10%:R) 1 (9%:R / 10%:R)
  (9%:R / 10%:R) (Q *m (p1 - com)) (Q *m (p2 - com)) (force_rot_yaw Q *m F).
have [_ e2 e3] := twomodP zs (99%:R / 100%:R) (26%:R / 100%:R) (1 / 10%:R) 1 (9%:R / 10%:R)
  (9%:R / 10%:R) (Q *m (p1 - com)) (Q *m (p2 - com)) (force_rot_yaw Q *m F).
rewrite !mom e3 e2 in D; rewrite /= -D -/F /chosen -/Q.
case: (choose_eta _ _ _ _ _ _ _ _ _ _ _) => [e||].
- by case=> tc [-> _ _]; split=> _; eexists.
- by move=> b ->; split=> -[].
- by move=> ->; split=> -[].
Qed.

(* a second call on the state left by the first one takes the redistribution back *)
Theorem C28_second_call_undoes_refuted (zs : bool) n k A J G rb (V2 : 'M[R]_(k, n)) ft p1 p2 (t t' : torques R n) :
  two_feet A J G rb V2 ft p1 p2 -> tq_con t = 0 ->
  CalcContactRedistribute12 zs rb V2 ft t = Some t' ->
  CalcContactRedistribute12 zs rb V2 ft t' = Some t.
Proof.
case=> hA hJ hrb hV [p0 [B [hB hR]]] hcs [on1 [on2 [cc ecc]]] c0.
have eft : ft = Feet ((on1, p1) :: (on2, p2) :: cc) (ft_com ft) (ft_c ft) (ft_s ft).
  by case: (ft) ecc => ? ? ? ? /= ->.
case: t c0 => tg tt0 tc0 /= ->; rewrite /CalcContactRedistribute12 /= addr0; set tin := tg + tt0.
case E: (RedistributeTwo _ _ _ _ _) => [tc|||] // [<-] /=.
rewrite eft in E *.
have /= := redis_outcome hA hJ hrb hB hR hV zs p1 p2 (ft_com ft) on1 on2 cc hcs tin.
case C: (chosen _ _ _ _ _ _ _) => [e||]; rewrite ?E // => _.
have [a [f m1]] := rb_motion_ex hA hJ hrb tin.
have [a' [f' m2]] := rb_motion_ex hA hJ hrb (tin + tc).
have [_ ef] := redis_effect hA hJ hrb hB hR hV hcs C E m1 m2.
have [_ fE] := (rb_motion hA hJ hrb _ _ _).1 m1.
have [_ fE'] := (rb_motion hA hJ hrb _ _ _).1 m2.
have sn : same_net p1 p2 f f' by rewrite ef; exact: split_net.
have C' : chosen zs p1 p2 (ft_com ft) (ft_c ft) (ft_s ft) (getContactForce rb (tin + tc)) = Fin e.
  by rewrite -fE' (chosen_net zs (ft_com ft) hcs sn) fE.
have /= := redis_outcome hA hJ hrb hB hR hV zs p1 p2 (ft_com ft) on1 on2 cc hcs (tin + tc).
rewrite /= C' -fE' => -[tc2 [-> W2]].
have -> : split_wrench p1 p2 f' e = f'.
  rewrite {2}ef; case: sn => s1 s2; by rewrite /split_wrench s1 !s2.
rewrite subrr => d2.
suff -> : tc2 = 0 by [].
have [_ _ _ [e1 e2 e3 e4 [e5 e6]]] := rbE hA hJ hrb.
have T0 := T2inj hB hR.
apply: (nwjw_uniq hA hJ erefl erefl e1 e2 e3 e4 e5 erefl T0) => //; first by rewrite mulmx0.
rewrite mulmx0 -mulmxA -[X in _ *m X]vsubmxK mul_row_col mul0mx mul1mx add0r d2.
exact: linear0.
Qed.

(* C28, refuted: with a non-zero torque_contact_ the command produced is not a split of the
   wrench it was computed from *)
Theorem C28_stale_contact_torque_refuted (zs : bool) :
  exists n k A J G (rb : robot R (6 + 6) n) (V2 : 'M[R]_(k, n)) ft p1 p2 t t' a f a' f',
    [/\ two_feet A J G rb V2 ft p1 p2, CalcContactRedistribute12 zs rb V2 ft t = Some t',
        contact_motion A J G (command t) a f, contact_motion A J G (command t') a' f' &
        forall e, e < 1 -> f' <> split_wrench p1 p2 f e].
Proof.
have [rb [hrb _ _ _ _]] := UpdateRobotE (Gx R) (posdef1 R _) (Jx_free R).
have [k [V2 hV]] := left_null_basis_ex (cs_W (rb_cs rb)).
have tf : two_feet 1%:M (Jx R) (Gx R) rb V2 (ftx R) (xl R) (xr R).
  split=> //; [exact: posdef1|exact: Jx_free| |by rewrite /= mulr1 mulr0 addr0|].
    by exists 0, 1%:M; split; [exact: unitmx1|exact: Jx_rigid].
  by exists true, true, [::].
have m0 : contact_motion 1%:M (Jx R) (Gx R) (command (tx R)) 0 (fx R).
  by rewrite /command /= add0r addr0; exact: fx_motion.
have [t' ht'] : exists t', CalcContactRedistribute12 zs rb V2 (ftx R) (tx R) = Some t'.
  apply/(C28_defined_iff zs tf m0) => -[_].
  rewrite net_moment_shift; have [-> ->] := fx_net R.
  rewrite /= !xyz !(mul0r, mulr0, mul1r, addr0, subr0, add0r, mulrN1, mulN1r, opprK, oppr0).
  by rewrite -opprD => /eqP; rewrite oppr_eq0 -mulr2n mulrn_eq0 oner_eq0.
have [a' [f' m1]] := rb_motion_ex (posdef1 R _) (Jx_free R) hrb (command t').
have [_ _ ea [e [he ef]]] := C28_force_produced_partial tf (erefl : tq_con (tx R) = 0) ht' m0 m1.
exists _, k, 1%:M, (Jx R), (Gx R), rb, V2, (ftx R), (xl R), (xr R), t', (tx R), a', f', 0, (fx R).
split=> //; first exact: (C28_second_call_undoes_refuted tf (erefl : tq_con (tx R) = 0) ht').
move=> e' he' fE.
have [s1 _] := split_net (xl R) (xr R) (fx R) e.
have [_ _ f2 _] := fx_parts R.
have [_ _ k3 _] := w12E (e' *: net_force f')
    (e' *: net_moment (e' *: xl R + (1 - e') *: xr R) (xl R) (xr R) f') ((1 - e') *: net_force f')
    ((1 - e') *: net_moment (e' *: xl R + (1 - e') *: xr R) (xl R) (xr R) f').
have := congr1 (@force2 R) fE; rewrite f2 k3 ef s1.
have [-> _] := fx_net R => /(congr1 (@Z R)); rewrite !xyz mulrN1 => /esym/eqP.
by rewrite oppr_eq0 subr_eq0 => /eqP e1; move: he'; rewrite -e1 ltxx.
Qed.

(* C68, refuted: with a third contact registered between two active ones, the position of the
   inactive contact is used; the result is not a split of the wrench for the active feet *)
Theorem C68_active_feet_refuted (zs : bool) :
  exists n k A J G (rb : robot R (6 + 6) n) (V2 : 'M[R]_(k, n)) ft p1 q p2 t t' a f a' f',
    [/\ ft_cc ft = [:: (true, p1); (false, q); (true, p2)],
        two_feet A J G rb V2 (Feet [:: (true, p1); (true, p2)] (ft_com ft) (ft_c ft) (ft_s ft)) p1 p2 /\
        tq_con t = 0,
        CalcContactRedistribute12 zs rb V2 ft t = Some t',
        contact_motion A J G (command t) a f /\ contact_motion A J G (command t') a' f' &
        forall e, f' <> split_wrench p1 p2 f e].
Proof.
have [rb [hrb _ _ _ _]] := UpdateRobotE (Gx R) (posdef1 R _) (Jx_free R).
have [k [V2 hV]] := left_null_basis_ex (cs_W (rb_cs rb)).
pose q : 'cV[R]_3 := vec3 0 0 0.
pose ft := Feet [:: (true, xl R); (false, q); (true, xr R)] 0 1 0.
have hcs : 1 * 1 + 0 * 0 = 1 :> R by rewrite mulr1 mulr0 addr0.
have tf : two_feet 1%:M (Jx R) (Gx R) rb V2 (ftx R) (xl R) (xr R).
  split=> //; [exact: posdef1|exact: Jx_free| |].
    by exists 0, 1%:M; split; [exact: unitmx1|exact: Jx_rigid].
  by exists true, true, [::].
have m0 : contact_motion 1%:M (Jx R) (Gx R) (command (tx R)) 0 (fx R).
  by rewrite /command /= add0r addr0; exact: fx_motion.
have [_ fE] := (rb_motion (posdef1 R _) (Jx_free R) hrb _ _ _).1 m0.
have [p1' p2' p3' p4'] := fx_parts R.
have Q1 : rotZ (1 : R) (- 0) = 1%:M.
  by apply/matrixP; apply: ordP3; apply: ordP3; rewrite !mxE !inordK //= ?eqE /= ?inordK //= ?oppr0.
have fr1 : force_rot_yaw (1%:M : 'M[R]_3) = 1%:M by rewrite /force_rot_yaw -!scalar_mx_block.
have [e C] : exists e, chosen zs (xl R) q 0 1 0 (getContactForce rb (command (tx R))) = Fin e.
  rewrite -fE /chosen Q1 fr1 !mul1mx !subr0; apply/eta_defined.
  have [-> _] := fx_net R; rewrite /Ax /xl /q !xyz !(subr0, mul0r, add0r, mul1r, opprK).
  by rewrite oner_eq0.
have := redis_outcome (posdef1 R _) (Jx_free R) hrb (unitmx1 R 3) (Jx_rigid R) hV zs (xl R) q 0 true false
  [:: (true, xr R)] hcs (command (tx R)).
rewrite /= C => -[tc [E _ _]].
pose t' := Torques (tq_grav (tx R)) (tq_task (tx R)) tc.
have [a' [f' m1]] := rb_motion_ex (posdef1 R _) (Jx_free R) hrb (command t').
have ct : command t' = command (tx R) + tc by rewrite /command /= addr0.
rewrite ct in m1.
have [_ sn d] := redis_effect_any (posdef1 R _) (Jx_free R) hrb (unitmx1 R 3) (Jx_rigid R) hV hcs C E m0 m1.
exists _, k, 1%:M, (Jx R), (Gx R), rb, V2, ft, (xl R), q, (xr R), (tx R), t', 0, (fx R), a', f'.
split=> //; first by rewrite /CalcContactRedistribute12 -/(command _) E.
  by split=> //; rewrite ct.
move=> e' fE'.
have d' : dsubmx (split_wrench (xl R) (xr R) (fx R) e') = dsubmx (split_wrench (xl R) q (fx R) e).
  exact: (etrans (congr1 (@dsubmx R (3 + 3) (3 + 3) 1) (esym fE')) d).
have g p x : usubmx (dsubmx (split_wrench (xl R) p (fx R) x)) = (1 - x) *: net_force (fx R) /\
    dsubmx (dsubmx (split_wrench (xl R) p (fx R) x)) =
    (1 - x) *: net_moment (x *: xl R + (1 - x) *: p) (xl R) p (fx R).
  by rewrite /split_wrench !(col_mxKu, col_mxKd).
have [g1 g2] := g (xr R) e'; have [g3 g4] := g q e.
have hf := etrans (esym g1) (etrans (congr1 (@usubmx R 3 3 1) d') g3).
have hm := etrans (esym g2) (etrans (congr1 (@dsubmx R 3 3 1) d') g4).
clear g g1 g2 g3 g4 d d' fE' sn m1 ct E.
have ee : e' = e.
  move: hf; have [-> _] := fx_net R => /(congr1 (@Z R)); rewrite !xyz !mulrN1.
  by move/oppr_inj/addrI/oppr_inj.
move: hm; rewrite ee /net_moment p1' p2' p3' p4' => /(congr1 (@X R)); rewrite !xyz.
have hc : 1 / 2%:R <= 99%:R / 100%:R :> R.
  by rewrite ler_pdivr_mulr ?ltr0n // mulrAC ler_pdivl_mulr ?ltr0n // mul1r -natrM ler_nat.
have /andP[_ eub] := eta_range hc C.
have e1 : e < 1 by apply: le_lt_trans eub _; rewrite ltr_pdivr_mulr ?ltr0n // mul1r ltr_nat.
move=> h; have : (1 - e) ^+ 2 = 0.
  by move/eqP: h; rewrite eq_sym -subr_eq0 => /eqP h; rewrite -[RHS]h; ring.
by move/eqP; rewrite sqrf_eq0 subr_eq0 => /eqP e2; move: e1; rewrite -e2 ltxx.
Qed.

(* C69: Link::rpy = rotm.eulerAngles(2, 1, 0) (src/link.cpp:81), i.e. angles with
   rotm = Rz(rpy(0)) Ry(rpy(1)) Rx(rpy(2)); the redistribution removes rpy(2).
   Euler (c0,s0) (c1,s1) (c2,s2) are the cosines and sines. *)
Definition euler210 (Q : 'M[R]_3) (c0 s0 c1 s1 c2 s2 : R) : Prop :=
  [/\ c0 * c0 + s0 * s0 = 1, c1 * c1 + s1 * s1 = 1, c2 * c2 + s2 * s2 = 1 &
   Q = rotZ c0 s0 *m mx3 [:: [:: c1; 0; s1]; [:: 0; 1; 0]; [:: - s1; 0; c1]]
       *m mx3 [:: [:: 1; 0; 0]; [:: 0; c2; - s2]; [:: 0; s2; c2]]].

(* refuted: for every pure heading (c, s) other than 0 or 180 degrees, the frame used by the
   redistribution does not turn the base's forward axis into the x axis *)
Theorem C69_heading_frame_refuted (c s c0 s0 c1 s1 c2 s2 : R) :
  c * c + s * s = 1 -> s != 0 -> euler210 (rotZ c s) c0 s0 c1 s1 c2 s2 ->
  Y (rotZ c2 (- s2) *m (rotZ c s *m vec3 1 0 0)) != 0.
Proof.
move=> h1 s0' [h2 h3 h4 E].
have e20 : 0 = - s1 by have := congr1 (fun M : 'M[R]_3 => M (inord 2) (inord 0)) E;
  rewrite !(mxE, sum3) !inordK //= => ->; ring.
have e21 : 0 = c1 * s2 by have := congr1 (fun M : 'M[R]_3 => M (inord 2) (inord 1)) E;
  rewrite !(mxE, sum3) !inordK //= => ->; ring.
have c1n : c1 != 0.
  apply/eqP => z; move: h3; rewrite z -[s1]opprK -e20 !(mul0r, mulr0, oppr0, addr0) => /esym/eqP.
  by rewrite oner_eq0.
have s2z : s2 = 0 by move/esym/eqP: e21; rewrite mulf_eq0 (negPf c1n) => /eqP.
have c2n : c2 != 0.
  by apply/eqP => z; move: h4; rewrite z s2z !mul0r addr0 => /esym/eqP; rewrite oner_eq0.
rewrite !mulmv !xyz !mxE !inordK //= s2z !(oppr0, mul0r, mulr0, mulr1, addr0, add0r).
by rewrite mulf_neq0.
Qed.
End Props.

Print Assumptions C27_net_wrench_preserved.
Print Assumptions C66_limits_met_when_possible.
Print Assumptions C67_defined_iff.
Print Assumptions C67_tandem_stance_refuted.
Print Assumptions C28_force_produced_partial.
Print Assumptions C28_defined_iff.
Print Assumptions C28_second_call_undoes_refuted.
Print Assumptions C28_stale_contact_torque_refuted.
Print Assumptions C68_active_feet_refuted.
Print Assumptions C69_heading_frame_refuted.

(* ---- examples ---- *)
Section Examples.
Variable R : rcfType.

(* C27, C67: feet one metre left and right, all the weight on the left foot *)
Example C27_ex (zs : bool) : exists Fr,
  (ContactRedistributetwomod zs (99%:R / 100%:R) (26%:R / 100%:R) (1 / 10%:R) 1 (9%:R / 10%:R)
     (9%:R / 10%:R) (xl R) (xr R) (fx R)).2 = Some Fr.
Proof.
apply/C67_defined_iff; rewrite [net_moment (xr R) _ _ _]net_moment_shift.
have [-> ->] := fx_net R; rewrite !xyz => -[_].
rewrite !(mul0r, mulr0, subr0, mulrN1, opprK) -opprD => /eqP.
by rewrite oppr_eq0 -mulr2n mulrn_eq0 oner_eq0.
Qed.

(* C66: on the same robot the split 99/100 meets the limits *)
Example C66_ex : feet_ok (9%:R / 10%:R * (1 / 10%:R) / 2%:R) (9%:R / 10%:R * (26%:R / 100%:R) / 2%:R) 1
  (split_wrench (xl R) (xr R) (fx R) (99%:R / 100%:R)).
Proof.
have h100 : (0 : R) < 100%:R by rewrite ltr0n.
apply/feet_okE.
  by rewrite divr_gt0 ?ltr0n //= ltr_pdivr_mulr // mul1r ltr_nat.
rewrite /= net_moment_shift; have [-> ->] := fx_net R; rewrite /foot_ok !xyz.
rewrite !(mul0r, mulr0, subr0, add0r, addr0, oppr0, normr0, normrN, normr1, mulr1).
split; [|by rewrite !mulr_ge0 ?invr_ge0 ?ler0n|exact: ler01].
have -> : - 1 - (99%:R / 100%:R + (1 - 99%:R / 100%:R) * - 1) * - 1 = - (2%:R / 100%:R) :> R.
  by field.
rewrite normrN ger0_norm ?divr_ge0 ?ler0n //.
have -> : 9%:R / 10%:R * (1 / 10%:R) / 2%:R = 9%:R / 200%:R :> R by field.
rewrite ler_pdivl_mulr ?ltr0n // mulrAC ler_pdivr_mulr // -!natrM ler_nat.
by [].
Qed.

(* C69: a robot turned by 90 degrees *)
Example C69_ex : euler210 (rotZ (0 : R) 1) 0 1 1 0 1 0.
Proof.
split; try by rewrite !(mul0r, mulr0, mulr1, addr0, add0r).
by apply/matrixP; apply: ordP3; apply: ordP3; rewrite !(mxE, sum3) !inordK //=; ring.
Qed.
End Examples.
