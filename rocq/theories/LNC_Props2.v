(* C122-C128: refutations and examples on the concrete robot of LNC_Ex. *)
From mathcomp Require Import all_ssreflect all_algebra.
From mathcomp Require Import zify.
From mathcomp.algebra_tactics Require Import ring.
From Verif Require Import LinAlg DMat DMatL Geo_Model Geo_Spec Geo_Proofs Cone_Model Cone_Spec QP_Model QP_Spec HQP_Model HQP_Spec HQP_Proofs HQP_Thm HQP_Ex HQP_Props HQP_First LQP_Model LQP_Spec LQP_Proofs LQP_Thm LQP_Ex LQP_Props LQP_Props2 Jacc_Model Jacc_Spec Jacc_Proofs Jacc_NC LNC_Model LNC_Spec LNC_Proofs LNC_Thm LNC_Props LNC_Ex.
Set Implicit Arguments.
Unset Strict Implicit.
Unset Printing Implicit Defensive.
Import Order.TTheory GRing.Theory Num.Theory.
Local Open Scope ring_scope.

Section Refuted.
Variable R : rcfType.
Local Notation dm := (dm R).
Local Notation level := (level R).
Local Notation d0 := (initLevel R 0 0 0).
Local Notation answer := LQP_Spec.answer.
Local Notation hand := (hand R).

Lemma conf6 t0 ts lim (a : R) : exists hs, ConfigureLQP_R_NC (@knull R) (rb6 (t0 :: hand :: ts) lim) (q12 a) [::] = Some hs /\
  nc_conf (rb6 (t0 :: hand :: ts) lim) (q12 a) hand (up R) hs.
Proof.
have [hs [e cf]] := nconf_ok (@knull_ok R) (sized6 (t0 :: hand :: ts) lim a) (second6 t0 ts lim (f := turn6 R) (J := dident R 6) (conj erefl erefl) (conj erefl erefl)).
by exists hs; rewrite subr0 in cf.
Qed.

(* C122: the robot meets the hypotheses *)
Example C122_example : exists hs, ConfigureLQP_R_NC (@knull R) (rb6 [:: hand; hand] 10%:R) (q12 3%:R) [::] = Some hs /\
  nc_conf (rb6 [:: hand; hand] 10%:R) (q12 3%:R) hand (up R) hs.
Proof. exact: conf6. Qed.

(* C123 refuted: a single task, or a second task of three rows (a position or a rotation task, with
   all its data of matching sizes), makes the configuration read out of range *)
Theorem C123_any_tasks_refuted :
  (exists (rb : nrobot R) q, [/\ nc_sized rb q, size (n_ts rb) = 1%N & forall f, ConfigureLQP_R_NC f rb q [::] = None]) /\
  (exists (rb : nrobot R) q t, [/\ nc_sized rb q, n_ts rb = [:: t; t], dims (t_f t) 3 1 /\ dims (t_J t) 3 (n_nc rb) &
     forall f, ConfigureLQP_R_NC f rb q [::] = None]).
Proof.
split.
  exists (rb6 [:: hand] 10%:R), (q12 0); split=> //; first exact: sized6.
  move=> f; case E: ConfigureLQP_R_NC => [h|] //.
  by have [t0 [t [ts [id [ids [xl [x0 [eq _ _ _ _]]]]]]]] := C123_needs_second_task E.
pose t : ntask R := NTK [:: 1%N] (dzero R 3 6) (dzero R 3 1).
exists (rb6 [:: t; t] 10%:R), (q12 0), t; split=> //; first exact: sized6.
move=> f; case E: ConfigureLQP_R_NC => [h|] //.
by have [t0 [t1 [ts [id [ids [xl [x0 [[_ <- _] _ _ h1 _]]]]]]]] := C123_needs_second_task E.
Qed.
(* the other tasks and the torque limit: the hypotheses of C123_only_second *)
Example C123_example : ConfigureLQP_R_NC (@knull R) (rb6 [:: hand; hand] 10%:R) (q12 3%:R) [::] =
  ConfigureLQP_R_NC (@knull R) (rb6 [:: task6 (dzero R 3 6) (dzero R 3 1); hand; hand] 0) (q12 3%:R) [::].
Proof. exact: C123_only_second. Qed.

(* C124: the hypotheses *)
Example C124_example (o1 : bool -> oqp R -> nat -> R) : exists hs hs',
  [/\ nc_conf (rb6 [:: hand; hand] 10%:R) (q12 (a6 R)) hand (up R) hs, nc_solved (osqp6 o1) 6 hs hs' &
      nc_rate (rb6 [:: hand; hand] 10%:R) (final hs') 0 = 300%:R].
Proof.
have [hs [_ cf]] := conf6 hand [::] 10%:R (a6 R); have [hs' [e _ fin]] := solve6 o1 cf.
by exists hs, hs'; split=> //; [constructor|rewrite rate6 // fin].
Qed.

(* C125 refuted: a joint acceleration that gives exactly the wanted rate exists, level 0 is solved
   exactly, and the rate is 300 instead of a = 400 + 300 h (about 1012), whatever level 1 answers *)
Theorem C125_rate_missed_refuted (o1 : bool -> oqp R -> nat -> R) : exists (rb : nrobot R) q t r hs hs',
  [/\ [/\ nc_sized rb q, nc_spd rb & nc_holds rb],
      [/\ ConfigureLQP_R_NC (@knull R) rb q [::] = Some hs, nc_conf rb q t r hs & nc_solved (osqp6 o1) (n_nc rb) hs hs'],
      exactly_solved hs' 0, (exists x, forall k, (k < 6)%N -> nc_rate rb x k = rate_wanted q k) &
      nc_rate rb (final hs') 0 + 100%:R < rate_wanted q 0].
Proof.
have [hs [ec cf]] := conf6 hand [::] 10%:R (a6 R); have [hs' [e ex fin]] := solve6 o1 cf.
exists (rb6 [:: hand; hand] 10%:R), (q12 (a6 R)), hand, (up R), hs, hs'; split=> //.
- by split; [exact: sized6|exact: spd6|exact: holds6].
- by split=> //; constructor.
- by exists (rate_wanted (q12 (a6 R))) => k lk; rewrite rate6.
rewrite rate6 // fin // wanted6 //= /x6 /= /a6 -natrD ltr_addl pmulr_rgt0 ?h6_pos ?ltr0n //.
Qed.

(* C126 refuted: torque 300 on a joint though 200 is the bound and standing still respects it, and
   though the user's limit is 10 *)
Theorem C126_bound_exceeded_refuted (o1 : bool -> oqp R -> nat -> R) : exists (rb : nrobot R) q t r hs hs',
  [/\ [/\ nc_sized rb q, nc_spd rb & nc_holds rb],
      [/\ ConfigureLQP_R_NC (@knull R) rb q [::] = Some hs, nc_conf rb q t r hs & nc_solved (osqp6 o1) (n_nc rb) hs hs'],
      exactly_solved hs' 0, (forall k, (k < n_nc rb)%N -> ent (n_lim rb) k 0 = 10%:R) &
      200%:R < nc_torque rb (final hs') 0].
Proof.
have [hs [ec cf]] := conf6 hand [::] 10%:R (a6 R); have [hs' [e ex fin]] := solve6 o1 cf.
exists (rb6 [:: hand; hand] 10%:R), (q12 (a6 R)), hand, (up R), hs, hs'; split=> //.
- by split; [exact: sized6|exact: spd6|exact: holds6].
- by split=> //; constructor.
by rewrite torque6 // fin // ltr_nat.
Qed.

(* C127 refuted *)
Theorem C127_reconfigure_refuted : exists (f : dm -> dm) (rb : nrobot R) q t r hs hs2,
  [/\ null_space_ok f, ConfigureLQP_R_NC f rb q [::] = Some hs, nc_conf rb q t r hs, ConfigureLQP_R_NC f rb q hs = Some hs2 &
    size hs2 <> size hs /\ LQP_Props2.blank (last d0 hs2)].
Proof.
have [hs [ec cf]] := conf6 hand [::] 10%:R (a6 R).
have [hs2 e2] := C127_again_defined (@knull_ok R) (sized6 [:: hand; hand] 10%:R (a6 R)) (second6 hand [::] 10%:R (f := turn6 R) (J := dident R 6) (conj erefl erefl) (conj erefl erefl)) cf.
have sz := nf_size cf; have [|s b] := C127_reconfigure_appends e2; first by rewrite sz.
exists (@knull R), (rb6 [:: hand; hand] 10%:R), (q12 (a6 R)), hand, (up R), hs, hs2; split=> //; first exact: knull_ok.
by split; [rewrite s sz|rewrite -nth_last s; apply: b; rewrite s sz].
Qed.

(* C128 refuted: the joint accelerations that meet the second level exactly (they exist, and are
   within the bound) give the link a linear acceleration other than the desired one *)
Definition give6 (k : nat) : R := if k == 1%N then 1 else if k == 3%N then 1 else 0.
Theorem C128_link_missed_refuted : exists (rb : nrobot R) q t r hs x,
  [/\ ConfigureLQP_R_NC (@knull R) rb q [::] = Some hs, nc_conf rb q t r hs,
      forall k, (k < l_neq (nth d0 hs 1))%N -> rowdot (l_B (nth d0 hs 1)) k x + ent (l_b (nth d0 hs 1)) k 0 = 0,
      forall k, (k < n_nc rb)%N -> `|x k| <= 5%:R &
      link_lin r (upper q) (lower q) (nc_link rb t x 0) <> upper (t_f t)].
Proof.
have [hs [ec cf]] := conf6 hand [::] 10%:R (0 : R).
have lk (x : nat -> R) (i : 'I_3) : nc_link (rb6 [:: hand; hand] 10%:R) hand x 0 i 0 = x i.
  by rewrite mxE /= add0n subnn eye6 //; have := ltn_ord i; lia.
have lk3 (x : nat -> R) (i : 'I_3) : nc_link (rb6 [:: hand; hand] 10%:R) hand x 3 i 0 = x (3 + i)%N.
  by rewrite mxE /= subnn eye6 //; have := ltn_ord i; lia.
have bX (g : nat -> R) k : X (blk3 g k) = g k by rewrite /X mxE inordK // addn0.
have bY (g : nat -> R) k : Y (blk3 g k) = g k.+1 by rewrite /Y mxE inordK // addn1.
have bZ (g : nat -> R) k : Z (blk3 g k) = g k.+2 by rewrite /Z mxE inordK // addn2.
have [u1 u2 u3] : [/\ X (up R) = 0, Y (up R) = 0 & Z (up R) = 1] by rewrite /X /Y /Z !mxE -!val_eqE /= !inordK.
have lE (x : nat -> R) : nc_link (rb6 [:: hand; hand] 10%:R) hand x 0 = blk3 x 0 by apply/matrixP => i j; rewrite ord1 lk mxE.
have lE3 (x : nat -> R) : nc_link (rb6 [:: hand; hand] 10%:R) hand x 3 = blk3 x 3 by apply/matrixP => i j; rewrite ord1 lk3 mxE.
have met : forall k, (k < l_neq (nth d0 hs 1))%N -> rowdot (l_B (nth d0 hs 1)) k give6 + ent (l_b (nth d0 hs 1)) k 0 = 0.
  apply/(nf_eq1 cf); rewrite lE lE3 /upper /lower; split; apply: vecP; rewrite !xyz ?u1 ?u2 ?u3;
    rewrite ?bX ?bY ?bZ /give6 /= ?subr0 ?mulr0 ?mul0r ?mulr1 ?mul1r ?subr0 ?add0r ?addr0 ?oppr0 ?addr0 ?mulr0 //.
have [_ iff] := C128_link_acceleration_partial cf met.
exists (rb6 [:: hand; hand] 10%:R), (q12 0), hand, (up R), hs, give6; split=> //.
  by move=> k lk'; rewrite /give6; do ! case: ifP => _; rewrite ?normr0 ?normr1 ?ler0n ?ler1n.
move/iff => /(congr1 (@Y R)); rewrite !xyz u1 u3 /lower !bX !bZ /= !mulr0 mul0r !subr0 mulr1 => /eqP; by rewrite oner_eq0.
Qed.

(* C125, C126: nothing wanted, the hypotheses of the positive parts *)
Example C125_zero_example : exists hs hs', [/\ nc_conf (rb6 [:: hand; hand] 10%:R) (q12 0) hand (up R) hs,
  nc_solved (@osqp0 R) 6 hs hs', exactly_solved hs' 0, nothing_dropped (l_qA (nth d0 hs' 1)) &
  oqp_feasible (osqp_problem (nth d0 hs' 1)) (ans_of (nth d0 hs' 1))].
Proof.
have [hs [_ cf]] := conf6 hand [::] 10%:R 0; have [hs' [e ex nd fe]] := solve0 cf.
by exists hs, hs'; split=> //; constructor.
Qed.
End Refuted.
Print Assumptions C122_configured_hierarchy.
Print Assumptions C123_needs_second_task.
Print Assumptions C123_only_second.
Print Assumptions C123_any_tasks_refuted.
Print Assumptions C124_group_first.
Print Assumptions C125_best_compromise_partial.
Print Assumptions C125_never_met.
Print Assumptions C125_zero_rate_partial.
Print Assumptions C125_rate_missed_refuted.
Print Assumptions C126_excess_kept_partial.
Print Assumptions C126_bound_partial.
Print Assumptions C126_bound_exceeded_refuted.
Print Assumptions C127_reconfigure_appends.
Print Assumptions C127_again_defined.
Print Assumptions C127_reconfigure_refuted.
Print Assumptions C128_link_acceleration_partial.
Print Assumptions C128_link_missed_refuted.
