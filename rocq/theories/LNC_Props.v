(* Properties C122-C128: the hierarchical QP of the non-contact joints. *)
From mathcomp Require Import all_ssreflect all_algebra.
From mathcomp Require Import zify.
From mathcomp.algebra_tactics Require Import ring.
From Verif Require Import LinAlg DMat DMatL Geo_Model Geo_Spec Geo_Proofs Cone_Model Cone_Spec QP_Model QP_Spec HQP_Model HQP_Spec HQP_Proofs HQP_Thm HQP_Ex HQP_Props HQP_First LQP_Model LQP_Spec LQP_Proofs LQP_Thm LQP_Props LQP_Props2 Jacc_Model Jacc_Spec Jacc_NC LNC_Model LNC_Spec LNC_Proofs LNC_Thm.
Set Implicit Arguments.
Unset Strict Implicit.
Unset Printing Implicit Defensive.
Import Order.TTheory GRing.Theory Num.Theory.
Local Open Scope ring_scope.

Lemma link_gap (F : realFieldType) (b c r f g : 'cV[F]_3) :
  b + crossp c r + (f - b + crossp r (g - c)) = f + crossp r (g - 2%:R *: c).
Proof. apply: vecP; rewrite !xyz; ring. Qed.

Section LNCProps.
Variable R : rcfType.
Local Notation dm := (dm R).
Local Notation level := (level R).
Local Notation d0 := (initLevel R 0 0 0).
Local Notation answer := LQP_Spec.answer.

(* C122.  On an empty hierarchy, data of the right sizes and any correct null-space function, the
   configuration is defined and builds exactly two levels over the nc_dof joint accelerations: the
   wanted rate of the group of non-contact links with torques within 200, then the acceleration of
   the link of ts_[1] with joint accelerations within 5; both with the cost 5 M / |M| and unit
   weights, and prepared null-space bases. *)
Theorem C122_configured_hierarchy (f : dm -> dm) (rb : nrobot R) q t xl x0 :
  null_space_ok f -> nc_sized rb q -> second_task rb t xl x0 ->
  exists hs, ConfigureLQP_R_NC f rb q [::] = Some hs /\ nc_conf rb q t (xl - x0) hs.
Proof. exact: nconf_ok. Qed.

(* C123.  The configuration is defined only if there is a second task with a link, six rows. *)
Theorem C123_needs_second_task (f : dm -> dm) (rb : nrobot R) q hs hs' : ConfigureLQP_R_NC f rb q hs = Some hs' ->
  exists t0 t ts id ids xl x0, [/\ n_ts rb = t0 :: t :: ts, t_links t = id :: ids,
    at_ (n_xpos rb) id = Some xl /\ at_ (n_xpos rb) 0 = Some x0, nr (t_f t) = 6%N & nr (t_J t) = 6%N].
Proof.
rewrite /ConfigureLQP_R_NC; case: tail => //= g6; case E6: seg => [b6|] //=; case: (LNC_Model.corner _ _) => //= M.
case: scaled => //= H; case: nc_level0 => //= r.
rewrite /nc_level1; case: (n_ts rb) => [|t0 [|t ts]] //=.
rewrite /nc_reference; case Ei: (t_links t) => [|id ids] //=.
case Ex: (LNC_Model.at_ (n_xpos rb) id) => [xl|] //=; case Ey: (LNC_Model.at_ (n_xpos rb) 0) => [x0|] //=.
case Ed: dsub => [dd|] //=; case: dmul => //= fl; case EJ: rightCols => [Jn|] //=; case EB: blockw => [B|] //= _.
exists t0, t, ts, id, ids, xl, x0; split=> //.
- have b6r : nr b6 = 6%N by move: E6; rewrite /seg /dblock; case: ifP => // _ [<-].
  by move: Ed; rewrite /dsub /dadd; case: ifP => // /andP[/eqP -> _] _.
have Jr : nr Jn = nr (t_J t) by move: EJ; rewrite /rightCols /dblock; case: ifP => // _; case: ifP => // _ [<-].
by rewrite -Jr; move: EB; rewrite /blockw; case: ifP => // /and4P[/eqP -> _ _ _].
Qed.

(* ... and nothing else of the task list, and not the torque limit, has any influence on it. *)
Theorem C123_only_second (f : dm -> dm) (rb rb' : nrobot R) q hs :
  [/\ n_nc rb = n_nc rb', n_ANC rb = n_ANC rb', n_GNC rb = n_GNC rb', n_JI rb = n_JI rb' & n_xpos rb = n_xpos rb'] ->
  at_ (n_ts rb) 1 = at_ (n_ts rb') 1 ->
  ConfigureLQP_R_NC f rb q hs = ConfigureLQP_R_NC f rb' q hs.
Proof.
case: rb rb' => [n A G J x ts lim] [n' A' G' J' x' ts' lim'] /= [-> -> -> -> ->] e.
by rewrite /ConfigureLQP_R_NC /nc_level1 /nc_level0 /nc_reference /= e.
Qed.

(* C124.  For any solver and any number of calls, the first with init: every call is defined, keeps
   the configuration, and the second level changes nothing in the rate of the group of non-contact
   links that the first level arrived at. *)
Theorem C124_group_first (osqp : nat -> bool -> oqp R -> nat -> R) (rb : nrobot R) q t r hs : nc_conf rb q t r hs ->
  (exists hs', CalcControlTorqueLQP_R_NC osqp (n_nc rb) hs true = Some hs') /\
  forall hs', nc_solved osqp (n_nc rb) hs hs' ->
  [/\ forall init, exists hs2, CalcControlTorqueLQP_R_NC osqp (n_nc rb) hs' init = Some hs2, nc_conf rb q t r hs' &
    forall k, (k < 6)%N -> nc_rate rb (final hs') k = nc_rate rb (answer (nth d0 hs' 0)) k].
Proof.
move=> cf; split.
  by have [l0 [l1 [h' [_ e' _ _ _]]]] := call_ok osqp cf (or_introl (isT : is_true true)); exists h'.
move=> hs' so; have [cf' rd] := solved_state cf so; split=> //.
  by move=> init; have [l0 [l1 [h' [_ e' _ _ _]]]] := call_ok osqp cf' (or_intror rd : init \/ _); exists h'.
have [h [init [cfh st e]]] := solved_last cf so.
have [l0 [l1 [h' [_ e' _ _ rt]]]] := call_ok osqp cfh st.
by move: e'; rewrite e => -[E]; rewrite -{h'}E in rt.
Qed.

(* C125, the part that holds: an exact first level finds the best compromise between the wanted
   rate, the excess over the torque bound and the cost of the motion *)
Theorem C125_best_compromise_partial osqp (rb : nrobot R) q t r (hs hs' : seq level) :
  nc_conf rb q t r hs -> nc_solved osqp (n_nc rb) hs hs' -> nc_spd rb -> exactly_solved hs' 0 ->
  let x := answer (nth d0 hs' 0) in let v := slack (nth d0 hs' 0) in
  [/\ nc_excess rb x v, forall y w, nc_excess rb y w -> nc_objective rb q x v <= nc_objective rb q y w &
      forall k, (k < 2 * n_nc rb)%N -> 0 <= v k].
Proof. exact: first_minimum. Qed.

(* scaling a motion *)
Lemma rate_scale rb s (x : nat -> R) k : nc_rate rb (fun i => s * x i) k = s * nc_rate rb x k.
Proof. by rewrite /nc_rate mulr_sumr; apply: eq_bigr => i _; rewrite mulrCA. Qed.
Lemma torque_scale rb s (x : nat -> R) k :
  nc_torque rb (fun i => s * x i) k = s * nc_torque rb x k + (1 - s) * ent (n_GNC rb) k 0.
Proof.
rewrite /nc_torque mulrDr -addrA -mulrDl addrCA subrr addr0 mul1r; congr (_ + _).
by rewrite mulr_sumr; apply: eq_bigr => i _; rewrite mulrCA.
Qed.
Lemma energy_scale rb s (x : nat -> R) : nc_energy rb (fun i => s * x i) = s ^+ 2 * nc_energy rb x.
Proof.
rewrite /nc_energy mulr_sumr; apply: eq_bigr => i _; rewrite mulr_sumr; apply: eq_bigr => j _; ring.
Qed.
Lemma sq_scale n s (v : nat -> R) : \sum_(0 <= k < n) (s * v k) ^+ 2 = s ^+ 2 * \sum_(0 <= k < n) v k ^+ 2.
Proof. by rewrite mulr_sumr; apply: eq_bigr => i _; rewrite exprMn. Qed.
Lemma energy_ge0 rb (x : nat -> R) : nc_spd rb -> 0 <= nc_energy rb x.
Proof.
move=> [_ pd]; case: (pickP (fun i : 'I_(n_nc rb) => x i != 0)) => [i /eqP ne|z].
  by apply: ltW; apply: pd; exists i.
rewrite /nc_energy sum_ord big1 // => i _; rewrite sum_ord big1 // => j _.
by have := z i => /negbFE/eqP ->; rewrite !mul0r.
Qed.
Lemma excess_scale rb (x v : nat -> R) s : 0 <= s <= 1 -> nc_holds rb -> nc_excess rb x v ->
  nc_excess rb (fun i => s * x i) (fun i => s * v i).
Proof.
move=> /andP[s0 s1] ho ex k lk; have [e1 e2] := ex k lk; have := ho k lk; rewrite ler_norml => /andP[g1 g2].
have t0 : 0 <= 1 - s by rewrite subr_ge0.
rewrite torque_scale; split.
  have -> : 200%:R + s * v k = s * (200%:R + v k) + (1 - s) * 200%:R by ring.
  by apply: ler_add; apply: ler_wpmul2l.
have -> : 200%:R + s * v (n_nc rb + k)%N = s * (200%:R + v (n_nc rb + k)%N) + (1 - s) * 200%:R by ring.
rewrite opprD -!mulrN; apply: ler_add; apply: ler_wpmul2l => //.
by rewrite ler_oppl.
Qed.

(* C125, refuted as stated, and not only by accident: when holding against gravity is within the
   bound, no exact solve ever reaches a wanted rate other than 0, although the solution of the
   problem without the cost of the motion may be attainable. *)
Theorem C125_never_met osqp (rb : nrobot R) q t r (hs hs' : seq level) :
  nc_conf rb q t r hs -> nc_solved osqp (n_nc rb) hs hs' -> nc_spd rb -> nc_holds rb -> 0 < nc_norm rb ->
  exactly_solved hs' 0 -> (exists k, (k < 6)%N /\ rate_wanted q k <> 0) ->
  ~ (forall k, (k < 6)%N -> nc_rate rb (final hs') k = rate_wanted q k).
Proof.
move=> cf so spd ho Np ex [k0 [lk0 w0]] met.
have [_ /(_ _ so) [_ _ rt]] := C124_group_first osqp cf.
have [] := first_minimum cf so spd ex; set x := answer _; set v := slack _ => fe mn _.
have {met rt} met k : (k < 6)%N -> nc_rate rb x k = rate_wanted q k by move=> lk; rewrite -rt // met.
have c0 : 0 < 5%:R / nc_norm rb by rewrite divr_gt0 // ltr0n.
have xne : exists i, (i < n_nc rb)%N /\ x i <> 0.
  case: (pickP (fun i : 'I_(n_nc rb) => x i != 0)) => [i /eqP ne|z]; first by exists i.
  case: w0; rewrite -met // /nc_rate sum_ord big1 // => j _.
  by have := z j => /negbFE/eqP ->; rewrite mulr0.
have ep : 0 < nc_energy rb x by case: spd => _; apply.
set rho := \sum_(0 <= k < 6) rate_wanted q k ^+ 2.
set kap := \sum_(0 <= k < 2 * n_nc rb) v k ^+ 2 + 5%:R / nc_norm rb * nc_energy rb x.
have r0 : 0 <= rho by apply: sumr_ge0 => *; apply: sqr_ge0.
have k_0 : 0 < kap.
  by rewrite /kap ltr_paddl //; [apply: sumr_ge0 => *; apply: sqr_ge0|apply: mulr_gt0].
pose s := kap / (rho + kap).
have t1 : 0 <= 1 - s <= 1.
  rewrite subr_ge0 ler_subl_addr ler_addl /s; have p : 0 < rho + kap by apply: ltr_paddl.
  by rewrite ler_pdivr_mulr // mul1r ler_addr r0 divr_ge0 // ltW.
apply: (@no_trade R rho kap s) => //.
have := mn _ _ (excess_scale t1 ho fe); rewrite /nc_objective energy_scale sq_scale.
have -> : \sum_(0 <= k < 6) (nc_rate rb x k - rate_wanted q k) ^+ 2 = 0.
  by rewrite sum_ord big1 // => k _; rewrite met // subrr expr0n.
have -> : \sum_(0 <= k < 6) (nc_rate rb (fun i => (1 - s) * x i) k - rate_wanted q k) ^+ 2 = s ^+ 2 * rho.
  rewrite /rho mulr_sumr !sum_ord; apply: eq_bigr => k _; rewrite rate_scale met //; ring.
rewrite add0r -/kap => h; apply: le_trans h _.
rewrite /kap; set a := \sum_(0 <= k < _) _; set b := nc_energy _ _; rewrite le_eqVlt; apply/orP; left; apply/eqP.
ring.
Qed.

(* the other case: with nothing wanted, and gravity within the bound, the first level stands still,
   so the rate is met and there is no excess *)
Theorem C125_zero_rate_partial osqp (rb : nrobot R) q t r (hs hs' : seq level) :
  nc_conf rb q t r hs -> nc_solved osqp (n_nc rb) hs hs' -> nc_spd rb -> nc_holds rb -> 0 < nc_norm rb ->
  exactly_solved hs' 0 -> (forall k, (k < 6)%N -> rate_wanted q k = 0) ->
  [/\ forall i, (i < n_nc rb)%N -> answer (nth d0 hs' 0) i = 0,
      forall k, (k < 2 * n_nc rb)%N -> slack (nth d0 hs' 0) k = 0 &
      forall k, (k < 6)%N -> nc_rate rb (final hs') k = rate_wanted q k].
Proof.
move=> cf so spd ho Np ex w0.
have [_ /(_ _ so) [_ _ rt]] := C124_group_first osqp cf.
have [] := first_minimum cf so spd ex; set x := answer _; set v := slack _ => fe mn _.
have t0 : 0 <= (0 : R) <= 1 by rewrite lexx ler01.
have := mn _ _ (excess_scale t0 ho fe); rewrite /nc_objective energy_scale sq_scale expr0n !mul0r mulr0 !addr0.
rewrite [X in _ <= X]sum_ord [X in _ <= X]big1; last by move=> k _; rewrite rate_scale mul0r w0 // subrr expr0n.
have c0 : 0 < 5%:R / nc_norm rb by rewrite divr_gt0 // ltr0n.
have n1 : 0 <= \sum_(0 <= k < 6) (nc_rate rb x k - rate_wanted q k) ^+ 2 by apply: sumr_ge0 => *; apply: sqr_ge0.
have n2 : 0 <= \sum_(0 <= k < 2 * n_nc rb) v k ^+ 2 by apply: sumr_ge0 => *; apply: sqr_ge0.
have n3 : 0 <= 5%:R / nc_norm rb * nc_energy rb x by rewrite mulr_ge0 ?energy_ge0 // ltW.
move=> h; have h0 : \sum_(0 <= k < 6) (nc_rate rb x k - rate_wanted q k) ^+ 2 + \sum_(0 <= k < 2 * n_nc rb) v k ^+ 2 + 5%:R / nc_norm rb * nc_energy rb x == 0.
  by rewrite eq_le h !addr_ge0.
move: h0; rewrite paddr_eq0 ?addr_ge0 // paddr_eq0 // => /andP[/andP[_ /eqP zv] ze].
have xz i : (i < n_nc rb)%N -> x i = 0.
  move=> li; apply/eqP; case: eqP => // ne; move: ze; rewrite mulf_eq0 (gt_eqF c0) /= gt_eqF //.
  by case: spd => _; apply; exists i.
split=> //.
  move=> k lk; move: zv; rewrite sum_ord => /eqP; rewrite psumr_eq0; last by move=> *; apply: sqr_ge0.
  by move=> /allP/(_ (Ordinal lk) (mem_index_enum _)); rewrite implyTb sqrf_eq0 => /eqP.
move=> k lk; rewrite rt // w0 // /nc_rate sum_ord big1 // => i _.
by rewrite -/x xz ?mulr0.
Qed.

(* C126, the part that holds: if the answer of level 1 satisfies its constraints, the torques of the
   final answer exceed 200 by no more than the slacks of level 0 *)
Theorem C126_excess_kept_partial osqp (rb : nrobot R) q t r (hs hs' : seq level) :
  nc_conf rb q t r hs -> nc_solved osqp (n_nc rb) hs hs' ->
  nothing_dropped (l_qA (nth d0 hs' 1)) -> oqp_feasible (osqp_problem (nth d0 hs' 1)) (ans_of (nth d0 hs' 1)) ->
  nc_excess rb (final hs') (slack (nth d0 hs' 0)).
Proof.
move=> cf so nd fe.
have [h [init [cfh st e]]] := solved_last cf so.
have [l0 [l1 [h' [_ e' [cf2 _] [l0' _ [cf' st' e2 eh sz]] _]]]] := call_ok osqp cfh st.
move: e'; rewrite e => -[E]; rewrite -{h'}E in e2 eh sz cf2 *.
have szl : size [:: l0'; l1] = 2%N by [].
have sh i : (i < size [:: l0'; l1])%N -> shaped (n_nc rb) (nth d0 [:: l0'; l1] i) by rewrite szl; apply: (nf_shaped cf').
have := @C31_inequalities_kept_exact R (n_nc rb) osqp d0 [:: l0'; l1] hs' init sh (nf_prepared cf') st' e2 1%N isT nd fe 0%N isT.
have fin : final hs' = answer (nth d0 hs' 1) by rewrite /final -nth_last sz.
case: hs' sz cf2 {so e e2 eh nd fe} fin => [|a hs'] // _ cf2 -> /=.
have yE : yv (n_nc rb) (nth d0 hs' 0) = col_of (n_nc rb) (answer (nth d0 hs' 0)) by apply/matrixP => i j; rewrite !mxE ord1.
have vE : vv a = col_of (l_nin a) (slack a) by apply/matrixP => i j; rewrite !mxE ord1.
by rewrite yE vE => /(excess0 cf2).
Qed.

(* ... so with nothing wanted and gravity within the bound, they stay within it *)
Theorem C126_bound_partial osqp (rb : nrobot R) q t r (hs hs' : seq level) :
  nc_conf rb q t r hs -> nc_solved osqp (n_nc rb) hs hs' -> nc_spd rb -> nc_holds rb -> 0 < nc_norm rb ->
  exactly_solved hs' 0 -> (forall k, (k < 6)%N -> rate_wanted q k = 0) ->
  nothing_dropped (l_qA (nth d0 hs' 1)) -> oqp_feasible (osqp_problem (nth d0 hs' 1)) (ans_of (nth d0 hs' 1)) ->
  forall k, (k < n_nc rb)%N -> `|nc_torque rb (final hs') k| <= 200%:R.
Proof.
move=> cf so spd ho Np ex w0 nd fe k lk.
have [_ vz _] := C125_zero_rate_partial cf so spd ho Np ex w0.
have [] := C126_excess_kept_partial cf so nd fe lk.
by rewrite !vz ?addr0 ?ler_norml; [rewrite ler_oppl => -> ->|lia|lia].
Qed.

(* C127, refuted as stated.  Configuring a hierarchy that is already configured appends two levels
   and never fills them in: the answer is then read from a blank level. *)
Theorem C127_reconfigure_appends (f : dm -> dm) (rb : nrobot R) q hs hs2 :
  ConfigureLQP_R_NC f rb q hs = Some hs2 -> (2 <= size hs)%N ->
  size hs2 = (size hs + 2)%N /\ blank_from (size hs) hs2.
Proof.
rewrite /ConfigureLQP_R_NC; case: tail => //= g6; case: seg => //= b6; case: (LNC_Model.corner _ _) => //= M; case: scaled => //= H.
case E1: nc_level0 => [[h1 Aa]|] //=; case E2: nc_level1 => [h2|] //= E4 le.
have b0 : blank_from (size hs) hs by move=> i; lia.
have [s1 b1] : size h1 = (size hs).+1 /\ blank_from (size hs) h1.
  move: E1; rewrite /nc_level0; case: blockw => //= B; case: segw => //= b; case: (LNC_Model.corner _ _) => //= M'.
  case: dadd => //= u; case: dsub => //= w; case: two_blocks => //= Aa'.
  case E: updAt => [h|] //= [<- _]; by apply: (blank_step b0 _ E); lia.
have [s2 b2] : size h2 = (size h1).+1 /\ blank_from (size hs) h2.
  move: E2; rewrite /nc_level1; case: at_ => //= t; case: nc_reference => //= fl; case: rightCols => //= Jn.
  case: blockw => //= B; case: segw => //= b; case: two_blocks => //= Aa'.
  by move/(blank_step b1); apply; lia.
have sz : size h2 = (size hs + 2)%N by rewrite s2 s1; lia.
case: h2 E2 E4 s2 b2 sz => //= l h2 _; case E: prepare_rest => [r|] //= [<-] s2 b2 sz.
have [s h] := prepare_rest_blank E; rewrite /= s; split=> // -[|i] li; first by lia.
by apply: h; apply: (b2 i.+1); rewrite /= -s; exact: li.
Qed.

(* C128.  What meeting the demands of level 1 exactly means for the link: r is its offset from the
   base link, the base accelerates with q_acc.head(6).  The angular acceleration is the desired one,
   the linear acceleration is the desired one exactly when r x (f_ang - 2 base_ang) = 0. *)
Theorem C128_link_acceleration_partial (rb : nrobot R) q t r hs x : nc_conf rb q t r hs ->
  (forall k, (k < l_neq (nth d0 hs 1))%N -> rowdot (l_B (nth d0 hs 1)) k x + ent (l_b (nth d0 hs 1)) k 0 = 0) ->
  link_ang (lower q) (nc_link rb t x 3) = lower (t_f t) /\
  (link_lin r (upper q) (lower q) (nc_link rb t x 0) = upper (t_f t) <-> crossp r (lower (t_f t) - 2%:R *: lower q) = 0).
Proof.
move=> cf /(nf_eq1 cf) [h1 h2]; rewrite h1 h2; split.
  by rewrite /link_ang addrC subrK.
rewrite /link_lin; set f := upper (t_f t); set g := lower (t_f t); set b := upper q; set c := lower q.
rewrite link_gap.
by split=> [h|->]; [apply: (addrI f); rewrite h addr0 | rewrite addr0].
Qed.
End LNCProps.
