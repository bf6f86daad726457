(* C57, C58, C85-C88: task references *)
From Coq Require Import Reals ZArith List Lra Lia.
From Verif Require Import Spline_Model Spline_Spec Spline_Proofs Spline_Props Rot_Model Rot_Spec Rot_Proofs Rot_Thm Task_Model PD_Model PD_Spec PD_Proofs.
Import ListNotations.
Local Open Scope R_scope.

(* C57.  With a position trajectory set, in a position mode, the reference is the PD law around a trajectory
   that has the given end states, whose velocity and acceleration are its derivatives, axis by axis the quintic;
   on the trajectory only the feed-forward is left *)
Theorem C57_position_law (p : plink) (ts te : R) (x0 v0 xf vf : vec3) : ts < te -> position_mode (p_mode p) = true ->
  p_times p = Some (ts, te) -> p_pos p = Some (x0, v0, xf, vf) ->
  exists P V A : R -> vec3,
  (forall t, t <= ts -> P t = x0 /\ V t = v0 /\ A t = V3 0 0 0) /\
  (forall t, te <= t -> P t = xf /\ V t = vf /\ A t = V3 0 0 0) /\
  (forall t, ts < t < te -> vderiv P t (V t) /\ vderiv V t (A t)) /\
  (forall t, QuinticSpline t ts te (vx x0) (vx v0) 0 (vx xf) (vx vf) 0 = Some (V3 (vx (P t)) (vx (V t)) (vx (A t))) /\
             QuinticSpline t ts te (vy x0) (vy v0) 0 (vy xf) (vy vf) 0 = Some (V3 (vy (P t)) (vy (V t)) (vy (A t))) /\
             QuinticSpline t ts te (vz x0) (vz v0) 0 (vz xf) (vz vf) 0 = Some (V3 (vz (P t)) (vz (V t)) (vz (A t)))) /\
  (forall t x v, exists f, GetFstarPosPD p t x v = Some f /\
     pd_law (g_pa (p_gain p)) (g_pp (p_gain p)) (g_pd (p_gain p)) (A t) (P t) (V t) x v f) /\
  (forall t, GetFstarPosPD p t (P t) (V t) = Some (V3 (vx (g_pa (p_gain p)) * vx (A t)) (vy (g_pa (p_gain p)) * vy (A t)) (vz (g_pa (p_gain p)) * vz (A t)))).
Proof.
  intros lt hm ht hp.
  destruct (C35_quintic ts te (vx x0) (vx v0) 0 (vx xf) (vx vf) 0 lt) as (p1 & q1 & r1 & e1 & s1 & f1 & _ & d1 & _).
  destruct (C35_quintic ts te (vy x0) (vy v0) 0 (vy xf) (vy vf) 0 lt) as (p2 & q2 & r2 & e2 & s2 & f2 & _ & d2 & _).
  destruct (C35_quintic ts te (vz x0) (vz v0) 0 (vz xf) (vz vf) 0 lt) as (p3 & q3 & r3 & e3 & s3 & f3 & _ & d3 & _).
  assert (J : forall a b c a' b' c', a = a' -> b = b' -> c = c' -> V3 a b c = V3 a' b' c') by (intros; subst; reflexivity).
  assert (E : forall a, V3 (vx a) (vy a) (vz a) = a) by (intros []; reflexivity).
  exists (fun t => V3 (p1 t) (p2 t) (p3 t)), (fun t => V3 (q1 t) (q2 t) (q3 t)), (fun t => V3 (r1 t) (r2 t) (r3 t)).
  split; [intros t h; destruct (s1 t h) as (-> & -> & ->), (s2 t h) as (-> & -> & ->), (s3 t h) as (-> & -> & ->); rewrite !E; auto|].
  split; [intros t h; destruct (f1 t h) as (-> & -> & ->), (f2 t h) as (-> & -> & ->), (f3 t h) as (-> & -> & ->); rewrite !E; auto|].
  split; [intros t h; destruct (d1 t h), (d2 t h), (d3 t h); unfold vderiv; cbn [vx vy vz]; auto|].
  split; [intros t; cbn [vx vy vz]; auto|].
  assert (T : forall t, pos_traj t ts te x0 v0 xf vf = Some (V3 (p1 t) (p2 t) (p3 t), V3 (q1 t) (q2 t) (q3 t), V3 (r1 t) (r2 t) (r3 t)))
    by (intros t; unfold pos_traj; rewrite e1, e2, e3; reflexivity).
  split; intros t; unfold GetFstarPosPD; rewrite hm, ht, hp, T.
  - intros x v. eexists. split; [reflexivity|]. unfold pd_law, vadd, vcmul, vsub; cbn [vx vy vz]. auto.
  - unfold vadd, vcmul, vsub; cbn [vx vy vz]. f_equal. apply J; ring.
Qed.
(* rotation modes have no position part *)
Theorem C57_rotation_modes (p : plink) t x v : p_mode p = TASK_LINK_ROTATION \/ p_mode p = TASK_LINK_ROTATION_CUSTOM_FRAME ->
  GetFstarPosPD p t x v = Some (V3 0 0 0).
Proof. intros [h|h]; unfold GetFstarPosPD; rewrite h; reflexivity. Qed.
Definition ex_link : plink := prun (new_plink TASK_LINK_POSITION (V3 0 0 0))
  [PQuintic 0 2 (V3 0 0 0) (V3 0 0 0) (V3 1 0 0) (V3 0 0 0); PGain (Gains (V3 100 100 100) (V3 20 20 20) (V3 1 1 1) (V3 0 0 0) (V3 0 0 0) (V3 0 0 0))].
Example C57_ex : position_mode (p_mode ex_link) = true /\ p_times ex_link = Some (0, 2) /\
  GetFstarPosPD ex_link 1 (V3 (1 / 4) 0 0) (V3 0 0 0) = Some (V3 (25 + 20 * (15 / 16)) 0 0).
Proof.
  split; [reflexivity|]. split; [reflexivity|]. unfold GetFstarPosPD. cbn -[pos_traj].
  unfold pos_traj; cbn [vx vy vz]. rewrite C36_example.
  assert (e : QuinticSpline 1 0 2 0 0 0 0 0 0 = Some (V3 0 0 0)).
  { rewrite quintic_eq by lra. unfold glue. destruct (Rlt_dec 1 0); [lra|]. destruct (Rlt_dec 2 1); [lra|].
    unfold Spline_Proofs.pos, vel, acc, poly, a4, a5, a6, R1, R2, R3. do 2 f_equal; field. }
  rewrite e. unfold vadd, vcmul, vsub; cbn [vx vy vz]. do 2 f_equal; lra.
Qed.

(* C58.  For the modes without a custom point the velocity fed to the PD law is the derivative of the position fed *)
Theorem C58_link_frames_partial L mode pt : moving L ->
  mode = TASK_LINK_6D \/ mode = TASK_LINK_POSITION \/ mode = TASK_LINK_6D_COM_FRAME \/ mode = TASK_LINK_POSITION_COM_FRAME ->
  exists X V, (forall t, fed mode pt (L t) = Some (X t, V t)) /\ forall t, vderiv X t (V t).
Proof.
  intros M hm.
  assert (D : (forall t, vderiv (fun s => l_x (L s)) t (l_v (L t))) /\ forall t, vderiv (fun s => l_xi (L s)) t (l_vi (L t))).
  { split; intros t; [apply M|]. pose proof (point_moves L (l_com (L 0)) t M) as h.
    assert (c : forall s, l_com (L s) = l_com (L 0)) by (intros s; apply M).
    unfold l_xi, l_vi. rewrite c. destruct h as (h1 & h2 & h3).
    split; [|split]; eapply lim_local with (d := 1); try lra; try eassumption; intros y _; cbn beta; now rewrite c. }
  destruct D as [D1 D2].
  destruct hm as [->|[->|[->| ->]]]; unfold fed; cbn -[l_x l_v l_xi l_vi].
  1,2: exists (fun t => l_x (L t)), (fun t => l_v (L t)); auto.
  all: exists (fun t => l_xi (L t)), (fun t => l_vi (L t)); auto.
Qed.
(* for a custom point it is off by w x (rotm point - point) *)
Theorem C58_custom_point_partial L mode pt : moving L ->
  mode = TASK_LINK_6D_CUSTOM_FRAME \/ mode = TASK_LINK_POSITION_CUSTOM_FRAME ->
  exists X V, (forall t, fed mode pt (L t) = Some (X t, V t)) /\
  forall t, vderiv X t (vadd (V t) (cross (l_w (L t)) (vsub (mv3 (l_R (L t)) pt) pt))).
Proof.
  intros M hm.
  exists (fun t => vadd (l_x (L t)) (mv3 (l_R (L t)) pt)), (fun t => vadd (l_v (L t)) (cross (l_w (L t)) pt)).
  split; [intros t; destruct hm as [->| ->]; reflexivity|].
  intros t. pose proof (point_moves L pt t M) as h.
  match goal with |- vderiv _ _ ?a => match type of h with vderiv _ _ ?b => replace a with b; [exact h|] end end.
  unfold vadd, cross, vsub; cbn [vx vy vz]. f_equal; ring.
Qed.
(* a link turning about z with unit speed, a quarter turn in; point on its x axis *)
Definition spin (t : R) : lstate := LState (V3 0 0 0) (rotateWithZ t) (V3 0 0 0) (V3 0 0 1) (V3 0 0 0).
Lemma spin_moves : moving spin.
Proof.
  intros t. unfold spin; cbn [l_x l_R l_v l_w l_com]. split; [|split; [|reflexivity]].
  - unfold vderiv; cbn [vx vy vz]. repeat split; apply (derivable_pt_lim_const 0).
  - unfold angular_velocity, mderiv, rotateWithZ, mm3, hat; cbn [m00 m01 m02 m10 m11 m12 m20 m21 m22 vx vy vz].
    repeat split.
    all: eapply lim_eq; [first [apply derivable_pt_lim_sin|apply derivable_pt_lim_cos|der]|cbn beta; ring].
Qed.
Example C58_ex : moving spin. Proof. exact spin_moves. Qed.
Theorem C58_custom_frame_refuted : exists L pt t, moving L /\
  forall mode, mode = TASK_LINK_6D_CUSTOM_FRAME \/ mode = TASK_LINK_POSITION_CUSTOM_FRAME ->
  exists X V, (forall s, fed mode pt (L s) = Some (X s, V s)) /\ ~ vderiv X t (V t).
Proof.
  exists spin, (V3 1 0 0), (PI / 2). split; [exact spin_moves|]. intros mode hm.
  destruct (C58_custom_point_partial spin mode (V3 1 0 0) spin_moves hm) as (X & V & e & h).
  exists X, V. split; [exact e|]. intros (_ & h2 & _). destruct (h (PI / 2)) as (_ & g2 & _).
  pose proof (uniqueness_limite _ _ _ _ h2 g2) as u. revert u.
  unfold spin, vadd, cross, vsub, mv3, rotateWithZ; cbn [l_w l_R vx vy vz m00 m01 m02 m10 m11 m12 m20 m21 m22].
  rewrite sin_PI2, cos_PI2. lra.
Qed.

(* C85.  The orientation reference.  `one' is Eigen's 1 - epsilon; orientations closer than that, but not equal, are
   left out *)
Theorem C85_orientation_partial (one : R) (p : plink) (ts te : R) (r0 rf : mat3) (w0 wf : vec3) : ts < te -> one <= 1 ->
  rotation r0 -> rotation rf -> Rabs (qdot (quat_of_mat r0) (quat_of_mat rf)) < one \/ r0 = rf ->
  p_times p = Some (ts, te) -> p_rot p = Some (r0, w0, rf, wf) ->
  exists (F : R -> mat3) (W : R -> vec3),
  (forall t, t <= ts -> F t = r0 /\ W t = V3 0 0 0) /\ (forall t, te <= t -> F t = rf /\ W t = V3 0 0 0) /\
  (forall t, rotation (F t)) /\ mat_continuous F /\ (forall t, ts < t < te -> angular_velocity F t (W t)) /\
  (exists a th s, unit_vec a /\ 0 <= th <= PI /\ forall t, F t = mm3 (rot_about a (th * s t)) r0 /\ 0 <= s t <= 1) /\
  (forall t rot w, exists f, GetFstarRotPD one p t rot w = Some f /\
     pd_law (V3 0 0 0) (g_rp (p_gain p)) (g_rd (p_gain p)) (V3 0 0 0) (GetPhi rot (F t)) (W t) (V3 0 0 0) w f) /\
  (forall t, GetFstarRotPD one p t (F t) (W t) = Some (V3 0 0 0)).
Proof.
  intros lt o1 h0 hf sep et er.
  destruct (rot_path one ts te r0 rf lt o1 h0 hf sep) as (a & th & s & v & w & u & rg & eB & eq & e).
  destruct (C35_quintic ts te 0 0 0 1 0 0 lt) as (ps & pv & pw & eq' & q0 & qf & qc & qd & _).
  destruct (C36_rest_to_rest ts te 0 1 lt) as (ps' & pv' & pw' & eq'' & _ & _ & bt).
  assert (ee : forall t, s t = ps t /\ v t = pv t /\ w t = pw t).
  { intros t. specialize (eq t). rewrite eq' in eq. injection eq; auto. }
  assert (es : forall t, s t = ps' t). { intros t. specialize (eq t). rewrite eq'' in eq. injection eq; auto. }
  exists (fun t => mm3 (rot_about a (th * ps t)) r0), (fun t => vscale (th * pv t) a).
  assert (rt : forall t, rot_traj one t ts te r0 rf = Some (mm3 (rot_about a (th * ps t)) r0, vscale (th * pv t) a, vscale (th * pw t) a)).
  { intros t. rewrite e. destruct (ee t) as (-> & -> & ->). reflexivity. }
  assert (z : vscale (th * 0) a = V3 0 0 0) by (unfold vscale; f_equal; ring).
  split; [intros t h; destruct (q0 t h) as (-> & -> & _); rewrite z, Rmult_0_r, rot_about_0, mm3_1l; auto|].
  split; [intros t h; destruct (qf t h) as (-> & -> & _); rewrite z, Rmult_1_r; auto|].
  split; [intros t; apply rotation_mm; [apply rot_about_rotation; exact u|exact h0]|].
  split; [apply rot_path_continuous; apply qc|].
  split; [intros t h; apply (rot_about_moves a (fun y => th * ps y)); [exact u|apply scal_lim, qd; exact h]|].
  split.
  { exists a, th, ps. split; [exact u|]. split; [exact rg|]. intros t. split; [reflexivity|].
    destruct (ee t) as (<- & _). rewrite es. specialize (bt t). unfold between in bt.
    rewrite Rmin_left, Rmax_right in bt by lra. exact bt. }
  split; intros t; unfold GetFstarRotPD; rewrite et, er, rt.
  - intros rot wv. eexists. split; [reflexivity|]. unfold pd_law, vadd, vcmul, vsub; cbn [vx vy vz]. repeat split; ring.
  - assert (g : GetPhi (mm3 (rot_about a (th * ps t)) r0) (mm3 (rot_about a (th * ps t)) r0) = V3 0 0 0).
    { unfold GetPhi, col0, col1, col2. generalize (mm3 (rot_about a (th * ps t)) r0). intros M. ext; ring. }
    rewrite g. unfold vadd, vcmul, vsub, vscale; cbn [vx vy vz]. do 2 f_equal; ring.
Qed.

(* from the identity to a quarter turn about z *)
Lemma quarter_rot : rotation (M3 0 (-1) 0 1 0 0 0 0 1).
Proof. unfold rotation, det3. split; [ext; ring|cbn; ring]. Qed.
Lemma q_of_I3 : quat_of_mat I3 = Q4 1 (V3 0 0 0).
Proof.
  unfold quat_of_mat, I3; cbn [m00 m01 m02 m10 m11 m12 m20 m21 m22].
  destruct (Rlt_dec 0 (1 + 1 + 1)); [|lra].
  replace (1 + 1 + 1 + 1) with (2 * 2) by ring. rewrite sqrt_square by lra. f_equal; [field|f_equal; ring].
Qed.
Lemma quarter_sep : Rabs (qdot (quat_of_mat I3) (quat_of_mat (M3 0 (-1) 0 1 0 0 0 0 1))) < 1 - 1 / 1000.
Proof.
  rewrite q_of_I3. unfold quat_of_mat; cbn [m00 m01 m02 m10 m11 m12 m20 m21 m22].
  destruct (Rlt_dec 0 (0 + 0 + 1)); [|lra].
  unfold qdot, dot; cbn [qw qv vx vy vz]. replace (0 + 0 + 1 + 1) with 2 by ring.
  assert (h : sqrt 2 * sqrt 2 = 2) by (apply sqrt_sqrt; lra). pose proof (sqrt_lt_R0 2). rewrite Rabs_right by nra. nra.
Qed.
Definition ex_turn : plink := prun (new_plink TASK_LINK_ROTATION (V3 0 0 0))
  [PRotation 0 1 I3 (V3 0 0 1) (M3 0 (-1) 0 1 0 0 0 0 1) (V3 0 0 0);
   PGain (Gains (V3 0 0 0) (V3 0 0 0) (V3 0 0 0) (V3 100 100 100) (V3 20 20 20) (V3 1 1 1))].
Example C85_ex : 0 < 1 /\ 1 - 1 / 1000 <= 1 /\ rotation I3 /\ rotation (M3 0 (-1) 0 1 0 0 0 0 1) /\
  (Rabs (qdot (quat_of_mat I3) (quat_of_mat (M3 0 (-1) 0 1 0 0 0 0 1))) < 1 - 1 / 1000) /\ p_times ex_turn = Some (0, 1) /\
  p_rot ex_turn = Some (I3, V3 0 0 1, M3 0 (-1) 0 1 0 0 0 0 1, V3 0 0 0).
Proof.
  repeat (split; [first [lra|exact rotation_I|exact quarter_rot|exact quarter_sep|reflexivity]|]). reflexivity.
Qed.

(* C85 refuted: with Eigen's 1 - epsilon there are orientations between which the reference is not a rotation: from the
   identity to a turn about z whose quaternion has scalar part `one', half way *)
Theorem C85_small_turn_refuted (one : R) : 1 / 2 < one < 1 -> exists rf F w a,
  rotation I3 /\ rotation rf /\ rot_traj one (1 / 2) 0 1 I3 rf = Some (F, w, a) /\ ~ rotation F.
Proof.
  intros [h1 h2]. set (c := one). set (s := sqrt (1 - c * c)).
  assert (p : 0 < 1 - c * c) by (unfold c; nra).
  assert (ss : s * s = 1 - c * c) by (apply sqrt_sqrt; lra).
  set (rf := M3 (2 * c * c - 1) (- (2 * s * c)) 0 (2 * s * c) (2 * c * c - 1) 0 0 0 1).
  assert (qf : quat_of_mat rf = Q4 c (V3 0 0 s)).
  { unfold quat_of_mat, rf; cbn [m00 m01 m02 m10 m11 m12 m20 m21 m22].
    assert (h3 : 1 / 2 < c) by exact h1. assert (1 / 4 < c * c) by nra.
    destruct (Rlt_dec 0 (2 * c * c - 1 + (2 * c * c - 1) + 1)); [|lra].
    replace (2 * c * c - 1 + (2 * c * c - 1) + 1 + 1) with ((2 * c) * (2 * c)) by ring.
    rewrite sqrt_square by lra. f_equal; [field; lra|f_equal; field; lra]. }
  assert (sp : QuinticSpline (1 / 2) 0 1 0 0 0 1 0 0 = Some (V3 (1 / 2) (15 / 8) 0)).
  { unfold QuinticSpline. destruct (Rlt_dec (1 / 2) 0); [lra|]. destruct (Rlt_dec 1 (1 / 2)); [lra|].
    unfold inv3, det3; cbn [m00 m01 m02 m10 m11 m12 m20 m21 m22].
    match goal with |- context [Req_EM_T ?x 0] => destruct (Req_EM_T x 0) as [e|ne]; [exfalso; revert e; lra|] end.
    unfold mv3; cbn [vx vy vz m00 m01 m02 m10 m11 m12 m20 m21 m22]. do 2 f_equal; field. }
  unfold rot_traj. exists rf. rewrite q_of_I3, qf. do 3 eexists. split; [exact rotation_I|]. split.
  { unfold rotation, det3, rf. split; [ext; cbn; nra|cbn; nra]. }
  rewrite sp. split; [reflexivity|].
  intros [_ d]. revert d. unfold slerp, qdot, dot; cbn [qw qv vx vy vz].
  replace (1 * c + (0 * 0 + 0 * 0 + 0 * s)) with c by ring. rewrite (Rabs_right c) by (unfold c; lra).
  destruct (Rle_dec c c) as [_|n]; [|exfalso; apply n; lra].
  destruct (Rlt_dec c 0); [unfold c in *; lra|].
  unfold det3, qmat, vadd, vscale; cbn [qw qv vx vy vz m00 m01 m02 m10 m11 m12 m20 m21 m22].
  intros d. assert (h : s * s * (1 - (s * s + (1 + c) * (1 + c)) / 4) = 0) by (revert d; clear; intros d; field_simplify in d; field_simplify; lra).
  rewrite ss in h. unfold c in *. nra.
Qed.

(* C86.  A position trajectory stays in force as long as the later calls leave its times alone ... *)
Lemma prun_app p cs cs' : prun p (cs ++ cs') = prun (prun p cs) cs'.
Proof. apply fold_left_app. Qed.
Theorem C86_position_kept_partial mode pt cs ts te x0 v0 xf vf cs' : Forall (leaves ts te) cs' ->
  let p := prun (new_plink mode pt) (cs ++ PQuintic ts te x0 v0 xf vf :: cs') in
  p_mode p = mode /\ p_point p = pt /\ p_times p = Some (ts, te) /\ p_pos p = Some (x0, v0, xf, vf) /\
  p_gain p = last_gain (cs ++ PQuintic ts te x0 v0 xf vf :: cs').
Proof.
  intros h. cbn zeta.
  assert (A : forall l q, p_mode (prun q l) = p_mode q /\ p_point (prun q l) = p_point q /\
    p_gain (prun q l) = fold_left (fun g c => match c with PGain g' => g' | _ => g end) l (p_gain q)).
  { induction l as [|c l IH]; intros q; [auto|]. cbn [prun fold_left]. destruct (IH (pstep q c)) as (i1 & i2 & i3).
    unfold prun in i1, i2, i3. rewrite i1, i2, i3. destruct c; auto. }
  assert (B : forall l q, Forall (leaves ts te) l -> p_times q = Some (ts, te) -> p_pos q = Some (x0, v0, xf, vf) ->
    p_times (prun q l) = Some (ts, te) /\ p_pos (prun q l) = Some (x0, v0, xf, vf)).
  { induction l as [|c l IH]; intros q hl t1 t2; [auto|]. inversion hl as [|? ? hc hl']; subst.
    apply (IH (pstep q c) hl'); destruct c; cbn in *; try contradiction; auto. destruct hc; subst; reflexivity. }
  destruct (A (cs ++ PQuintic ts te x0 v0 xf vf :: cs') (new_plink mode pt)) as (a1 & a2 & a3).
  split; [exact a1|]. split; [exact a2|]. rewrite a3. rewrite prun_app. cbn [prun fold_left].
  destruct (B cs' (pstep (prun (new_plink mode pt) cs) (PQuintic ts te x0 v0 xf vf)) h eq_refl eq_refl) as [b1 b2].
  auto.
Qed.
(* ... but a rotation trajectory with a later end stretches it: at t = 1 the position trajectory over [0, 1] is
   over, and yet the reference pulls the link away from its target *)
Theorem C86_rotation_stretches_position_refuted : exists cs cs' ts te x0 v0 xf vf t f,
  let p := prun (new_plink TASK_LINK_6D (V3 0 0 0)) (cs ++ PQuintic ts te x0 v0 xf vf :: cs') in
  Forall not_quintic cs' /\ ts < te <= t /\ GetFstarPosPD p t xf vf = Some f /\ f <> V3 0 0 0.
Proof.
  exists [PGain (Gains (V3 100 100 100) (V3 0 0 0) (V3 0 0 0) (V3 0 0 0) (V3 0 0 0) (V3 0 0 0))],
    [PRotation 0 2 I3 (V3 0 0 0) I3 (V3 0 0 0)], 0, 1, (V3 0 0 0), (V3 0 0 0), (V3 1 0 0), (V3 0 0 0), 1.
  eexists. cbn -[GetFstarPosPD]. split; [repeat constructor|]. split; [lra|].
  assert (e : QuinticSpline 1 0 2 0 0 0 0 0 0 = Some (V3 0 0 0)).
  { rewrite quintic_eq by lra. unfold glue. destruct (Rlt_dec 1 0); [lra|]. destruct (Rlt_dec 2 1); [lra|].
    unfold Spline_Proofs.pos, vel, acc, poly, a4, a5, a6, R1, R2, R3. do 2 f_equal; field. }
  split.
  - unfold GetFstarPosPD. cbn -[pos_traj]. unfold pos_traj; cbn [vx vy vz]. rewrite C36_example, e. reflexivity.
  - unfold vadd, vcmul, vsub; cbn [vx vy vz]. intros h. injection h. lra.
Qed.

(* C87.  The acceleration of the orientation reference and the end twists do not enter, whatever rot_a_gain_ *)
Theorem C87_rot_feedforward_refuted : exists one p (F : R -> mat3) (W A : R -> vec3) t,
  (forall s, 0 < s < 1 -> angular_velocity F s (W s) /\ vderiv W s (A s)) /\ 0 < t < 1 /\
  g_ra (p_gain p) = V3 1 1 1 /\ A t <> V3 0 0 0 /\ GetFstarRotPD one p t (F t) (W t) = Some (V3 0 0 0).
Proof.
  exists (1 - 1 / 1000), ex_turn.
  assert (l1 : 1 - 1 / 1000 <= 1) by lra.
  destruct (rot_path (1 - 1 / 1000) 0 1 I3 (M3 0 (-1) 0 1 0 0 0 0 1) Rlt_0_1 l1 rotation_I quarter_rot (or_introl quarter_sep))
    as (a & th & s & v & w & u & rg & eB & eq & e).
  destruct (C35_quintic 0 1 0 0 0 1 0 0 Rlt_0_1) as (ps & pv & pw & eq' & q0 & qf & qc & qd & _).
  assert (ee : forall t, s t = ps t /\ v t = pv t /\ w t = pw t).
  { intros t. specialize (eq t). rewrite eq' in eq. injection eq; auto. }
  assert (rt : forall t, rot_traj (1 - 1 / 1000) t 0 1 I3 (M3 0 (-1) 0 1 0 0 0 0 1) =
    Some (mm3 (rot_about a (th * ps t)) I3, vscale (th * pv t) a, vscale (th * pw t) a)).
  { intros t. rewrite e. destruct (ee t) as (-> & -> & ->). reflexivity. }
  exists (fun t => mm3 (rot_about a (th * ps t)) I3), (fun t => vscale (th * pv t) a), (fun t => vscale (th * pw t) a), (1 / 4).
  split.
  { intros t h. split; [apply (rot_about_moves a (fun y => th * ps y)); [exact u|apply scal_lim, qd; exact h]|].
    destruct (qd t h) as [_ d]. unfold vderiv, vscale; cbn [vx vy vz].
    repeat split; eapply lim_eq; try der; cbn beta; ring. }
  split; [lra|]. split; [reflexivity|]. split.
  - assert (w4 : pw (1 / 4) <> 0).
    { specialize (eq' (1 / 4)). rewrite quintic_eq in eq' by lra. injection eq' as _ _ h. rewrite <- h.
      unfold glue. destruct (Rlt_dec (1 / 4) 0); [lra|]. destruct (Rlt_dec 1 (1 / 4)); [lra|].
      unfold acc, poly, a4, a5, a6, R1, R2, R3.
      match goal with |- ?l <> 0 => replace l with (45 / 8) by field end. lra. }
    assert (tn : th <> 0).
    { intros z. rewrite z, rot_about_0, mm3_1l in eB. unfold I3 in eB. injection eB. lra. }
    unfold vscale. intros h. injection h as h1 h2 h3. unfold unit_vec in u.
    assert (k : th * pw (1 / 4) <> 0) by (apply Rmult_integral_contrapositive; auto).
    apply Rmult_integral in h1. apply Rmult_integral in h2. apply Rmult_integral in h3.
    destruct h1 as [?|h1]; [contradiction|]. destruct h2 as [?|h2]; [contradiction|]. destruct h3 as [?|h3]; [contradiction|].
    rewrite h1, h2, h3 in u. lra.
  - unfold GetFstarRotPD. cbn -[rot_traj]. rewrite rt.
    assert (g : forall M, GetPhi M M = V3 0 0 0) by (intros M; unfold GetPhi, col0, col1, col2; ext; ring).
    rewrite g. unfold vadd, vcmul, vsub, vscale; cbn [vx vy vz]. do 2 f_equal; ring.
Qed.
Theorem C87_end_twist_refuted : exists one p ts te r0 w0 rf wf f, ts < te /\ p_times p = Some (ts, te) /\ p_rot p = Some (r0, w0, rf, wf) /\
  GetFstarRotPD one p ts r0 w0 = Some f /\ f <> V3 0 0 0.
Proof.
  exists (1 - 1 / 1000), ex_turn, 0, 1, I3, (V3 0 0 1), (M3 0 (-1) 0 1 0 0 0 0 1), (V3 0 0 0).
  assert (l1 : 1 - 1 / 1000 <= 1) by lra.
  destruct (C85_orientation_partial (1 - 1 / 1000) ex_turn 0 1 I3 (M3 0 (-1) 0 1 0 0 0 0 1) (V3 0 0 1) (V3 0 0 0) Rlt_0_1 l1
    rotation_I quarter_rot (or_introl quarter_sep) eq_refl eq_refl) as (F & W & h0 & _ & _ & _ & _ & _ & law & _).
  destruct (law 0 I3 (V3 0 0 1)) as (f & ef & _ & _ & e3). destruct (h0 0 (Rle_refl 0)) as [eF eW].
  exists f. repeat (split; [first [lra|reflexivity|exact ef]|]). rewrite eF, eW in e3. intros z. rewrite z in e3. revert e3.
  unfold GetPhi, col0, col1, col2, I3, cross, vadd, vscale; cbn [m00 m01 m02 m10 m11 m12 m20 m21 m22 vx vy vz]. cbn. lra.
Qed.

(* C88.  SetPDerrorRegulation has no effect *)
Theorem C88_regulation_refuted : exists p t x v f mp mp' md md', p_reg p = Some (mp, mp', md, md') /\
  g_pd (p_gain p) = V3 0 0 0 /\ g_pa (p_gain p) = V3 0 0 0 /\ g_pp (p_gain p) = V3 1 1 1 /\
  GetFstarPosPD p t x v = Some f /\ vx f > vx mp.
Proof.
  exists (prun (new_plink TASK_LINK_POSITION (V3 0 0 0)) [PQuintic 0 1 (V3 5 0 0) (V3 0 0 0) (V3 5 0 0) (V3 0 0 0);
    PGain (Gains (V3 1 1 1) (V3 0 0 0) (V3 0 0 0) (V3 0 0 0) (V3 0 0 0) (V3 0 0 0)); PRegulate (V3 1 1 1, V3 1 1 1, V3 1 1 1, V3 1 1 1)]).
  exists (-1), (V3 0 0 0), (V3 0 0 0). eexists. exists (V3 1 1 1), (V3 1 1 1), (V3 1 1 1), (V3 1 1 1).
  cbn -[GetFstarPosPD]. repeat (split; [reflexivity|]). unfold GetFstarPosPD. cbn -[pos_traj].
  unfold pos_traj, QuinticSpline; cbn [vx vy vz]. destruct (Rlt_dec (-1) 0); [|lra]. split; [reflexivity|].
  unfold vadd, vcmul, vsub; cbn [vx vy vz]. lra.
Qed.
Theorem C88_regulation_no_effect_refuted one p m t x v rot w :
  GetFstarPosPD (SetPDerrorRegulation p m) t x v = GetFstarPosPD p t x v /\
  GetFstarRotPD one (SetPDerrorRegulation p m) t rot w = GetFstarRotPD one p t rot w.
Proof. split; reflexivity. Qed.

Print Assumptions C57_position_law.
Print Assumptions C57_rotation_modes.
Print Assumptions C58_link_frames_partial.
Print Assumptions C58_custom_point_partial.
Print Assumptions C58_custom_frame_refuted.
Print Assumptions C85_orientation_partial.
Print Assumptions C85_small_turn_refuted.
Print Assumptions C86_position_kept_partial.
Print Assumptions C86_rotation_stretches_position_refuted.
Print Assumptions C87_rot_feedforward_refuted.
Print Assumptions C87_end_twist_refuted.
Print Assumptions C88_regulation_refuted.
Print Assumptions C88_regulation_no_effect_refuted.
