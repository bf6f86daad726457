(* C47, C48: the low-pass filter. *)
From Coq Require Import Reals Lra Lia List.
From Verif Require Import Spline_Model Filter_Model Filter_Spec Filter_Proofs.
Import ListNotations.
Local Open Scope R_scope.

(* C47: for positive parameters ... a constant history is reproduced, *)
Theorem C47_unit_gain (fc d hz c : R) : 0 < fc -> 0 < d -> 0 < hz ->
  secondOrderLowPassFilter c c c c c fc d hz = Some c.
Proof.
  intros fp dp hp. rewrite filter_eq by assumption. f_equal. pose proof (dc_sum fc d hz fp dp hp) as s.
  replace (A1 fc d hz * c - A2 fc d hz * c + B fc d hz * (c + 2 * c + c)) with
    ((A1 fc d hz - A2 fc d hz + 4 * B fc d hz) * c) by ring. rewrite s. ring.
Qed.

(* the filter is linear, *)
Theorem C47_linear (fc d hz : R) : 0 < fc -> 0 < d -> 0 < hz -> forall a b x0 x1 x2 y1 y2 x0' x1' x2' y1' y2',
  exists r r', secondOrderLowPassFilter x0 x1 x2 y1 y2 fc d hz = Some r /\
    secondOrderLowPassFilter x0' x1' x2' y1' y2' fc d hz = Some r' /\
    secondOrderLowPassFilter (a * x0 + b * x0') (a * x1 + b * x1') (a * x2 + b * x2') (a * y1 + b * y1') (a * y2 + b * y2') fc d hz
      = Some (a * r + b * r').
Proof.
  intros fp dp hp a b x0 x1 x2 y1 y2 x0' x1' x2' y1' y2'. rewrite !filter_eq by assumption.
  eexists _, _. split; [reflexivity|]. split; [reflexivity|]. f_equal. ring.
Qed.

(* every pole lies strictly inside the unit circle, *)
Theorem C47_poles (fc d hz : R) (z : R * R) : 0 < fc -> 0 < d -> 0 < hz -> pole fc d hz z -> modulus2 z < 1.
Proof.
  intros fp dp hp [h1 h2]. specialize (h1 0%nat). specialize (h2 0%nat). rewrite filter_eq in h1, h2 by assumption.
  injection h1 as h1. injection h2 as h2. unfold cmul in h1, h2. cbn [cpow fst snd] in h1, h2. unfold cmul in h1, h2; cbn [fst snd] in h1, h2.
  destruct (jury fc d hz fp dp hp) as [j0 j1]. unfold modulus2.
  apply (root_modulus (A1 fc d hz) (A2 fc d hz) j0 j1); lra.
Qed.

(* so every free response decays, and the response to an input that is constant from some time on
   converges to that constant, from any initial state *)
Theorem C47_converges (fc d hz c : R) (x y : nat -> R) (N : nat) : 0 < fc -> 0 < d -> 0 < hz ->
  response fc d hz x y -> (forall k, (N <= k)%nat -> x k = c) -> Un_cv y c.
Proof.
  intros fp dp hp h hx. apply shift_cv with N. apply minus_cv.
  destruct (jury fc d hz fp dp hp) as [j0 j1]. apply (decay (A1 fc d hz) (A2 fc d hz) j0 j1).
  intros k. specialize (h (N + k)%nat). rewrite filter_eq in h by assumption. injection h as h.
  rewrite !hx in h by lia. replace (N + S (S k))%nat with (S (S (N + k))) by lia. replace (N + S k)%nat with (S (N + k)) by lia.
  rewrite <- h. pose proof (dc_sum fc d hz fp dp hp) as s.
  replace (B fc d hz * (c + 2 * c + c)) with ((4 * B fc d hz) * c) by ring.
  replace (4 * B fc d hz) with (1 - A1 fc d hz + A2 fc d hz) by lra. ring.
Qed.

(* Example: with omega = 2 and d = 1 the filter is (x0 + 2 x1 + x2) / 4 *)
Lemma om2 : om (/ PI) 1 = 2.
Proof. unfold om. field. pose proof PI_RGT_0. lra. Qed.
Lemma filter_2 x0 x1 x2 y1 y2 : secondOrderLowPassFilter x0 x1 x2 y1 y2 (/ PI) 1 1 = Some ((x0 + 2 * x1 + x2) / 4).
Proof.
  pose proof PI_RGT_0. rewrite filter_eq; [|now apply Rinv_0_lt_compat|lra|lra].
  unfold A1, A2, B, DD. rewrite om2. f_equal. field.
Qed.
Example C47_example : secondOrderLowPassFilter 4 2 4 7 9 (/ PI) 1 1 = Some 3.
Proof. rewrite filter_2. f_equal. field. Qed.
Example C47_pole_example : pole (/ PI) 1 1 (0, 0).
Proof.
  assert (e : forall k, cpow (0, 0) (S k) = (0, 0)).
  { intros k. cbn [cpow]. unfold cmul; cbn [fst snd]. f_equal; ring. }
  split; intros k; rewrite filter_2, e; cbn [fst snd]; f_equal; field.
Qed.

(* C48.  The output is not the filter of the last three raw velocities and last two outputs *)
Theorem C48_raw_history_refuted : exists fc d hz v0 r1 r2 r3 s1 s2 s3,
  0 < fc /\ 0 < d /\ 0 < hz /\
  calc2lpf r1 (initialize2lpf v0 fc d hz) = Some s1 /\ calc2lpf r2 s1 = Some s2 /\ calc2lpf r3 s2 = Some s3 /\
  secondOrderLowPassFilter (vx r3) (vx r2) (vx r1) (vx (v s2)) (vx (v s1)) fc d hz <> Some (vx (v s3)).
Proof.
  exists (/ PI), 1, 1, (V3 0 0 0), (V3 1 0 0), (V3 0 0 0), (V3 0 0 0).
  unfold initialize2lpf, calc2lpf; cbn [vx vy vz vp0 vp1 vp2 vlpf0 vlpf1 vlpf2 cutoff_freq damping sampling_frequency].
  eexists _, _, _. pose proof PI_RGT_0. split; [now apply Rinv_0_lt_compat|]. split; [lra|]. split; [lra|].
  split; [rewrite !filter_2; reflexivity|]. cbn [vx vy vz vp0 vp1 vp2 vlpf0 vlpf1 vlpf2 cutoff_freq damping sampling_frequency].
  split; [rewrite !filter_2; reflexivity|]. cbn [vx vy vz vp0 vp1 vp2 vlpf0 vlpf1 vlpf2 cutoff_freq damping sampling_frequency].
  split; [rewrite !filter_2; reflexivity|]. cbn [v vx vy vz].
  rewrite filter_2. intros h. injection h. lra.
Qed.

(* what it is instead: the oldest input is replaced by the oldest output; below half the sampling rate
   this still converges to a velocity that stays constant *)
Definition follows (raw : nat -> vec3) (s : nat -> lpf_link) : Prop := forall k, calc2lpf (raw k) (s k) = Some (s (S k)).

Theorem C48_output_partial (raw : nat -> vec3) (s : nat -> lpf_link) (v0 : vec3) (fc d hz : R) :
  s 0%nat = initialize2lpf v0 fc d hz -> follows raw s ->
  forall k (i : vec3 -> R), i = vx \/ i = vy \/ i = vz ->
    secondOrderLowPassFilter (i (raw (S (S k)))) (i (raw (S k))) (i (v (s (S k)))) (i (v (s (S (S k))))) (i (v (s (S k)))) fc d hz
    = Some (i (v (s (S (S (S k)))))).
Proof.
  intros h0 hs. 
  assert (st : forall k, vlpf0 (s k) = v (s k) /\ cutoff_freq (s k) = fc /\ damping (s k) = d /\ sampling_frequency (s k) = hz /\
     vlpf1 (s (S k)) = v (s k) /\ vp0 (s (S k)) = raw k).
  { intros k. assert (P : vlpf0 (s k) = v (s k) /\ cutoff_freq (s k) = fc /\ damping (s k) = d /\ sampling_frequency (s k) = hz).
    { induction k as [|k IH]; [rewrite h0; cbn; auto|]. specialize (hs k). unfold calc2lpf in hs.
      destruct (secondOrderLowPassFilter _ _ _ _ _ _ _ _); [|discriminate].
      destruct (secondOrderLowPassFilter _ _ _ _ _ _ _ _); [|discriminate].
      destruct (secondOrderLowPassFilter _ _ _ _ _ _ _ _); [|discriminate].
      injection hs as <-. cbn. destruct IH as (_ & ? & ? & ?). auto. }
    destruct P as (p1 & p2 & p3 & p4). do 4 (split; [assumption|]).
    specialize (hs k). unfold calc2lpf in hs.
    destruct (secondOrderLowPassFilter _ _ _ _ _ _ _ _); [|discriminate].
    destruct (secondOrderLowPassFilter _ _ _ _ _ _ _ _); [|discriminate].
    destruct (secondOrderLowPassFilter _ _ _ _ _ _ _ _); [|discriminate].
    injection hs as <-. cbn. auto. }
  intros k i hi. pose proof (hs (S (S k))) as e. unfold calc2lpf in e.
  destruct (st (S (S k))) as (q1 & q2 & q3 & q4 & _). destruct (st (S k)) as (_ & _ & _ & _ & q5 & q6).
  rewrite q1, q2, q3, q4, q5, q6 in e.
  destruct (secondOrderLowPassFilter (vx _) _ _ _ _ _ _ _) eqn:ex; [|discriminate].
  destruct (secondOrderLowPassFilter (vy _) _ _ _ _ _ _ _) eqn:ey; [|discriminate].
  destruct (secondOrderLowPassFilter (vz _) _ _ _ _ _ _ _) eqn:ez; [|discriminate].
  injection e as e. rewrite <- e. cbn [v]. destruct hi as [->|[->| ->]]; cbn [vx vy vz]; assumption.
Qed.

Theorem C48_converges_partial (raw : nat -> vec3) (s : nat -> lpf_link) (v0 c : vec3) (fc d hz : R) (N : nat) :
  0 < fc -> 0 < d -> 2 * fc < hz -> s 0%nat = initialize2lpf v0 fc d hz -> follows raw s ->
  (forall k, (N <= k)%nat -> raw k = c) ->
  Un_cv (fun k => vx (v (s k))) (vx c) /\ Un_cv (fun k => vy (v (s k))) (vy c) /\ Un_cv (fun k => vz (v (s k))) (vz c).
Proof.
  intros fp dp ny h0 hs hr. assert (hp : 0 < hz) by lra.
  assert (G : forall i, i = vx \/ i = vy \/ i = vz -> Un_cv (fun k => i (v (s k))) (i c)).
  { intros i hi. apply shift_cv with (S N). apply minus_cv.
    destruct (jury_link fc d hz fp dp hp ny) as [j0 j1]. apply (decay (A1 fc d hz) (A2 fc d hz - B fc d hz) j0 j1).
    intros k. pose proof (C48_output_partial raw s v0 fc d hz h0 hs (N + k)%nat i hi) as e.
    rewrite filter_eq in e by assumption. injection e as e. rewrite !hr in e by lia.
    replace (S N + S (S k))%nat with (S (S (S (N + k)))) by lia. replace (S N + S k)%nat with (S (S (N + k))) by lia.
    replace (S N + k)%nat with (S (N + k)) by lia. rewrite <- e. pose proof (dc_sum fc d hz fp dp hp) as sm.
    replace (B fc d hz * (i c + 2 * i c + i (v (s (S (N + k)))))) with
      (4 * B fc d hz * i c - B fc d hz * i c + B fc d hz * i (v (s (S (N + k))))) by ring.
    replace (4 * B fc d hz) with (1 - A1 fc d hz + A2 fc d hz) by lra. ring. }
  split; [apply G; auto|]. split; apply G; auto.
Qed.

(* Example: the hypotheses are met by the constant state *)
Example C48_example : let s := fun _ : nat => initialize2lpf (V3 1 2 3) (/ PI) 1 1 in
  s 0%nat = initialize2lpf (V3 1 2 3) (/ PI) 1 1 /\ follows (fun _ => V3 1 2 3) s /\ 2 * (/ PI) < 1.
Proof.
  intros s. split; [reflexivity|]. split.
  - intros k. unfold s, calc2lpf, initialize2lpf; cbn [vx vy vz vp0 vp1 vp2 vlpf0 vlpf1 vlpf2 cutoff_freq damping sampling_frequency].
    rewrite !filter_2. replace ((1 + 2 * 1 + 1) / 4) with 1 by field. replace ((2 + 2 * 2 + 2) / 4) with 2 by field.
    replace ((3 + 2 * 3 + 3) / 4) with 3 by field. reflexivity.
  - pose proof PI_RGT_0. pose proof PI2_1. assert (2 < PI) by lra.
    apply Rmult_lt_reg_r with PI; [lra|]. rewrite Rmult_assoc, Rinv_l by lra. lra.
Qed.

Print Assumptions C47_unit_gain.
Print Assumptions C47_linear.
Print Assumptions C47_poles.
Print Assumptions C47_converges.
Print Assumptions C48_raw_history_refuted.
Print Assumptions C48_output_partial.
Print Assumptions C48_converges_partial.
