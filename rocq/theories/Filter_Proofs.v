From Coq Require Import Reals Lra Lia.
From Verif Require Import Spline_Model Filter_Model Filter_Spec.
Local Open Scope R_scope.

Lemma sq0 x : 0 <= x * x.
Proof. apply Rle_0_sqr. Qed.
Ltac pos := apply Rmult_le_pos; [lra|apply sq0 || (apply Rplus_le_le_0_compat; apply sq0)].

(* second order recurrences with Jury's conditions *)
Section Jury.
Variables (a1 a2 : R).
Hypothesis j0 : Rabs a2 < 1.
Hypothesis j1 : Rabs a1 < 1 + a2.
Definition V (u w : R) : R := (1 + a2) * (u * u + w * w) - 2 * a1 * u * w.
Lemma j0' : -1 < a2 < 1. Proof. apply Rabs_def2 in j0. lra. Qed.
Lemma j1' : - (1 + a2) < a1 < 1 + a2. Proof. apply Rabs_def2 in j1. lra. Qed.

Lemma V_lower u w : (1 + a2 - Rabs a1) * (u * u + w * w) <= V u w.
Proof.
  pose proof j1'. unfold V. unfold Rabs; destruct (Rcase_abs a1).
  - assert (0 <= - a1 * ((u + w) * (u + w))) by pos. lra.
  - assert (0 <= a1 * ((u - w) * (u - w))) by pos. lra.
Qed.
Lemma V_nonneg u w : 0 <= V u w.
Proof. pose proof (V_lower u w). assert (0 <= (1 + a2 - Rabs a1) * (u * u + w * w)) by pos. lra. Qed.
Lemma V_upper u w : V u w <= 4 * (u * u + w * w).
Proof.
  pose proof j0'. pose proof j1'. unfold V.
  assert (0 <= (2 - a1) * (u * u + w * w)) by pos.
  assert (0 <= (2 + a1) * (u * u + w * w)) by pos.
  assert (0 <= (1 - a2) * (u * u + w * w)) by pos.
  assert (0 <= (2 - a1) * ((u - w) * (u - w))) by pos.
  assert (0 <= (2 + a1) * ((u - w) * (u - w))) by pos.
  assert (0 <= (2 - a1) * ((u + w) * (u + w))) by pos.
  assert (0 <= (2 + a1) * ((u + w) * (u + w))) by pos. lra.
Qed.

Definition p (u w : R) : R := a1 * u - (1 + a2) * w.
Definition q (u w : R) : R := (a1 * a1 - (1 + a2)) * u - a1 * a2 * w.
Lemma V_step u w : V u w - V (a1 * u - a2 * w) u = (1 - a2) * (p u w * p u w).
Proof. unfold V, p. ring. Qed.
Lemma V_step2 u w : let u1 := a1 * u - a2 * w in let u2 := a1 * u1 - a2 * u in
  V u w - V u2 u1 = (1 - a2) * (p u w * p u w + q u w * q u w).
Proof.
  intros u1 u2. pose proof (V_step u w) as h1. pose proof (V_step u1 u) as h2. fold u1 in h1. fold u2 in h2.
  assert (e : p u1 u = q u w) by (unfold p, q, u1; ring). rewrite e in h2. lra.
Qed.
(* p, q determine u, w *)
Definition De : R := a1 * a1 - (1 + a2) * (1 + a2).
Lemma De_neg : De < 0. Proof. pose proof j1'. unfold De. nra. Qed.
Lemma inv_u u w : De * u = - (a1 * a2) * p u w + (1 + a2) * q u w.
Proof. unfold De, p, q. ring. Qed.
Lemma inv_w u w : De * w = - (a1 * a1 - (1 + a2)) * p u w + a1 * q u w.
Proof. unfold De, p, q. ring. Qed.
Lemma cs a b x y : (a * x + b * y) * (a * x + b * y) <= (a * a + b * b) * (x * x + y * y).
Proof. pose proof (sq0 (a * y - b * x)). lra. Qed.

Definition K : R := (a1 * a2) * (a1 * a2) + (1 + a2) * (1 + a2) + (a1 * a1 - (1 + a2)) * (a1 * a1 - (1 + a2)) + a1 * a1.
Lemma K_pos : 0 < K.
Proof. pose proof j0'. unfold K. assert (0 < (1 + a2) * (1 + a2)) by (apply Rmult_lt_0_compat; lra).
  pose proof (sq0 (a1 * a2)). pose proof (sq0 (a1 * a1 - (1 + a2))). pose proof (sq0 a1). lra. Qed.
Lemma uw_bound u w : De * De * (u * u + w * w) <= K * (p u w * p u w + q u w * q u w).
Proof.
  replace (De * De * (u * u + w * w)) with ((De * u) * (De * u) + (De * w) * (De * w)) by ring.
  rewrite (inv_u u w), (inv_w u w). set (x := p u w). set (y := q u w).
  pose proof (cs (- (a1 * a2)) (1 + a2) x y). pose proof (cs (- (a1 * a1 - (1 + a2))) a1 x y). unfold K. lra.
Qed.

Definition rho : R := 1 - (1 - a2) * (De * De) / (4 * K).
Lemma contraction u w : let u1 := a1 * u - a2 * w in let u2 := a1 * u1 - a2 * u in V u2 u1 <= rho * V u w.
Proof.
  intros u1 u2. pose proof (V_step2 u w) as h. cbn zeta in h. fold u1 in h. fold u2 in h.
  pose proof (uw_bound u w) as b. pose proof (V_upper u w) as up. pose proof K_pos as kp. pose proof De_neg as dn. pose proof j0' as j.
  set (W := p u w * p u w + q u w * q u w) in *. set (N := u * u + w * w) in *.
  assert (g : (De * De) * V u w <= 4 * K * W).
  { apply Rle_trans with (De * De * (4 * N)); [apply Rmult_le_compat_l; nra|lra]. }
  assert (g2 : (1 - a2) * (De * De) / (4 * K) * V u w <= (1 - a2) * W).
  { replace ((1 - a2) * (De * De) / (4 * K) * V u w) with ((1 - a2) / (4 * K) * ((De * De) * V u w)) by (field; lra).
    replace ((1 - a2) * W) with ((1 - a2) / (4 * K) * (4 * K * W)) by (field; lra).
    apply Rmult_le_compat_l; [|exact g]. apply Rmult_le_pos; [lra|]. left. apply Rinv_0_lt_compat. lra. }
  unfold rho. lra.
Qed.
Lemma rho_lt : rho < 1.
Proof.
  unfold rho. pose proof K_pos as kp. pose proof De_neg as dn. pose proof j0' as j.
  assert (0 < (1 - a2) * (De * De) / (4 * K)); [|lra].
  apply Rdiv_lt_0_compat; [apply Rmult_lt_0_compat; nra|lra].
Qed.

Definition rec (y : nat -> R) : Prop := forall k, y (S (S k)) = a1 * y (S k) - a2 * y k.

Lemma decay_V y : rec y -> exists r C, 0 <= r < 1 /\ 0 <= C /\ forall m, V (y (S (2 * m))) (y (2 * m)%nat) <= C * r ^ m.
Proof.
  intros h. set (r := Rmax rho 0). exists r, (V (y 1%nat) (y 0%nat)).
  assert (rr : 0 <= r < 1).
  { unfold r. split; [apply Rmax_r|]. apply Rmax_lub_lt; [apply rho_lt|lra]. }
  split; [exact rr|]. split; [apply V_nonneg|].
  induction m as [|m IH]; [rewrite pow_O; simpl; lra|].
  replace (2 * S m)%nat with (S (S (2 * m))) by lia.
  rewrite (h (S (2 * m))), (h (2 * m)%nat).
  eapply Rle_trans; [apply contraction|].
  apply Rle_trans with (r * V (y (S (2 * m))) (y (2 * m)%nat)).
  - apply Rmult_le_compat_r; [apply V_nonneg|apply Rmax_l].
  - replace (V (y 1%nat) (y 0%nat) * r ^ S m) with (r * (V (y 1%nat) (y 0%nat) * r ^ m)) by (simpl; ring).
    apply Rmult_le_compat_l; lra.
Qed.

Lemma decay y : rec y -> Un_cv y 0.
Proof.
  intros h. destruct (decay_V y h) as (r & C & rr & Cp & b).
  set (g := 1 + a2 - Rabs a1). assert (gp : 0 < g) by (unfold g; lra).
  intros eps ep.
  assert (rp : Rabs r < 1) by (rewrite Rabs_pos_eq; lra).
  destruct (pow_lt_1_zero r rp (g * (eps * eps) / (C + 1))) as [N hN].
  { apply Rdiv_lt_0_compat; [|lra]. apply Rmult_lt_0_compat; [exact gp|]. apply Rmult_lt_0_compat; exact ep. }
  exists (2 * N)%nat. intros n hn. unfold R_dist. rewrite Rminus_0_r.
  assert (E : exists m, (N <= m)%nat /\ (n = 2 * m \/ n = S (2 * m))%nat).
  { exists (Nat.div2 n). pose proof (Nat.div2_odd n) as e. split; [|destruct (Nat.odd n); simpl in e; lia].
    destruct (Nat.odd n); simpl in e; lia. }
  destruct E as (m & hm & en).
  specialize (hN m hm). rewrite Rabs_pos_eq in hN by (apply pow_le; lra).
  assert (s : y n * y n < eps * eps).
  { pose proof (b m) as bm. pose proof (V_lower (y (S (2 * m))) (y (2 * m)%nat)) as lo. fold g in lo.
    assert (up : C * r ^ m < g * (eps * eps)).
    { apply Rle_lt_trans with ((C + 1) * r ^ m).
      - assert (0 <= r ^ m) by (apply pow_le; lra). nra.
      - apply Rmult_lt_compat_l with (r := C + 1) in hN; [|lra].
        replace ((C + 1) * (g * (eps * eps) / (C + 1))) with (g * (eps * eps)) in hN by (field; lra). exact hN. }
    assert (yy : y n * y n <= y (S (2 * m)) * y (S (2 * m)) + y (2 * m)%nat * y (2 * m)%nat).
    { destruct en as [-> | ->]; pose proof (Rle_0_sqr (y (S (2 * m)))); pose proof (Rle_0_sqr (y (2 * m)%nat)); unfold Rsqr in *; lra. }
    apply Rmult_lt_reg_l with g; [exact gp|]. eapply Rle_lt_trans; [apply Rmult_le_compat_l; [lra|exact yy]|]. lra. }
  apply Rsqr_incrst_0; [|apply Rabs_pos|lra]. rewrite <- Rsqr_abs. exact s.
Qed.

(* a root of the characteristic polynomial *)
Lemma root_modulus x y : x * x - y * y - a1 * x + a2 = 0 -> 2 * x * y - a1 * y = 0 -> x * x + y * y < 1.
Proof.
  intros h1 h2. pose proof j0'. pose proof j1'.
  assert (c : y = 0 \/ a1 = 2 * x).
  { assert (e : y * (2 * x - a1) = 0) by lra. apply Rmult_integral in e. destruct e; [left; auto|right; lra]. }
  destruct c as [c|c].
  - subst y. (* real root: (1 - x)(1 - x') > 0, (1 + x)(1 + x') > 0, x x' = a2, x + x' = a1 *)
    set (x' := a1 - x). assert (pr : x * x' = a2) by (unfold x'; lra).
    assert (s1 : 0 < (1 - x) * (1 - x')) by (unfold x' in *; lra).
    assert (s2 : 0 < (1 + x) * (1 + x')) by (unfold x' in *; lra).
    assert (-1 < x < 1); [|nra].
    destruct (Rlt_dec x 1) as [l1|l1], (Rlt_dec (-1) x) as [l2|l2]; [lra| | |exfalso; lra]; exfalso.
    + assert (x' < -1) by nra. assert (1 <= x * x') by nra. lra.
    + assert (1 < x') by nra. assert (1 <= x * x') by nra. lra.
  - subst a1. assert (x * x + y * y = a2) by lra. lra.
Qed.
End Jury.

(* the coefficients *)
Section Coef.
Variables (fc d hz : R).
Hypothesis (fp : 0 < fc) (dp : 0 < d) (hp : 0 < hz).
Definition om : R := 2 * PI * fc / hz.
Definition DD : R := 4 + 4 * d * om + om * om.
Definition A1 : R := (8 - 2 * om * om) / DD.
Definition A2 : R := (4 - 4 * d * om + om * om) / DD.
Definition B : R := om * om / DD.
Lemma om_pos : 0 < om.
Proof. pose proof PI_RGT_0. unfold om. apply Rdiv_lt_0_compat; [|exact hp]. apply Rmult_lt_0_compat; lra. Qed.
Lemma DD_pos : 0 < DD.
Proof. pose proof om_pos. unfold DD. assert (0 < d * om) by (apply Rmult_lt_0_compat; lra). pose proof (sq0 om). lra. Qed.
Lemma filter_eq x0 x1 x2 y1 y2 :
  secondOrderLowPassFilter x0 x1 x2 y1 y2 fc d hz = Some (A1 * y1 - A2 * y2 + B * (x0 + 2 * x1 + x2)).
Proof.
  unfold secondOrderLowPassFilter. destruct (Req_EM_T hz 0); [lra|]. fold om. cbn zeta. fold DD.
  pose proof DD_pos. destruct (Req_EM_T DD 0); [lra|]. reflexivity.
Qed.
Lemma dc_sum : A1 - A2 + 4 * B = 1.
Proof. pose proof DD_pos. unfold A1, A2, B. unfold DD in *. field. lra. Qed.
Lemma quot_abs n : - DD < n < DD -> Rabs (n / DD) < 1.
Proof.
  intros h. pose proof DD_pos as dd. apply Rabs_def1.
  - apply Rmult_lt_reg_r with DD; [exact dd|]. unfold Rdiv. rewrite Rmult_assoc, Rinv_l by lra. lra.
  - apply Rmult_lt_reg_r with DD; [exact dd|]. unfold Rdiv. rewrite Rmult_assoc, Rinv_l by lra. lra.
Qed.
Lemma quot_abs2 n m : - m < n < m -> Rabs (n / DD) < m / DD.
Proof.
  intros h. pose proof DD_pos as dd. apply Rabs_def1.
  - apply Rmult_lt_compat_r; [now apply Rinv_0_lt_compat|lra].
  - replace (- (m / DD)) with (- m / DD) by (field; lra). apply Rmult_lt_compat_r; [now apply Rinv_0_lt_compat|lra].
Qed.
Lemma jury : Rabs A2 < 1 /\ Rabs A1 < 1 + A2.
Proof.
  pose proof om_pos as o. pose proof (sq0 om) as o2. assert (0 < d * om) by (apply Rmult_lt_0_compat; lra).
  assert (0 < om * om) by (apply Rmult_lt_0_compat; lra).
  split.
  - unfold A2. apply quot_abs. unfold DD. lra.
  - replace (1 + A2) with ((8 + 2 * (om * om)) / DD) by (pose proof DD_pos; unfold A2; unfold DD in *; field; lra).
    unfold A1. apply quot_abs2. lra.
Qed.
(* with the oldest input replaced by the oldest output *)
Lemma jury_link : 2 * fc < hz -> Rabs (A2 - B) < 1 /\ Rabs A1 < 1 + (A2 - B).
Proof.
  intros ny. pose proof om_pos as o. assert (0 < d * om) by (apply Rmult_lt_0_compat; lra).
  assert (0 < om * om) by (apply Rmult_lt_0_compat; lra).
  assert (o4 : om < 4).
  { pose proof PI_4 as p4. unfold om. apply Rmult_lt_reg_r with hz; [exact hp|]. unfold Rdiv. rewrite Rmult_assoc, Rinv_l by lra.
    pose proof PI_RGT_0 as pp. assert (PI * (2 * fc) < PI * hz) by (apply Rmult_lt_compat_l; lra).
    assert (PI * hz <= 4 * hz) by (apply Rmult_le_compat_r; lra). lra. }
  assert (o16 : om * om < 16) by nra.
  replace (A2 - B) with ((4 - 4 * d * om) / DD) by (unfold A2, B; field; pose proof DD_pos; lra).
  split.
  - apply quot_abs. unfold DD. lra.
  - replace (1 + (4 - 4 * d * om) / DD) with ((8 + om * om) / DD) by (pose proof DD_pos; unfold DD in *; field; lra).
    unfold A1. apply quot_abs2. lra.
Qed.
End Coef.

Lemma shift_cv y N l : Un_cv (fun k => y (N + k)%nat) l -> Un_cv y l.
Proof.
  intros h eps ep. destruct (h eps ep) as [M hM]. exists (N + M)%nat. intros n hn.
  replace n with (N + (n - N))%nat by lia. apply hM. lia.
Qed.
Lemma minus_cv y c : Un_cv (fun k => y k - c) 0 -> Un_cv y c.
Proof.
  intros h eps ep. destruct (h eps ep) as [M hM]. exists M. intros n hn. specialize (hM n hn).
  unfold R_dist in *. now rewrite Rminus_0_r in hM.
Qed.
