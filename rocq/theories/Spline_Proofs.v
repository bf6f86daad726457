From Coq Require Import Reals Lra Lia Ranalysis.
From Verif Require Import Spline_Model Spline_Spec.
Local Open Scope R_scope.

(* polynomials of degree at most 5 *)
Definition poly (c0 c1 c2 c3 c4 c5 s : R) : R :=
  c0 + c1 * s ^ 1 + c2 * s ^ 2 + c3 * s ^ 3 + c4 * s ^ 4 + c5 * s ^ 5.
Definition dpoly (c1 c2 c3 c4 c5 s : R) : R :=
  c1 + 2 * c2 * s ^ 1 + 3 * c3 * s ^ 2 + 4 * c4 * s ^ 3 + 5 * c5 * s ^ 4.

Lemma pow_lim a n x : derivable_pt_lim (fun t => (t - a) ^ n) x (INR n * (x - a) ^ pred n).
Proof.
  replace (INR n * (x - a) ^ pred n) with (INR n * (x - a) ^ pred n * 1) by ring.
  apply (derivable_pt_lim_comp (fun t => t - a) (fun y => y ^ n)).
  - replace 1 with (1 - 0) by ring.
    apply (derivable_pt_lim_minus id (fct_cte a)); [apply derivable_pt_lim_id|apply derivable_pt_lim_const].
  - apply derivable_pt_lim_pow.
Qed.

Lemma scal_lim c f x l : derivable_pt_lim f x l -> derivable_pt_lim (fun t => c * f t) x (c * l).
Proof. intros h. apply (derivable_pt_lim_scal f c x l h). Qed.

Lemma poly_lim c0 c1 c2 c3 c4 c5 a x :
  derivable_pt_lim (fun t => poly c0 c1 c2 c3 c4 c5 (t - a)) x (dpoly c1 c2 c3 c4 c5 (x - a)).
Proof.
  unfold poly, dpoly.
  replace (c1 + 2 * c2 * (x - a) ^ 1 + 3 * c3 * (x - a) ^ 2 + 4 * c4 * (x - a) ^ 3 + 5 * c5 * (x - a) ^ 4)
    with (0 + c1 * (INR 1 * (x - a) ^ pred 1) + c2 * (INR 2 * (x - a) ^ pred 2) + c3 * (INR 3 * (x - a) ^ pred 3)
          + c4 * (INR 4 * (x - a) ^ pred 4) + c5 * (INR 5 * (x - a) ^ pred 5)).
  2:{ simpl INR. simpl pred. ring. }
  repeat apply derivable_pt_lim_plus; try (apply scal_lim, pow_lim).
  apply (derivable_pt_lim_const c0).
Qed.

(* locality *)
Lemma lim_local f g x l d : 0 < d -> (forall y, Rabs (y - x) < d -> f y = g y) ->
  derivable_pt_lim g x l -> derivable_pt_lim f x l.
Proof.
  intros dp e h eps ep. destruct (h eps ep) as [del hd].
  assert (mp : 0 < Rmin del d) by (apply Rmin_pos; [apply cond_pos|exact dp]).
  exists (mkposreal _ mp). intros k nk hk. simpl in hk.
  rewrite (e (x + k)), (e x).
  - apply hd; auto. eapply Rlt_le_trans; [exact hk|apply Rmin_l].
  - replace (x - x) with 0 by ring. now rewrite Rabs_R0.
  - replace (x + k - x) with k by ring. eapply Rlt_le_trans; [exact hk|apply Rmin_r].
Qed.

Lemma lim_interior f g x l a b : a < x < b -> (forall y, a < y < b -> f y = g y) ->
  derivable_pt_lim g x l -> derivable_pt_lim f x l.
Proof.
  intros hx e. apply lim_local with (d := Rmin (x - a) (b - x)).
  - apply Rmin_pos; lra.
  - intros y hy. apply e.
    pose proof (Rmin_l (x - a) (b - x)). pose proof (Rmin_r (x - a) (b - x)).
    assert (Rabs (y - x) < x - a /\ Rabs (y - x) < b - x) as [h1 h2] by lra.
    apply Rabs_def2 in h1, h2. lra.
Qed.

Lemma lim_right f g x l d : 0 < d -> (forall y, x <= y < x + d -> f y = g y) ->
  derivable_pt_lim g x l -> right_deriv f x l.
Proof.
  intros dp e h eps ep. destruct (h eps ep) as [del hd].
  exists (Rmin del d). split; [apply Rmin_pos; [apply cond_pos|exact dp]|].
  intros k [k0 k1]. pose proof (Rmin_l del d). pose proof (Rmin_r del d).
  rewrite (e (x + k)), (e x) by lra. apply hd; [lra|]. rewrite Rabs_pos_eq; lra.
Qed.

Lemma lim_left f g x l d : 0 < d -> (forall y, x - d < y <= x -> f y = g y) ->
  derivable_pt_lim g x l -> left_deriv f x l.
Proof.
  intros dp e h eps ep. destruct (h eps ep) as [del hd].
  exists (Rmin del d). split; [apply Rmin_pos; [apply cond_pos|exact dp]|].
  intros k [k0 k1]. pose proof (Rmin_l del d). pose proof (Rmin_r del d).
  rewrite (e (x + k)), (e x) by lra. apply hd; [lra|]. rewrite Rabs_left; lra.
Qed.

(* a function made of a constant, a continuous piece and a constant that fit together *)
Definition glue (a b : R) (ca cb : R) (g : R -> R) (t : R) : R :=
  if Rlt_dec t a then ca else if Rlt_dec b t then cb else g t.

Lemma glue_continuous a b ca cb g : a < b -> (forall t, continuity_pt g t) -> g a = ca -> g b = cb ->
  forall t, continuity_pt (glue a b ca cb g) t.
Proof.
  intros ab cg ga gb t.
  (* glue = g composed with the clamp *)
  assert (E : forall s, glue a b ca cb g s = g (Rmax a (Rmin b s))).
  { intros s. unfold glue. destruct (Rlt_dec s a).
    - rewrite Rmin_right, Rmax_left by lra. auto.
    - destruct (Rlt_dec b s).
      + rewrite Rmin_left, Rmax_right by lra. auto.
      + rewrite Rmin_right, Rmax_right by lra. auto. }
  assert (cl : forall s u, Rabs (Rmax a (Rmin b s) - Rmax a (Rmin b u)) <= Rabs (s - u)).
  { intros s u. unfold Rmax, Rmin.
    destruct (Rle_dec b s), (Rle_dec b u);
    repeat match goal with |- context [Rle_dec ?x ?y] => destruct (Rle_dec x y) end;
    unfold Rabs; repeat destruct Rcase_abs; lra. }
  intros eps ep. destruct (cg (Rmax a (Rmin b t)) eps ep) as [del [dp hd]].
  exists del. split; [exact dp|]. intros s [_ hs]. simpl in *. unfold R_dist in *.
  rewrite !E. destruct (Req_dec (Rmax a (Rmin b s)) (Rmax a (Rmin b t))) as [q|q].
  - rewrite q, Rminus_diag_eq by reflexivity. now rewrite Rabs_R0.
  - apply hd. split; [split; [exact I|auto]|]. eapply Rle_lt_trans; [apply cl|exact hs].
Qed.

(* monotone pieces *)
Lemma glue_mono a b ca cb g : a < b -> g a = ca -> g b = cb ->
  (forall s t, a <= s -> s <= t -> t <= b -> g s <= g t) -> nondecreasing (glue a b ca cb g).
Proof.
  intros ab ga gb m s t st. unfold glue.
  destruct (Rlt_dec s a), (Rlt_dec t a), (Rlt_dec b s), (Rlt_dec b t); try lra.
  - subst; apply m; lra.
  - subst. apply m; lra.
  - subst. apply m; lra.
  - apply m; lra.
Qed.

Section Quintic.
Variables (t0 tf x0 v0 w0 xf vf wf : R).
Hypothesis lt : t0 < tf.
Let T := tf - t0.
Definition R1 : R := xf - x0 - v0 * T - w0 * T ^ 2 / 2.
Definition R2 : R := vf - v0 - w0 * T.
Definition R3 : R := wf - w0.
(* the solution of the 3x3 system *)
Definition a4 : R := (10 * R1 - 4 * T * R2 + T ^ 2 * R3 / 2) / T ^ 3.
Definition a5 : R := (- 15 * R1 + 7 * T * R2 - T ^ 2 * R3) / T ^ 4.
Definition a6 : R := (6 * R1 - 3 * T * R2 + T ^ 2 * R3 / 2) / T ^ 5.

Definition pos (t : R) : R := poly x0 v0 (w0 / 2) a4 a5 a6 (t - t0).
Definition vel (t : R) : R := poly v0 w0 (3 * a4) (4 * a5) (5 * a6) 0 (t - t0).
Definition acc (t : R) : R := poly w0 (6 * a4) (12 * a5) (20 * a6) 0 0 (t - t0).

Lemma Tp : 0 < T. Proof. unfold T; lra. Qed.
Lemma Tn k : T ^ k <> 0. Proof. apply pow_nonzero. pose proof Tp; lra. Qed.


Lemma at_start : pos t0 = x0 /\ vel t0 = v0 /\ acc t0 = w0.
Proof. unfold pos, vel, acc, poly. replace (t0 - t0) with 0 by ring. repeat split; simpl; ring. Qed.

Lemma at_end : pos tf = xf /\ vel tf = vf /\ acc tf = wf.
Proof.
  unfold pos, vel, acc, poly, a4, a5, a6. fold T. pose proof Tp as tp.
  assert (T <> 0) by lra.
  unfold R1, R2, R3. repeat split; field; assumption.
Qed.

Lemma quintic_eq t : QuinticSpline t t0 tf x0 v0 w0 xf vf wf =
  Some (V3 (glue t0 tf x0 xf pos t) (glue t0 tf v0 vf vel t) (glue t0 tf w0 wf acc t)).
Proof.
  unfold QuinticSpline, glue. destruct (Rlt_dec t t0); [reflexivity|].
  destruct (Rlt_dec tf t); [reflexivity|].
  fold T. pose proof Tp as tp. assert (T <> 0) by lra.
  unfold inv3. set (M := M3 _ _ _ _ _ _ _ _ _).
  assert (dM : det3 M = 2 * T ^ 9) by (unfold det3, M; cbn -[pow]; ring).
  destruct (Req_EM_T (det3 M) 0) as [q|q].
  - exfalso. rewrite dM in q. assert (T ^ 9 <> 0) by apply Tn. lra.
  - cbn zeta. rewrite dM. unfold mv3, M; cbn -[pow].
    unfold pos, vel, acc, poly, a4, a5, a6, R1, R2, R3. fold T.
    do 2 f_equal; field; repeat split; try assumption; try lra.
Qed.

Lemma pos_lim t : derivable_pt_lim pos t (vel t).
Proof.
  replace (vel t) with (dpoly v0 (w0 / 2) a4 a5 a6 (t - t0)).
  - apply poly_lim.
  - unfold vel, poly, dpoly. field.
Qed.
Lemma vel_lim t : derivable_pt_lim vel t (acc t).
Proof.
  replace (acc t) with (dpoly w0 (3 * a4) (4 * a5) (5 * a6) 0 (t - t0)).
  - apply poly_lim.
  - unfold acc, poly, dpoly. field.
Qed.
Lemma acc_cont t : continuity_pt acc t.
Proof. apply derivable_continuous_pt. eexists. apply poly_lim. Qed.
Lemma pos_cont t : continuity_pt pos t.
Proof. apply derivable_continuous_pt. eexists. apply poly_lim. Qed.
Lemma vel_cont t : continuity_pt vel t.
Proof. apply derivable_continuous_pt. eexists. apply poly_lim. Qed.

Lemma glue_in ca cb g t : t0 <= t <= tf -> glue t0 tf ca cb g t = g t.
Proof. intros h. unfold glue. destruct (Rlt_dec t t0); [lra|]. destruct (Rlt_dec tf t); [lra|reflexivity]. Qed.
End Quintic.

(* from a mean value argument *)
Lemma mono_interval f f' a b : (forall t, derivable_pt_lim f t (f' t)) ->
  (forall t, a <= t <= b -> 0 <= f' t) -> forall s t, a <= s -> s <= t -> t <= b -> f s <= f t.
Proof.
  intros d p s t h1 h2 h3. destruct (Req_dec s t) as [->|ne]; [lra|].
  destruct (MVT_cor2 f f' s t) as (c & e & hc); [lra|intros c _; apply d|].
  assert (0 <= f' c) by (apply p; lra). assert (0 <= f' c * (t - s)) by (apply Rmult_le_pos; lra). lra.
Qed.

Lemma affine_between x0 xf s : 0 <= s <= 1 -> between x0 xf (x0 + (xf - x0) * s).
Proof. intros h. unfold between, Rmin, Rmax. destruct (Rle_dec x0 xf); split; nra. Qed.

Lemma glue_affine a b x0 xf (p S : R -> R) : (forall t, p t = x0 + (xf - x0) * S t) ->
  forall t, glue a b x0 xf p t = x0 + (xf - x0) * glue a b 0 1 S t.
Proof. intros h t. unfold glue. destruct (Rlt_dec t a); [ring|]. destruct (Rlt_dec b t); [ring|apply h]. Qed.

Lemma unit_interp a b x0 xf (p S : R -> R) : a < b -> (forall t, p t = x0 + (xf - x0) * S t) ->
  S a = 0 -> S b = 1 -> (forall s t, a <= s -> s <= t -> t <= b -> S s <= S t) ->
  let f := glue a b x0 xf p in
  (x0 <= xf -> nondecreasing f) /\ (xf <= x0 -> nonincreasing f) /\ (forall t, between x0 xf (f t)).
Proof.
  intros ab h Sa Sb m f.
  pose proof (glue_mono a b 0 1 S ab Sa Sb m) as M.
  pose proof (glue_affine a b x0 xf p S h) as A.
  assert (rg : forall t, 0 <= glue a b 0 1 S t <= 1).
  { intros t. unfold glue. destruct (Rlt_dec t a); [lra|]. destruct (Rlt_dec b t); [lra|].
    split; [rewrite <- Sa|rewrite <- Sb]; apply m; lra. }
  repeat split.
  - intros le s t st. unfold f. rewrite !A. specialize (M s t st). nra.
  - intros le s t st. unfold f. rewrite !A. specialize (M s t st). nra.
  - unfold f. rewrite A. apply affine_between, rg.
  - unfold f. rewrite A. apply affine_between, rg.
Qed.

Section RestQuintic.
Variables (t0 tf : R).
Hypothesis lt : t0 < tf.
Definition S5 (t : R) : R := pos t0 tf 0 0 0 1 0 0 t.
Lemma S5_affine x0 xf t : pos t0 tf x0 0 0 xf 0 0 t = x0 + (xf - x0) * S5 t.
Proof. unfold S5, pos, poly, a4, a5, a6, R1, R2, R3. field. lra. Qed.
Lemma S5_mono s t : t0 <= s -> s <= t -> t <= tf -> S5 s <= S5 t.
Proof.
  apply (mono_interval S5 (vel t0 tf 0 0 0 1 0 0)); [apply pos_lim|].
  intros u hu. set (T := tf - t0). assert (0 < T) by (unfold T; lra).
  replace (vel t0 tf 0 0 0 1 0 0 u) with (30 * ((u - t0) * (tf - u)) ^ 2 / T ^ 5).
  - apply Rmult_le_pos; [pose proof (pow2_ge_0 ((u - t0) * (tf - u))); lra|]. left. apply Rinv_0_lt_compat, pow_lt; assumption.
  - unfold vel, poly, a4, a5, a6, R1, R2, R3, T. field. lra.
Qed.
End RestQuintic.

Section Cubic.
Variables (t0 tf x0 xf v0 vf : R).
Hypothesis lt : t0 < tf.
Let T := tf - t0.
Definition cub (t : R) : R :=
  poly x0 v0 (3 * (xf - x0) / (T * T) - 2 * v0 / T - vf / T) (-2 * (xf - x0) / (T * T * T) + (v0 + vf) / (T * T)) 0 0 (t - t0).
Definition dcub (t : R) : R :=
  dpoly v0 (3 * (xf - x0) / (T * T) - 2 * v0 / T - vf / T) (-2 * (xf - x0) / (T * T * T) + (v0 + vf) / (T * T)) 0 0 (t - t0).
Lemma cub_lim t : derivable_pt_lim cub t (dcub t).
Proof. apply poly_lim. Qed.
Lemma cub_cont t : continuity_pt cub t.
Proof. apply derivable_continuous_pt. eexists. apply cub_lim. Qed.
Lemma cub_start : cub t0 = x0 /\ dcub t0 = v0.
Proof. unfold cub, dcub, poly, dpoly. replace (t0 - t0) with 0 by ring. split; ring. Qed.
Lemma cub_end : cub tf = xf /\ dcub tf = vf.
Proof.
  unfold cub, dcub, poly, dpoly. fold T. assert (T <> 0) by (unfold T; lra). split; field; assumption.
Qed.
Lemma cubic_eq t : cubic t t0 tf x0 xf v0 vf = Some (glue t0 tf x0 xf cub t).
Proof.
  unfold cubic, glue. destruct (Rlt_dec t t0); [reflexivity|]. destruct (Rlt_dec tf t); [reflexivity|].
  cbn zeta. fold T. assert (T <> 0) by (unfold T; lra).
  destruct (Req_EM_T T 0); [contradiction|]. f_equal. unfold cub, poly. fold T. field. assumption.
Qed.
End Cubic.

Section RestCubic.
Variables (t0 tf : R).
Hypothesis lt : t0 < tf.
Definition S3 (t : R) : R := cub t0 tf 0 1 0 0 t.
Lemma S3_affine x0 xf t : cub t0 tf x0 xf 0 0 t = x0 + (xf - x0) * S3 t.
Proof. unfold S3, cub, poly. field. lra. Qed.
Lemma S3_mono s t : t0 <= s -> s <= t -> t <= tf -> S3 s <= S3 t.
Proof.
  apply (mono_interval S3 (dcub t0 tf 0 1 0 0)); [apply cub_lim|].
  intros u hu. set (T := tf - t0). assert (0 < T) by (unfold T; lra).
  replace (dcub t0 tf 0 1 0 0 u) with (6 * ((u - t0) * (tf - u)) / T ^ 3).
  - apply Rmult_le_pos; [nra|]. left. apply Rinv_0_lt_compat, pow_lt; assumption.
  - unfold dcub, dpoly, T. field. lra.
Qed.
End RestCubic.
