(* C35 - C37: interpolation. *)
From Coq Require Import Reals Lra.
From Verif Require Import Spline_Model Spline_Spec Spline_Proofs.
Local Open Scope R_scope.

(* C35.  For time_0 < time_f the quintic is defined everywhere; it equals the given states up to
   time_0 and from time_f on; the three components are continuous everywhere; strictly inside, and
   from the inside at both ends, each component is the derivative of the previous one. *)
Theorem C35_quintic (t0 tf x0 v0 w0 xf vf wf : R) : t0 < tf ->
  exists p v a : R -> R,
  (forall t, QuinticSpline t t0 tf x0 v0 w0 xf vf wf = Some (V3 (p t) (v t) (a t))) /\
  (forall t, t <= t0 -> p t = x0 /\ v t = v0 /\ a t = w0) /\
  (forall t, tf <= t -> p t = xf /\ v t = vf /\ a t = wf) /\
  (forall t, continuity_pt p t /\ continuity_pt v t /\ continuity_pt a t) /\
  (forall t, t0 < t < tf -> derivable_pt_lim p t (v t) /\ derivable_pt_lim v t (a t)) /\
  (right_deriv p t0 v0 /\ right_deriv v t0 w0) /\ (left_deriv p tf vf /\ left_deriv v tf wf).
Proof.
  intros lt.
  set (P := pos t0 tf x0 v0 w0 xf vf wf). set (V := vel t0 tf x0 v0 w0 xf vf wf). set (A := acc t0 tf x0 v0 w0 xf vf wf).
  destruct (at_start t0 tf x0 v0 w0 xf vf wf) as (s1 & s2 & s3). fold P V A in s1, s2, s3.
  destruct (at_end t0 tf x0 v0 w0 xf vf wf lt) as (e1 & e2 & e3). fold P V A in e1, e2, e3.
  exists (glue t0 tf x0 xf P), (glue t0 tf v0 vf V), (glue t0 tf w0 wf A).
  assert (gi := fun ca cb g t h => glue_in t0 tf ca cb g t h).
  assert (start : forall ca cb g t, g t0 = ca -> t <= t0 -> glue t0 tf ca cb g t = ca).
  { intros ca cb g t e h. unfold glue. destruct (Rlt_dec t t0); [reflexivity|].
    destruct (Rlt_dec tf t); [lra|]. replace t with t0 by lra. exact e. }
  assert (stop : forall ca cb g t, g tf = cb -> tf <= t -> glue t0 tf ca cb g t = cb).
  { intros ca cb g t e h. unfold glue. destruct (Rlt_dec t t0); [lra|].
    destruct (Rlt_dec tf t); [reflexivity|]. replace t with tf by lra. exact e. }
  split; [apply quintic_eq; exact lt|].
  split; [intros t h; repeat split; apply start; auto|].
  split; [intros t h; repeat split; apply stop; auto|].
  split.
  { intros t. repeat split; apply glue_continuous; auto; intros u; [apply pos_cont|apply vel_cont|apply acc_cont]. }
  split.
  { intros t ht. rewrite !gi by lra. split.
    - apply lim_interior with (g := P) (a := t0) (b := tf); [lra|intros y hy; apply gi; lra|apply pos_lim].
    - apply lim_interior with (g := V) (a := t0) (b := tf); [lra|intros y hy; apply gi; lra|apply vel_lim]. }
  split; split.
  - apply lim_right with (g := P) (d := tf - t0); [lra|intros y hy; apply gi; lra|rewrite <- s2; apply pos_lim].
  - apply lim_right with (g := V) (d := tf - t0); [lra|intros y hy; apply gi; lra|rewrite <- s3; apply vel_lim].
  - apply lim_left with (g := P) (d := tf - t0); [lra|intros y hy; apply gi; lra|rewrite <- e2; apply pos_lim].
  - apply lim_left with (g := V) (d := tf - t0); [lra|intros y hy; apply gi; lra|rewrite <- e3; apply vel_lim].
Qed.

(* C36.  Rest to rest. *)
Theorem C36_rest_to_rest (t0 tf x0 xf : R) : t0 < tf ->
  exists p v a : R -> R,
  (forall t, QuinticSpline t t0 tf x0 0 0 xf 0 0 = Some (V3 (p t) (v t) (a t))) /\
  (x0 <= xf -> nondecreasing p) /\ (xf <= x0 -> nonincreasing p) /\ (forall t, between x0 xf (p t)).
Proof.
  intros lt. eexists _, _, _. split; [apply quintic_eq; exact lt|].
  destruct (at_start t0 tf 0 0 0 1 0 0) as (s1 & _). destruct (at_end t0 tf 0 0 0 1 0 0 lt) as (e1 & _).
  apply (unit_interp t0 tf x0 xf _ (S5 t0 tf)); auto.
  - intros t. apply S5_affine; exact lt.
  - apply S5_mono; exact lt.
Qed.

(* C37.  Cubic interpolation. *)
Theorem C37_cubic (t0 tf x0 xf v0 vf : R) : t0 < tf ->
  exists c : R -> R,
  (forall t, cubic t t0 tf x0 xf v0 vf = Some (c t)) /\
  (forall t, t <= t0 -> c t = x0) /\ (forall t, tf <= t -> c t = xf) /\
  (forall t, continuity_pt c t) /\
  right_deriv c t0 v0 /\ left_deriv c tf vf /\
  (forall t, t0 < t < tf -> exists d, derivable_pt_lim c t d) /\
  (v0 = 0 -> vf = 0 ->
     (x0 <= xf -> nondecreasing c) /\ (xf <= x0 -> nonincreasing c) /\ (forall t, between x0 xf (c t))).
Proof.
  intros lt. set (C := cub t0 tf x0 xf v0 vf).
  destruct (cub_start t0 tf x0 xf v0 vf) as (s1 & s2). destruct (cub_end t0 tf x0 xf v0 vf lt) as (e1 & e2).
  fold C in s1, e1.
  exists (glue t0 tf x0 xf C).
  assert (gi : forall t, t0 <= t <= tf -> glue t0 tf x0 xf C t = C t) by (intros; apply glue_in; auto).
  split; [apply cubic_eq; exact lt|].
  split.
  { intros t h. unfold glue. destruct (Rlt_dec t t0); [reflexivity|].
    destruct (Rlt_dec tf t); [lra|]. replace t with t0 by lra. exact s1. }
  split.
  { intros t h. unfold glue. destruct (Rlt_dec t t0); [lra|].
    destruct (Rlt_dec tf t); [reflexivity|]. replace t with tf by lra. exact e1. }
  split; [apply glue_continuous; auto; apply cub_cont|].
  split; [apply lim_right with (g := C) (d := tf - t0); [lra|intros y hy; apply gi; lra|rewrite <- s2; apply cub_lim]|].
  split; [apply lim_left with (g := C) (d := tf - t0); [lra|intros y hy; apply gi; lra|rewrite <- e2; apply cub_lim]|].
  split.
  { intros t ht. exists (dcub t0 tf x0 xf v0 vf t).
    apply lim_interior with (g := C) (a := t0) (b := tf); [lra|intros y hy; apply gi; lra|apply cub_lim]. }
  intros -> ->. unfold C. apply (unit_interp t0 tf x0 xf _ (S3 t0 tf)); auto.
  - intros t. apply S3_affine; exact lt.
  - destruct (cub_start t0 tf 0 1 0 0); auto.
  - destruct (cub_end t0 tf 0 1 0 0 lt); auto.
  - apply S3_mono; exact lt.
Qed.

(* Examples: half way through a unit move in two seconds; a moving start *)
Example C35_example : QuinticSpline 1 0 2 0 1 0 2 1 0 = Some (V3 1 1 0) /\
  QuinticSpline 3 0 2 0 1 0 2 1 0 = Some (V3 2 1 0) /\ QuinticSpline 1 0 2 0 0 2 1 0 0 = Some (V3 (5 / 8) (13 / 16) (- (1 / 2))).
Proof.
  assert (h : 0 < 2) by lra. rewrite !quintic_eq by exact h. unfold glue.
  destruct (Rlt_dec 1 0); [lra|]. destruct (Rlt_dec 2 1); [lra|]. destruct (Rlt_dec 3 0); [lra|].
  destruct (Rlt_dec 2 3); [|lra].
  unfold pos, vel, acc, poly, a4, a5, a6, R1, R2, R3. repeat split; do 2 f_equal; field.
Qed.
Example C36_example : QuinticSpline 1 0 2 0 0 0 1 0 0 = Some (V3 (1 / 2) (15 / 16) 0).
Proof.
  rewrite quintic_eq by lra. unfold glue. destruct (Rlt_dec 1 0); [lra|]. destruct (Rlt_dec 2 1); [lra|].
  unfold pos, vel, acc, poly, a4, a5, a6, R1, R2, R3. do 2 f_equal; field.
Qed.
Example C37_example : cubic (1 / 2) 0 1 0 1 0 0 = Some (1 / 2).
Proof.
  rewrite cubic_eq by lra. unfold glue. destruct (Rlt_dec (1 / 2) 0); [lra|]. destruct (Rlt_dec 1 (1 / 2)); [lra|].
  unfold cub, poly. f_equal. field.
Qed.

Print Assumptions C35_quintic.
Print Assumptions C36_rest_to_rest.
Print Assumptions C37_cubic.
