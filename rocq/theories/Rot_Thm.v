From Coq Require Import Reals Lra Lia Ranalysis Nsatz.
From Verif Require Import Spline_Model Spline_Spec Spline_Proofs Rot_Model Rot_Spec Rot_Proofs.
Local Open Scope R_scope.

(* interpolation between rotations *)
Ltac cont c :=
  lazymatch goal with
  | |- continuity_pt (fun s => @?a s + @?b s) _ => apply (continuity_pt_plus a b); cont c
  | |- continuity_pt (fun s => @?a s - @?b s) _ => apply (continuity_pt_minus a b); cont c
  | |- continuity_pt (fun s => @?a s * @?b s) _ => apply (continuity_pt_mult a b); cont c
  | |- continuity_pt (fun s => - @?a s) _ => apply (continuity_pt_opp a); cont c
  | |- continuity_pt (fun s => sin (@?a s)) _ => apply (continuity_pt_comp a sin); [cont c|apply continuity_sin]
  | |- continuity_pt (fun s => cos (@?a s)) _ => apply (continuity_pt_comp a cos); [cont c|apply continuity_cos]
  | |- _ => first [assumption | apply continuity_pt_const; intros ? ?; reflexivity]
  end.

Lemma mat_cont_mmr F A : mat_continuous F -> mat_continuous (fun t => mm3 (F t) A).
Proof.
  intros h t. destruct (h t) as (? & ? & ? & ? & ? & ? & ? & ? & ?). unfold mm3; cbn [m00 m01 m02 m10 m11 m12 m20 m21 m22].
  refine (conj _ (conj _ (conj _ (conj _ (conj _ (conj _ (conj _ (conj _ _)))))))); cont F.
Qed.
Lemma mat_cont_add A F : mat_continuous F -> mat_continuous (fun t => madd A (F t)).
Proof.
  intros h t. destruct (h t) as (? & ? & ? & ? & ? & ? & ? & ? & ?). unfold madd; cbn [m00 m01 m02 m10 m11 m12 m20 m21 m22].
  refine (conj _ (conj _ (conj _ (conj _ (conj _ (conj _ (conj _ (conj _ _)))))))); cont F.
Qed.
Lemma mat_cont_2 A B f g : (forall t, continuity_pt f t) -> (forall t, continuity_pt g t) ->
  mat_continuous (fun t => madd (mscale (f t) A) (mscale (g t) B)).
Proof.
  intros h h' t. specialize (h t). specialize (h' t). unfold madd, mscale; cbn [m00 m01 m02 m10 m11 m12 m20 m21 m22].
  refine (conj _ (conj _ (conj _ (conj _ (conj _ (conj _ (conj _ (conj _ _)))))))); cont f.
Qed.
Lemma rot_path_continuous a th A c : (forall t, continuity_pt c t) ->
  mat_continuous (fun t => mm3 (rot_about a (th * c t)) A).
Proof.
  intros hc. apply (mat_cont_mmr (fun t => rot_about a (th * c t))). unfold rot_about.
  apply (mat_cont_add I3 (fun t => madd (mscale (sin (th * c t)) (hat a)) (mscale (1 - cos (th * c t)) (mm3 (hat a) (hat a))))).
  apply (mat_cont_2 (hat a) (mm3 (hat a) (hat a)) (fun t => sin (th * c t)) (fun t => 1 - cos (th * c t)));
  intros t; specialize (hc t); cont c.
Qed.

Lemma rot_about_0 a : rot_about a 0 = I3.
Proof. unfold rot_about. rewrite sin_0, cos_0. ext; ring. Qed.

Lemma unit_curve t0 tf : t0 < tf -> exists c : R -> R,
  (forall t, cubic t t0 tf 0 1 0 0 = Some (c t)) /\ (forall t, continuity_pt c t) /\
  (forall t, t <= t0 -> c t = 0) /\ (forall t, tf <= t -> c t = 1).
Proof.
  intros lt. exists (glue t0 tf 0 1 (S3 t0 tf)).
  destruct (cub_start t0 tf 0 1 0 0) as [s1 _]. destruct (cub_end t0 tf 0 1 0 0 lt) as [e1 _]. fold (S3 t0 tf t0) in s1. fold (S3 t0 tf tf) in e1.
  split; [apply cubic_eq; exact lt|].
  split; [apply glue_continuous; auto; apply cub_cont|].
  split; intros t h; unfold glue; destruct (Rlt_dec t t0), (Rlt_dec tf t); try lra.
  - replace t with t0 by lra. exact s1.
  - replace t with tf by lra. exact e1.
Qed.

Lemma rotationCubic_path t0 tf A B : t0 < tf -> rotation A -> rotation B ->
  exists (c : R -> R) (a : vec3) (th : R),
  (forall t, cubic t t0 tf 0 1 0 0 = Some (c t)) /\ (forall t, continuity_pt c t) /\
  (forall t, t <= t0 -> c t = 0) /\ (forall t, tf <= t -> c t = 1) /\
  unit_vec a /\ 0 <= th <= PI /\ B = mm3 (rot_about a th) A /\
  forall t, rotationCubic t t0 tf A B = Some (mm3 (rot_about a (th * c t)) A).
Proof.
  intros lt hA hB. destruct (unit_curve t0 tf lt) as (c & ce & cc & c0 & c1).
  destruct (angle_axis (mm3 B (tr3 A))) as (u & rg & e).
  { apply rotation_mm; [exact hB|now apply rotation_tr]. }
  set (r := aa_of_quat (quat_of_mat (mm3 B (tr3 A)))) in *.
  exists c, (snd r), (fst r). repeat (split; [assumption|]).
  rewrite mat_of_aa_rot in e by exact u.
  assert (eB : B = mm3 (rot_about (snd r) (fst r)) A).
  { rewrite e, <- mm3A. destruct hA as [o _]. rewrite o. now rewrite mm3_1r. }
  split; [exact eB|].
  intros t. unfold rotationCubic. destruct (Rle_dec tf t) as [h|h].
  - rewrite c1 by exact h. rewrite Rmult_1_r. now rewrite <- eB.
  - destruct (Rlt_dec t t0) as [h'|h'].
    + rewrite c0 by lra. rewrite Rmult_0_r, rot_about_0, mm3_1l. reflexivity.
    + rewrite ce. fold r. cbn zeta. now rewrite mat_of_aa_rot by exact u.
Qed.

(* the orientation error *)
Definition axial (N : mat3) : vec3 := V3 ((m21 N - m12 N) / 2) ((m02 N - m20 N) / 2) ((m10 N - m01 N) / 2).
Lemma GetPhi_axial V W : GetPhi V W = axial (mm3 W (tr3 V)).
Proof. unfold GetPhi, axial, col0, col1, col2. ext; field. Qed.
Lemma axial_rot a t : axial (rot_about a t) = vscale (sin t) a.
Proof. unfold axial, rot_about. destruct a. ext; field. Qed.
Lemma GetPhi_rot A a t : rotation A -> GetPhi A (mm3 (rot_about a t) A) = vscale (sin t) a.
Proof. intros h. rewrite GetPhi_axial, <- mm3A, (rotation_r A h), mm3_1r. apply axial_rot. Qed.

(* two-vector transform *)
Lemma normalized_unit a : a <> V3 0 0 0 -> unit_vec (normalized a).
Proof.
  intros h. unfold normalized. assert (p : 0 < dot a a).
  { destruct a as [x y z]. unfold dot; cbn [vx vy vz].
    destruct (Req_dec x 0) as [->|]; [|nra]. destruct (Req_dec y 0) as [->|]; [|nra].
    destruct (Req_dec z 0) as [->|]; [|nra]. contradiction. }
  destruct (Rlt_dec 0 (dot a a)); [|contradiction].
  assert (q : sqrt (dot a a) <> 0) by (pose proof (sqrt_lt_R0 _ p); lra).
  unfold unit_vec, vscale; cbn [vx vy vz].
  transitivity (dot a a * (/ sqrt (dot a a) * / sqrt (dot a a))); [unfold dot; ring|].
  rewrite <- Rinv_mult, sqrt_sqrt by lra. field. lra.
Qed.
Lemma unit_dot a : unit_vec a -> dot a a = 1.
Proof. auto. Qed.
Lemma lagrange u v : unit_vec u -> unit_vec v -> dot (cross u v) (cross u v) = 1 - dot u v * dot u v.
Proof.
  unfold unit_vec. intros hu hv.
  transitivity ((vx u * vx u + vy u * vy u + vz u * vz u) * (vx v * vx v + vy v * vy v + vz v * vz v) - dot u v * dot u v).
  - unfold dot, cross; cbn [vx vy vz]. ring.
  - rewrite hu, hv. ring.
Qed.
Lemma dot_range u v : unit_vec u -> unit_vec v -> -1 <= dot u v <= 1.
Proof.
  intros hu hv. pose proof (lagrange u v hu hv) as l.
  assert (0 <= dot (cross u v) (cross u v)) by (unfold dot; nra). nra.
Qed.

Lemma hat_hat x u : mv3 (mm3 (hat x) (hat x)) u = vadd (vscale (dot x u) x) (vscale (- dot x x) u).
Proof. ext; ring. Qed.
Lemma hat_cross u v : mv3 (hat (cross u v)) u = vadd (vscale (dot u u) v) (vscale (- dot u v) u).
Proof. ext; ring. Qed.

Lemma transform_units u v : unit_vec u -> unit_vec v -> cross u v <> V3 0 0 0 ->
  let a := normalized (cross u v) in
  unit_vec a /\ mv3 (rot_about a (acos (dot u v))) u = v.
Proof.
  intros hu hv nc a. pose proof (normalized_unit _ nc) as ua. fold a in ua. split; [exact ua|].
  pose proof (lagrange u v hu hv) as l. pose proof (dot_range u v hu hv) as rg.
  unfold rot_about. rewrite sin_acos, cos_acos by exact rg.
  unfold a, normalized in *. destruct (Rlt_dec 0 (dot (cross u v) (cross u v))) as [p|p].
  2:{ exfalso. unfold unit_vec in ua. unfold dot in p. lra. }
  replace (1 - (dot u v)²) with (dot (cross u v) (cross u v)) by (rewrite l; unfold Rsqr; ring).
  pose proof (sqrt_lt_R0 _ p) as sp. pose proof (sqrt_sqrt (dot (cross u v) (cross u v)) (Rlt_le _ _ p)) as ss.
  set (n := sqrt _) in *.
  (* n [a] = [u x v], and [a] [a] u = - u *)
  set (w := cross u v) in *.
  assert (e1 : mscale n (hat (vscale (/ n) w)) = hat w).
  { ext; field; lra. }
  assert (e2 : mv3 (mm3 (hat (vscale (/ n) w)) (hat (vscale (/ n) w))) u = vscale (-1) u).
  { rewrite hat_hat. change (dot (vscale (/ n) w) (vscale (/ n) w)) with (vx (vscale (/ n) w) * vx (vscale (/ n) w) + vy (vscale (/ n) w) * vy (vscale (/ n) w) + vz (vscale (/ n) w) * vz (vscale (/ n) w)).
    unfold unit_vec in ua. rewrite ua.
    replace (dot (vscale (/ n) w) u) with 0 by (unfold w, dot, cross, vscale; cbn [vx vy vz]; ring). ext; ring. }
  assert (dist : forall A B C x k, mv3 (madd A (madd B (mscale k C))) x = vadd (mv3 A x) (vadd (mv3 B x) (vscale k (mv3 C x)))).
  { intros. ext; ring. }
  rewrite dist, e1, e2. unfold w.
  rewrite hat_cross, (unit_dot u hu). destruct u as [u1 u2 u3], v as [v1 v2 v3]. ext; ring.
Qed.
