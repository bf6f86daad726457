(* C38 - C40, C74: rotations. *)
From Coq Require Import Reals Lra.
From Verif Require Import Spline_Model Rot_Model Rot_Spec Rot_Proofs Rot_Thm.
Local Open Scope R_scope.

(* C38 *)
Theorem C38_elementary (rot : R -> mat3) : rot = rotateWithX \/ rot = rotateWithY \/ rot = rotateWithZ ->
  (forall a, rotation (rot a)) /\ (forall a b, mm3 (rot a) (rot b) = rot (a + b)) /\
  (forall a, mm3 (rot (- a)) (rot a) = I3 /\ mm3 (rot a) (rot (- a)) = I3).
Proof.
  assert (H : forall a, cos a * cos a + sin a * sin a = 1).
  { intros a. pose proof (sin2_cos2 a) as h. unfold Rsqr in h. lra. }
  intros [->|[->| ->]].
  all: assert (Z : forall f : R -> mat3, f 0 = I3 -> (forall a b, mm3 (f a) (f b) = f (a + b)) ->
         forall a, mm3 (f (- a)) (f a) = I3 /\ mm3 (f a) (f (- a)) = I3)
         by (intros f f0 fa a; rewrite !fa; split; [replace (- a + a) with 0 by ring|replace (a + - a) with 0 by ring]; exact f0).
  - assert (ad : forall a b, mm3 (rotateWithX a) (rotateWithX b) = rotateWithX (a + b)).
    { intros a b. unfold rotateWithX. rewrite cos_plus, sin_plus. ext; ring. }
    split; [|split; [exact ad|apply Z; [unfold rotateWithX; rewrite cos_0, sin_0; ext; ring|exact ad]]].
    intros a. pose proof (H a). unfold rotation, rotateWithX, det3. split; [ext; lra|cbn; lra].
  - assert (ad : forall a b, mm3 (rotateWithY a) (rotateWithY b) = rotateWithY (a + b)).
    { intros a b. unfold rotateWithY. rewrite cos_plus, sin_plus. ext; ring. }
    split; [|split; [exact ad|apply Z; [unfold rotateWithY; rewrite cos_0, sin_0; ext; ring|exact ad]]].
    intros a. pose proof (H a). unfold rotation, rotateWithY, det3. split; [ext; lra|cbn; lra].
  - assert (ad : forall a b, mm3 (rotateWithZ a) (rotateWithZ b) = rotateWithZ (a + b)).
    { intros a b. unfold rotateWithZ. rewrite cos_plus, sin_plus. ext; ring. }
    split; [|split; [exact ad|apply Z; [unfold rotateWithZ; rewrite cos_0, sin_0; ext; ring|exact ad]]].
    intros a. pose proof (H a). unfold rotation, rotateWithZ, det3. split; [ext; lra|cbn; lra].
Qed.

(* each turns about its own axis in the positive sense *)
Theorem C38_about_axis (a : R) :
  rotateWithX a = rot_about (V3 1 0 0) a /\ rotateWithY a = rot_about (V3 0 1 0) a /\ rotateWithZ a = rot_about (V3 0 0 1) a.
Proof. repeat split; unfold rotateWithX, rotateWithY, rotateWithZ, rot_about; ext; ring. Qed.

(* C39.  Always a rotation ... *)
Theorem C39_rotation (time t0 tf : R) (A B : mat3) : rotation A -> rotation B ->
  exists M, rotationCubic time t0 tf A B = Some M /\ rotation M.
Proof.
  intros hA hB. destruct (Rlt_dec t0 tf) as [lt|lt].
  - destruct (rotationCubic_path t0 tf A B lt hA hB) as (c & a & th & _ & _ & _ & _ & u & _ & _ & e).
    eexists. split; [apply e|]. apply rotation_mm; [apply rot_about_rotation; exact u|exact hA].
  - unfold rotationCubic. destruct (Rle_dec tf time); [eexists; split; [reflexivity|exact hB]|].
    destruct (Rlt_dec time t0); [eexists; split; [reflexivity|exact hA]|lra].
Qed.

(* ... that moves from A to B, continuously, about one fixed axis through the shorter angle, at the
   pace of the cubic *)
Theorem C39_interpolates (t0 tf : R) (A B : mat3) : t0 < tf -> rotation A -> rotation B ->
  exists F : R -> mat3,
  (forall t, rotationCubic t t0 tf A B = Some (F t)) /\
  (forall t, t <= t0 -> F t = A) /\ (forall t, tf <= t -> F t = B) /\ mat_continuous F /\
  exists (c : R -> R) (a : vec3) (th : R),
    (forall t, cubic t t0 tf 0 1 0 0 = Some (c t)) /\ unit_vec a /\ 0 <= th <= PI /\
    (forall t, F t = mm3 (rot_about a (th * c t)) A).
Proof.
  intros lt hA hB. destruct (rotationCubic_path t0 tf A B lt hA hB) as (c & a & th & ce & cc & c0 & c1 & u & rg & eB & e).
  exists (fun t => mm3 (rot_about a (th * c t)) A).
  split; [exact e|]. split; [intros t h; rewrite c0 by exact h; rewrite Rmult_0_r, rot_about_0; apply mm3_1l|].
  split; [intros t h; rewrite c1 by exact h; rewrite Rmult_1_r; now symmetry|].
  split; [apply rot_path_continuous; exact cc|]. exists c, a, th. auto.
Qed.

(* C40 *)
Theorem C40_zero_odd_axis_partial (A B : mat3) (a : vec3) (t : R) :
  GetPhi A A = V3 0 0 0 /\ GetPhi A B = vscale (-1) (GetPhi B A) /\
  (rotation A -> unit_vec a -> GetPhi A (mm3 (rot_about a t) A) = vscale (sin t) a).
Proof.
  split; [unfold GetPhi, col0, col1, col2; ext; ring|].
  split; [unfold GetPhi, col0, col1, col2; ext; ring|].
  intros h _. apply GetPhi_rot. exact h.
Qed.

(* it vanishes exactly at coincidence and at half turns *)
Theorem C40_zero_set_partial (A B : mat3) : rotation A -> rotation B ->
  (GetPhi A B = V3 0 0 0 <-> A = B \/ exists a, unit_vec a /\ B = mm3 (rot_about a PI) A).
Proof.
  intros hA hB. split.
  - intros z. destruct (angle_axis (mm3 B (tr3 A))) as (u & rg & e).
    { apply rotation_mm; [exact hB|now apply rotation_tr]. }
    set (a := snd _) in *. set (th := fst _) in *.
    rewrite mat_of_aa_rot in e by exact u.
    assert (eB : B = mm3 (rot_about a th) A).
    { rewrite e, <- mm3A. destruct hA as [o _]. rewrite o. now rewrite mm3_1r. }
    rewrite eB, (GetPhi_rot A a th hA) in z.
    assert (s0 : sin th = 0).
    { unfold vscale in z. injection z; intros z3 z2 z1. unfold unit_vec in u.
      assert (sin th * 1 = 0) by (rewrite <- u; replace (sin th * (vx a * vx a + vy a * vy a + vz a * vz a)) with
        (sin th * vx a * vx a + sin th * vy a * vy a + sin th * vz a * vz a) by ring; rewrite z1, z2, z3; ring). lra. }
    destruct (Req_dec th 0) as [t0|t0].
    + left. rewrite eB, t0, rot_about_0. now rewrite mm3_1l.
    + destruct (Req_dec th PI) as [t1|t1].
      * right. exists a. rewrite t1 in eB. auto.
      * exfalso. assert (0 < sin th) by (apply sin_gt_0; lra). lra.
  - intros [->|(a & u & ->)].
    + unfold GetPhi, col0, col1, col2; ext; ring.
    + rewrite GetPhi_rot by exact hA. rewrite sin_PI. ext; ring.
Qed.

(* so it does not vanish only at coincidence: a half turn about x *)
Theorem C40_vanishes_only_at_target_refuted :
  exists A B, rotation A /\ rotation B /\ A <> B /\ GetPhi A B = V3 0 0 0.
Proof.
  exists I3, (M3 1 0 0 0 (-1) 0 0 0 (-1)).
  split; [apply rotation_I|]. split; [unfold rotation, det3; split; [ext; ring|cbn; ring]|].
  split; [intros h; injection h; lra|]. unfold GetPhi, col0, col1, col2; ext; ring.
Qed.

Lemma sq3 a b c : a * a + b * b + c * c = 0 -> a = 0 /\ b = 0 /\ c = 0.
Proof. intros h. repeat split; nra. Qed.

(* C74.  AxisTransform2V *)
Theorem C74_axis_transform_partial (from to : vec3) : from <> V3 0 0 0 -> to <> V3 0 0 0 -> ~ opposite from to ->
  exists M, AxisTransform2V from to = Some M /\ rotation M /\ mv3 M (direction from) = direction to.
Proof.
  intros nf nt no. unfold AxisTransform2V.
  pose proof (normalized_unit from nf) as uf. pose proof (normalized_unit to nt) as ut.
  assert (D : forall a, a <> V3 0 0 0 -> direction a = normalized a).
  { intros a na. pose proof (normalized_unit a na) as u. unfold normalized in *. unfold direction, norm, vscale.
    destruct (Rlt_dec 0 (dot a a)) as [p|p].
    - unfold dot in *. f_equal; unfold Rdiv; ring.
    - exfalso. unfold unit_vec in u. unfold dot in p. lra. }
  unfold opposite in no. rewrite !D in * by assumption.
  set (u := normalized from) in *. set (v := normalized to) in *.
  rewrite (unit_dot u uf), (unit_dot v ut). destruct (Req_EM_T (1 * 1) 0); [lra|].
  replace (dot u v / (1 * 1)) with (dot u v) by field.
  eexists. split; [reflexivity|].
  assert (dec : cross u v = V3 0 0 0 \/ cross u v <> V3 0 0 0).
  { destruct (cross u v) as [x y z]. destruct (Req_dec x 0), (Req_dec y 0), (Req_dec z 0); subst; auto;
    right; intros h; injection h; intros; contradiction. }
  destruct dec as [c0|c0].
  - pose proof (lagrange u v uf ut) as l. rewrite c0 in l. unfold dot in l at 1; cbn [vx vy vz] in l.
    assert (d2 : dot u v = 1 \/ dot u v = -1).
    { assert ((dot u v - 1) * (dot u v + 1) = 0) by lra. apply Rmult_integral in H. destruct H; [left|right]; lra. }
    assert (uv : dot u v = 1).
    { destruct d2 as [d|d]; [exact d|]. exfalso. apply no. unfold dot in d. unfold unit_vec in uf, ut.
      destruct u as [x y z], v as [x' y' z']; cbn [vx vy vz] in *. clear no c0 l.
      assert (q : (x + x') * (x + x') + (y + y') * (y + y') + (z + z') * (z + z') = 0) by lra.
      destruct (sq3 _ _ _ q) as (? & ? & ?). f_equal; lra. }
    assert (e : u = v).
    { clear no c0 l d2. unfold dot in uv. unfold unit_vec in uf, ut.
      destruct u as [x y z], v as [x' y' z']; cbn [vx vy vz] in *.
      assert (q : (x - x') * (x - x') + (y - y') * (y - y') + (z - z') * (z - z') = 0) by lra.
      destruct (sq3 _ _ _ q) as (? & ? & ?). f_equal; lra. }
    rewrite c0, uv, acos_1. unfold normalized, dot; cbn [vx vy vz]. destruct (Rlt_dec 0 _) as [q|q]; [lra|].
    assert (eI : mat_of_aa 0 (V3 0 0 0) = I3).
    { unfold mat_of_aa. rewrite sin_0, cos_0. ext; ring. }
    rewrite eI. split; [apply rotation_I|]. rewrite e. destruct v. ext; ring.
  - destruct (transform_units u v uf ut c0) as [ua e]. rewrite mat_of_aa_rot by exact ua.
    split; [apply rot_about_rotation; exact ua|exact e].
Qed.

(* opposite vectors: the result is minus the identity, not a rotation *)
Theorem C74_opposite_refuted :
  exists from to M, from <> V3 0 0 0 /\ to <> V3 0 0 0 /\ AxisTransform2V from to = Some M /\ ~ rotation M.
Proof.
  exists (V3 1 0 0), (V3 (-1) 0 0), (M3 (-1) 0 0 0 (-1) 0 0 0 (-1)).
  split; [intros h; injection h; lra|]. split; [intros h; injection h; lra|]. split.
  - unfold AxisTransform2V.
    assert (nz : forall a, dot a a = 1 -> normalized a = a).
    { intros a e. unfold normalized. rewrite e, sqrt_1. destruct (Rlt_dec 0 1); [|lra]. destruct a; ext; field. }
    rewrite !nz by (unfold dot; cbn; ring).
    assert (c0 : cross (V3 1 0 0) (V3 (-1) 0 0) = V3 0 0 0) by (ext; ring). rewrite c0.
    assert (n0 : normalized (V3 0 0 0) = V3 0 0 0).
    { unfold normalized, dot; cbn [vx vy vz]. destruct (Rlt_dec 0 _) as [q|q]; [lra|reflexivity]. }
    rewrite n0. unfold dot; cbn [vx vy vz]. destruct (Req_EM_T _ 0) as [q|q]; [lra|].
    replace (_ / _) with (-1) by field.
    f_equal. replace (acos (-1)) with PI by (replace (-1) with (- (1)) by ring; rewrite acos_opp, acos_1; ring).
    unfold mat_of_aa. rewrite sin_PI, cos_PI. ext; ring.
  - intros [_ d]. unfold det3 in d; cbn in d. lra.
Qed.

(* Examples *)
Example C38_example : mv3 (rotateWithZ (PI / 2)) (V3 1 0 0) = V3 0 1 0.
Proof. unfold rotateWithZ. rewrite cos_PI2, sin_PI2. ext; ring. Qed.
Example C39_example : rotation (rotateWithX 0) /\ rotation (rotateWithZ (PI / 2)) /\
  rotateWithX 0 <> rotateWithZ (PI / 2) /\ exists M, rotationCubic (1 / 2) 0 1 (rotateWithX 0) (rotateWithZ (PI / 2)) = Some M.
Proof.
  destruct (C38_elementary rotateWithX) as [hx _]; [auto|]. destruct (C38_elementary rotateWithZ) as [hz _]; [auto|].
  split; [apply hx|]. split; [apply hz|]. split.
  - unfold rotateWithX, rotateWithZ. rewrite cos_PI2. intros h. injection h. lra.
  - destruct (C39_rotation (1 / 2) 0 1 _ _ (hx 0) (hz (PI / 2))) as (M & e & _). now exists M.
Qed.
Example C40_example : GetPhi I3 (rotateWithZ (PI / 2)) = V3 0 0 1.
Proof. unfold GetPhi, rotateWithZ, I3, col0, col1, col2. rewrite cos_PI2, sin_PI2. ext; field. Qed.
Example C74_example : ~ opposite (V3 2 0 0) (V3 0 3 0).
Proof.
  unfold opposite, direction, norm; cbn [vx vy vz]. intros h. injection h. intros _ h2 _.
  assert (q : sqrt (0 * 0 + 3 * 3 + 0 * 0) = 3).
  { replace (0 * 0 + 3 * 3 + 0 * 0) with (3 * 3) by ring. apply sqrt_square. lra. }
  rewrite q in h2. unfold Rdiv in h2. rewrite Rmult_0_l in h2. lra.
Qed.

Print Assumptions C38_elementary.
Print Assumptions C39_rotation.
Print Assumptions C39_interpolates.
Print Assumptions C40_zero_odd_axis_partial.
Print Assumptions C40_zero_set_partial.
Print Assumptions C40_vanishes_only_at_target_refuted.
Print Assumptions C74_axis_transform_partial.
Print Assumptions C74_opposite_refuted.
