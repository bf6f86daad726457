From Coq Require Import Reals Lra Lia Ranalysis Nsatz.
From Verif Require Import Spline_Model Spline_Spec Spline_Proofs Rot_Model Rot_Spec.
Local Open Scope R_scope.

Ltac ext := unfold mm3, tr3, mv3, cross, dot, vadd, vscale, I3, madd, mscale, hat; cbn [m00 m01 m02 m10 m11 m12 m20 m21 m22 vx vy vz qw qv]; cbn zeta; f_equal.

Lemma mm3A A B C : mm3 A (mm3 B C) = mm3 (mm3 A B) C.
Proof. ext; ring. Qed.
Lemma mm3_1l A : mm3 I3 A = A.
Proof. destruct A; ext; ring. Qed.
Lemma mm3_1r A : mm3 A I3 = A.
Proof. destruct A; ext; ring. Qed.
Lemma tr3_mm A B : tr3 (mm3 A B) = mm3 (tr3 B) (tr3 A).
Proof. ext; ring. Qed.
Lemma tr3K A : tr3 (tr3 A) = A.
Proof. destruct A; reflexivity. Qed.
Lemma det3_mm A B : det3 (mm3 A B) = det3 A * det3 B.
Proof. unfold det3, mm3; cbn [m00 m01 m02 m10 m11 m12 m20 m21 m22]. ring. Qed.
Lemma det3_tr A : det3 (tr3 A) = det3 A.
Proof. unfold det3, tr3; cbn [m00 m01 m02 m10 m11 m12 m20 m21 m22]. ring. Qed.

Definition adj3 (M : mat3) : mat3 := M3
    (m11 M * m22 M - m12 M * m21 M) (m02 M * m21 M - m01 M * m22 M) (m01 M * m12 M - m02 M * m11 M)
    (m12 M * m20 M - m10 M * m22 M) (m00 M * m22 M - m02 M * m20 M) (m02 M * m10 M - m00 M * m12 M)
    (m10 M * m21 M - m11 M * m20 M) (m01 M * m20 M - m00 M * m21 M) (m00 M * m11 M - m01 M * m10 M).
Lemma mm3_adj M : det3 M = 1 -> mm3 M (adj3 M) = I3.
Proof. intros d. unfold det3 in d. unfold adj3. ext; lra. Qed.

Lemma rotation_adj M : rotation M -> adj3 M = tr3 M.
Proof.
  intros [o d]. rewrite <- (mm3_1l (adj3 M)), <- o, <- mm3A, mm3_adj by exact d. apply mm3_1r.
Qed.
Lemma rotation_r M : rotation M -> mm3 M (tr3 M) = I3.
Proof. intros h. rewrite <- rotation_adj by exact h. apply mm3_adj, h. Qed.
Lemma rotation_tr M : rotation M -> rotation (tr3 M).
Proof. intros h. split; [rewrite tr3K; now apply rotation_r|rewrite det3_tr; apply h]. Qed.
Lemma rotation_mm A B : rotation A -> rotation B -> rotation (mm3 A B).
Proof.
  intros [oa da] [ob db]. split; [|rewrite det3_mm, da, db; ring].
  rewrite tr3_mm, <- mm3A, (mm3A (tr3 A)), oa, mm3_1l. exact ob.
Qed.
Lemma rotation_I : rotation I3.
Proof. split; [ext; ring|unfold det3, I3; cbn; ring]. Qed.

(* the scalar equations of a rotation *)
Lemma rotation_eqs M : rotation M ->
  (m00 M * m00 M + m10 M * m10 M + m20 M * m20 M = 1 /\ m01 M * m01 M + m11 M * m11 M + m21 M * m21 M = 1 /\
   m02 M * m02 M + m12 M * m12 M + m22 M * m22 M = 1) /\
  (m00 M * m00 M + m01 M * m01 M + m02 M * m02 M = 1 /\ m10 M * m10 M + m11 M * m11 M + m12 M * m12 M = 1 /\
   m20 M * m20 M + m21 M * m21 M + m22 M * m22 M = 1) /\
  (m00 M * m01 M + m10 M * m11 M + m20 M * m21 M = 0 /\ m00 M * m02 M + m10 M * m12 M + m20 M * m22 M = 0 /\
   m01 M * m02 M + m11 M * m12 M + m21 M * m22 M = 0) /\
  (m00 M * m10 M + m01 M * m11 M + m02 M * m12 M = 0 /\ m00 M * m20 M + m01 M * m21 M + m02 M * m22 M = 0 /\
   m10 M * m20 M + m11 M * m21 M + m12 M * m22 M = 0) /\
  (m11 M * m22 M - m12 M * m21 M = m00 M /\ m02 M * m21 M - m01 M * m22 M = m10 M /\ m01 M * m12 M - m02 M * m11 M = m20 M /\
   m12 M * m20 M - m10 M * m22 M = m01 M /\ m00 M * m22 M - m02 M * m20 M = m11 M /\ m02 M * m10 M - m00 M * m12 M = m21 M /\
   m10 M * m21 M - m11 M * m20 M = m02 M /\ m01 M * m20 M - m00 M * m21 M = m12 M /\ m00 M * m11 M - m01 M * m10 M = m22 M).
Proof.
  intros h. pose proof (rotation_adj M h) as a. pose proof (rotation_r M h) as r. destruct h as [l _].
  unfold adj3, tr3 in a. unfold mm3, tr3, I3 in l, r. cbn [m00 m01 m02 m10 m11 m12 m20 m21 m22] in l, r.
  injection a; injection l; injection r; intros. repeat split; lra.
Qed.

(* unit quaternion to matrix *)
Definition mat_of_quat (q : quat) : mat3 :=
  let w := qw q in let x := vx (qv q) in let y := vy (qv q) in let z := vz (qv q) in
  M3 (1 - 2 * (y * y + z * z)) (2 * (x * y - w * z)) (2 * (x * z + w * y))
     (2 * (x * y + w * z)) (1 - 2 * (x * x + z * z)) (2 * (y * z - w * x))
     (2 * (x * z - w * y)) (2 * (y * z + w * x)) (1 - 2 * (x * x + y * y)).
Definition qunit (q : quat) : Prop := qw q * qw q + dot (qv q) (qv q) = 1.

Lemma quot_sq s a b : 0 < s -> (a * (1 / 2 / s)) * (b * (1 / 2 / s)) = a * b / (4 * (s * s)).
Proof. intros. field. lra. Qed.
Lemma quot_lin s a : 0 < s -> (1 / 2 * s) * (a * (1 / 2 / s)) = a / 4.
Proof. intros. field. lra. Qed.
Lemma quot_lin' s a : 0 < s -> (a * (1 / 2 / s)) * (1 / 2 * s) = a / 4.
Proof. intros. field. lra. Qed.
Lemma quot_half s : (1 / 2 * s) * (1 / 2 * s) = s * s / 4.
Proof. field. Qed.
Lemma div_is T a b : 0 < T -> a = b * (4 * T) -> a / (4 * T) = b.
Proof. intros. subst. field. lra. Qed.

Lemma quat_of_mat_ok M : rotation M -> qunit (quat_of_mat M) /\ mat_of_quat (quat_of_mat M) = M.
Proof.
  intros h. destruct (rotation_eqs M h) as ((c0 & c1 & c2) & (r0 & r1 & r2) & (p0 & p1 & p2) & (q0 & q1 & q2) &
    (k0 & k1 & k2 & k3 & k4 & k5 & k6 & k7 & k8)).
  unfold quat_of_mat. destruct M as [a b c d e f g i j]. cbn [m00 m01 m02 m10 m11 m12 m20 m21 m22] in *. clear h.
  assert (P : forall T, 0 < T -> exists s, 0 < s /\ s * s = T /\ sqrt T = s).
  { intros T tp. exists (sqrt T). split; [apply sqrt_lt_R0; exact tp|]. split; [apply sqrt_sqrt; lra|reflexivity]. }
  Ltac fin s sp ss T := rewrite ?quot_sq, ?quot_lin, ?quot_lin', ?quot_half by exact sp; rewrite ss.
  destruct (Rlt_dec 0 (a + e + j)) as [t0|t0].
  - destruct (P (a + e + j + 1)) as (s & sp & ss & ->); [lra|].
    set (T := a + e + j + 1) in *. assert (Tp : 0 < T) by (unfold T; lra).
    assert (E : forall u v w, u * v = w * (4 * T) -> (u * (1 / 2 / s)) * (v * (1 / 2 / s)) = w).
    { intros u v w E. rewrite quot_sq, ss by exact sp. apply div_is; assumption. }
    assert (xx : ((i - f) * (1 / 2 / s)) * ((i - f) * (1 / 2 / s)) = (1 + a - e - j) / 4) by (apply E; unfold T; lra).
    assert (yy : ((c - g) * (1 / 2 / s)) * ((c - g) * (1 / 2 / s)) = (1 + e - a - j) / 4) by (apply E; unfold T; lra).
    assert (zz : ((d - b) * (1 / 2 / s)) * ((d - b) * (1 / 2 / s)) = (1 + j - e - a) / 4) by (apply E; unfold T; lra).
    assert (xy : ((i - f) * (1 / 2 / s)) * ((c - g) * (1 / 2 / s)) = (b + d) / 4) by (apply E; unfold T; lra).
    assert (xz : ((i - f) * (1 / 2 / s)) * ((d - b) * (1 / 2 / s)) = (c + g) / 4) by (apply E; unfold T; lra).
    assert (yz : ((c - g) * (1 / 2 / s)) * ((d - b) * (1 / 2 / s)) = (f + i) / 4) by (apply E; unfold T; lra).
    unfold qunit, dot, mat_of_quat; cbn [qw qv vx vy vz]. rewrite xx, yy, zz, xy, xz, yz, !quot_lin, quot_half, ss by exact sp.
    split; [|f_equal]; unfold T; lra.
  - set (B := if Rlt_dec a e then e else a).
    destruct (Rlt_dec B j) as [h2|h2].
    + assert (a < j /\ e < j) as [aj ej] by (unfold B in h2; destruct (Rlt_dec a e); lra).
      destruct (P (j - a - e + 1)) as (s & sp & ss & ->); [lra|].
      set (T := j - a - e + 1) in *. assert (Tp : 0 < T) by (unfold T; lra).
      assert (E : forall u v w, u * v = w * (4 * T) -> (u * (1 / 2 / s)) * (v * (1 / 2 / s)) = w).
      { intros u v w E. rewrite quot_sq, ss by exact sp. apply div_is; assumption. }
      assert (ww : ((d - b) * (1 / 2 / s)) * ((d - b) * (1 / 2 / s)) = (1 + a + e + j) / 4) by (apply E; unfold T; lra).
      assert (xx : ((c + g) * (1 / 2 / s)) * ((c + g) * (1 / 2 / s)) = (1 + a - e - j) / 4) by (apply E; unfold T; lra).
      assert (yy : ((f + i) * (1 / 2 / s)) * ((f + i) * (1 / 2 / s)) = (1 + e - a - j) / 4) by (apply E; unfold T; lra).
      assert (xy : ((c + g) * (1 / 2 / s)) * ((f + i) * (1 / 2 / s)) = (b + d) / 4) by (apply E; unfold T; lra).
      assert (wx : ((d - b) * (1 / 2 / s)) * ((c + g) * (1 / 2 / s)) = (i - f) / 4) by (apply E; unfold T; lra).
      assert (wy : ((d - b) * (1 / 2 / s)) * ((f + i) * (1 / 2 / s)) = (c - g) / 4) by (apply E; unfold T; lra).
      unfold qunit, dot, mat_of_quat; cbn [qw qv vx vy vz]. rewrite ww, xx, yy, xy, wx, wy, !quot_lin', quot_half, ss by exact sp.
      split; [|f_equal]; unfold T; lra.
    + destruct (Rlt_dec a e) as [h3|h3]; unfold B in h2.
      * destruct (P (e - j - a + 1)) as (s & sp & ss & ->); [lra|].
        set (T := e - j - a + 1) in *. assert (Tp : 0 < T) by (unfold T; lra).
        assert (E : forall u v w, u * v = w * (4 * T) -> (u * (1 / 2 / s)) * (v * (1 / 2 / s)) = w).
        { intros u v w E. rewrite quot_sq, ss by exact sp. apply div_is; assumption. }
        assert (ww : ((c - g) * (1 / 2 / s)) * ((c - g) * (1 / 2 / s)) = (1 + a + e + j) / 4) by (apply E; unfold T; lra).
        assert (xx : ((b + d) * (1 / 2 / s)) * ((b + d) * (1 / 2 / s)) = (1 + a - e - j) / 4) by (apply E; unfold T; lra).
        assert (zz : ((i + f) * (1 / 2 / s)) * ((i + f) * (1 / 2 / s)) = (1 + j - a - e) / 4) by (apply E; unfold T; lra).
        assert (xz : ((b + d) * (1 / 2 / s)) * ((i + f) * (1 / 2 / s)) = (c + g) / 4) by (apply E; unfold T; lra).
        assert (wx : ((c - g) * (1 / 2 / s)) * ((b + d) * (1 / 2 / s)) = (i - f) / 4) by (apply E; unfold T; lra).
        assert (wz : ((c - g) * (1 / 2 / s)) * ((i + f) * (1 / 2 / s)) = (d - b) / 4) by (apply E; unfold T; lra).
        unfold qunit, dot, mat_of_quat; cbn [qw qv vx vy vz].
        rewrite ww, xx, zz, xz, wx, wz, ?quot_lin, ?quot_lin', ?quot_half, ss by exact sp.
        split; [|f_equal]; unfold T; lra.
      * destruct (P (a - e - j + 1)) as (s & sp & ss & ->); [lra|].
        set (T := a - e - j + 1) in *. assert (Tp : 0 < T) by (unfold T; lra).
        assert (E : forall u v w, u * v = w * (4 * T) -> (u * (1 / 2 / s)) * (v * (1 / 2 / s)) = w).
        { intros u v w E. rewrite quot_sq, ss by exact sp. apply div_is; assumption. }
        assert (ww : ((i - f) * (1 / 2 / s)) * ((i - f) * (1 / 2 / s)) = (1 + a + e + j) / 4) by (apply E; unfold T; lra).
        assert (yy : ((d + b) * (1 / 2 / s)) * ((d + b) * (1 / 2 / s)) = (1 + e - a - j) / 4) by (apply E; unfold T; lra).
        assert (zz : ((g + c) * (1 / 2 / s)) * ((g + c) * (1 / 2 / s)) = (1 + j - a - e) / 4) by (apply E; unfold T; lra).
        assert (yz : ((d + b) * (1 / 2 / s)) * ((g + c) * (1 / 2 / s)) = (f + i) / 4) by (apply E; unfold T; lra).
        assert (wy : ((i - f) * (1 / 2 / s)) * ((d + b) * (1 / 2 / s)) = (c - g) / 4) by (apply E; unfold T; lra).
        assert (wz : ((i - f) * (1 / 2 / s)) * ((g + c) * (1 / 2 / s)) = (d - b) / 4) by (apply E; unfold T; lra).
        unfold qunit, dot, mat_of_quat; cbn [qw qv vx vy vz].
        rewrite ww, yy, zz, yz, wy, wz, ?quot_lin, ?quot_lin', ?quot_half, ss by exact sp.
        split; [|f_equal]; unfold T; lra.
Qed.

(* angle-axis *)
Lemma atan2_first n c : 0 < n -> 0 <= c -> n * n + c * c = 1 ->
  cos (atan2 n c) = c /\ sin (atan2 n c) = n /\ 0 < atan2 n c <= PI / 2.
Proof.
  intros np cp e. unfold atan2. destruct (Rlt_dec 0 c) as [h|h].
  - assert (s : sqrt (1 + (n / c)²) = / c).
    { replace (1 + (n / c)²) with ((/ c) * (/ c)).
      - apply sqrt_square. left. now apply Rinv_0_lt_compat.
      - unfold Rsqr. replace (/ c * / c) with ((n * n + c * c) * (/ c * / c)) by (rewrite e; ring). field. lra. }
    rewrite cos_atan, sin_atan, s. split; [field; lra|]. split; [field; lra|].
    pose proof (atan_bound (n / c)). split; [|lra]. rewrite <- atan_0. apply atan_increasing.
    apply Rdiv_lt_0_compat; assumption.
  - assert (c = 0) by lra. subst c. destruct (Rlt_dec 0 0); [lra|]. destruct (Rlt_dec 0 n); [|lra].
    assert (n = 1) by nra. subst n. rewrite cos_PI2, sin_PI2. pose proof PI_RGT_0. lra.
Qed.

Lemma mat_of_aa_rot a t : unit_vec a -> mat_of_aa t a = rot_about a t.
Proof.
  unfold unit_vec, mat_of_aa, rot_about. intros u. ext; try ring.
  - rewrite Rmult_assoc. replace (vx a * vx a) with (1 - vy a * vy a - vz a * vz a) by lra. ring.
  - rewrite Rmult_assoc. replace (vy a * vy a) with (1 - vx a * vx a - vz a * vz a) by lra. ring.
  - rewrite Rmult_assoc. replace (vz a * vz a) with (1 - vy a * vy a - vx a * vx a) by lra. ring.
Qed.

Lemma aa_of_quat_ok q : qunit q ->
  let r := aa_of_quat q in
  unit_vec (snd r) /\ 0 <= fst r <= PI /\ mat_of_aa (fst r) (snd r) = mat_of_quat q.
Proof.
  unfold qunit. destruct q as [w [x y z]]. cbn [qw qv]. intros u. unfold aa_of_quat; cbn [qw qv vx vy vz].
  set (N := dot (V3 x y z) (V3 x y z)) in *.
  assert (Np : 0 <= N) by (unfold N, dot; cbn [vx vy vz]; nra).
  pose proof (sqrt_sqrt N Np) as ss. pose proof (sqrt_pos N) as sp. set (n := sqrt N) in *.
  destruct (Req_EM_T n 0) as [n0|n0].
  - cbn [fst snd]. pose proof PI_RGT_0. split; [unfold unit_vec; cbn; ring|]. split; [lra|].
    assert (N0 : N = 0) by (rewrite <- ss, n0; ring). unfold N, dot in N0; cbn [vx vy vz] in N0.
    assert (x = 0) by nra. assert (y = 0) by nra. assert (z = 0) by nra. subst x y z.
    unfold mat_of_aa, mat_of_quat. rewrite cos_0, sin_0. ext; ring.
  - assert (np : 0 < n) by lra.
    destruct (atan2_first n (Rabs w)) as (cc & sn & bd); [exact np|apply Rabs_pos| |].
    { rewrite ss, <- Rabs_mult, Rabs_pos_eq by nra. lra. }
    cbn [fst snd]. set (s := if Rlt_dec w 0 then - n else n).
    assert (sq : s * s = N) by (unfold s; destruct (Rlt_dec w 0); lra).
    assert (s0 : s <> 0) by (unfold s; destruct (Rlt_dec w 0); lra).
    assert (sw : n * Rabs w = s * w).
    { unfold s. destruct (Rlt_dec w 0); [rewrite Rabs_left by lra; ring|rewrite Rabs_pos_eq by lra; ring]. }
    assert (c2 : cos (2 * atan2 n (Rabs w)) = 1 - 2 * (s * s)).
    { rewrite cos_2a, cc, sn, sq, ss. replace (Rabs w * Rabs w) with (w * w) by (rewrite <- Rabs_mult, Rabs_pos_eq by nra; ring). lra. }
    assert (s2 : sin (2 * atan2 n (Rabs w)) = 2 * (s * w)).
    { rewrite sin_2a, cc, sn, <- sw. ring. }
    assert (un : unit_vec (V3 (x / s) (y / s) (z / s))).
    { unfold unit_vec; cbn [vx vy vz]. unfold N, dot in sq; cbn [vx vy vz] in sq.
      replace (x / s * (x / s) + y / s * (y / s) + z / s * (z / s)) with ((x * x + y * y + z * z) / (s * s)) by (field; exact s0).
      rewrite sq. field. rewrite <- sq. nra. }
    split; [exact un|]. split; [lra|].
    assert (xyz : s * s = x * x + y * y + z * z) by (rewrite sq; reflexivity).
    rewrite mat_of_aa_rot by exact un. unfold rot_about, mat_of_quat. rewrite c2, s2. ext; cbn [qw qv vx vy vz]; field; exact s0.
Qed.

(* the angle-axis form of a rotation *)
Lemma angle_axis M : rotation M -> let r := aa_of_quat (quat_of_mat M) in
  unit_vec (snd r) /\ 0 <= fst r <= PI /\ mat_of_aa (fst r) (snd r) = M.
Proof.
  intros h. destruct (quat_of_mat_ok M h) as [u e]. cbn zeta.
  destruct (aa_of_quat_ok _ u) as (a & b & c). rewrite c, e. auto.
Qed.

Lemma rot_about_rotation a t : unit_vec a -> rotation (rot_about a t).
Proof.
  intros u. rewrite <- mat_of_aa_rot by exact u. unfold unit_vec in u. destruct a as [x y z]; cbn [vx vy vz] in u.
  pose proof (sin2_cos2 t) as sc. unfold Rsqr in sc. set (s := sin t) in *. set (c := cos t) in *.
  unfold rotation, mat_of_aa, det3. fold s c. clearbody s c. split.
  - ext; nsatz.
  - ext; nsatz.
Qed.
