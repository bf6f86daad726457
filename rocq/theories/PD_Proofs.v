From Coq Require Import Reals ZArith List Lra Lia Ranalysis.
From Verif Require Import Spline_Model Spline_Spec Spline_Proofs Rot_Model Rot_Spec Rot_Proofs Rot_Thm PD_Model PD_Spec.
Import ListNotations.
Local Open Scope R_scope.

Ltac der :=
  lazymatch goal with
  | |- derivable_pt_lim (fun s => @?a s + @?b s) _ _ => eapply (derivable_pt_lim_plus a b); der
  | |- derivable_pt_lim (fun s => @?a s - @?b s) _ _ => eapply (derivable_pt_lim_minus a b); der
  | |- derivable_pt_lim (fun s => @?a s * @?b s) _ _ => eapply (derivable_pt_lim_mult a b); der
  | |- derivable_pt_lim (fun s => - @?a s) _ _ => eapply (derivable_pt_lim_opp a); der
  | |- derivable_pt_lim (fun s => sin (@?a s)) _ _ => eapply (derivable_pt_lim_comp a sin); [der|apply derivable_pt_lim_sin]
  | |- derivable_pt_lim (fun s => cos (@?a s)) _ _ => eapply (derivable_pt_lim_comp a cos); [der|apply derivable_pt_lim_cos]
  | |- _ => first [eassumption | apply derivable_pt_lim_id | apply (derivable_pt_lim_const _)]
  end.
Lemma lim_eq f t l l' : derivable_pt_lim f t l -> l = l' -> derivable_pt_lim f t l'.
Proof. intros h <-. exact h. Qed.

(* the world position of a point fixed to a moving link *)
Lemma point_moves L p t : moving L -> vderiv (fun s => vadd (l_x (L s)) (mv3 (l_R (L s)) p)) t
  (vadd (l_v (L t)) (cross (l_w (L t)) (mv3 (l_R (L t)) p))).
Proof.
  intros M. destruct (M t) as ((x1 & x2 & x3) & ((a1 & a2 & a3) & (b1 & b2 & b3) & (c1 & c2 & c3)) & _).
  unfold mm3, hat in *. cbn [m00 m01 m02 m10 m11 m12 m20 m21 m22 vx vy vz] in *.
  unfold vderiv, vadd, mv3, cross; cbn [vx vy vz]. repeat split.
  all: eapply lim_eq; [der|unfold id; cbn beta; ring].
Qed.

(* Rodrigues' formula along an angle function *)
Lemma hat3 a : mm3 (hat a) (mm3 (hat a) (hat a)) = mscale (- (vx a * vx a + vy a * vy a + vz a * vz a)) (hat a).
Proof. destruct a as [x y z]. ext; ring. Qed.
Lemma mm3_addr A B C : mm3 A (madd B C) = madd (mm3 A B) (mm3 A C).
Proof. ext; ring. Qed.
Lemma mm3_scaler A k B : mm3 A (mscale k B) = mscale k (mm3 A B).
Proof. ext; ring. Qed.
Lemma mm3_scalel A k B : mm3 (mscale k A) B = mscale k (mm3 A B).
Proof. ext; ring. Qed.
Lemma hat_scale w a : hat (vscale w a) = mscale w (hat a).
Proof. ext; ring. Qed.
Lemma mix H X s c : madd H (madd (mscale s X) (mscale (1 - c) (mscale (- (1)) H))) = madd (mscale c H) (mscale s X).
Proof. destruct H, X. ext; ring. Qed.
Lemma mderiv_mmr F A t D : mderiv F t D -> mderiv (fun s => mm3 (F s) A) t (mm3 D A).
Proof.
  intros ((a1 & a2 & a3) & (b1 & b2 & b3) & (c1 & c2 & c3)).
  unfold mderiv, mm3; cbn [m00 m01 m02 m10 m11 m12 m20 m21 m22]. repeat split.
  all: eapply lim_eq; [der|cbn beta; ring].
Qed.
Lemma mderiv_lin C H X f g t df dg : derivable_pt_lim f t df -> derivable_pt_lim g t dg ->
  mderiv (fun s => madd C (madd (mscale (f s) H) (mscale (g s) X))) t (madd (mscale df H) (mscale dg X)).
Proof.
  intros hf hg. unfold mderiv, madd, mscale; cbn [m00 m01 m02 m10 m11 m12 m20 m21 m22]. repeat split.
  all: eapply lim_eq; [der|cbn beta; ring].
Qed.
Lemma mscale_lin w a b H X : mscale w (madd (mscale a H) (mscale b X)) = madd (mscale (a * w) H) (mscale (b * w) X).
Proof. ext; ring. Qed.
Lemma rot_about_moves a (th : R -> R) A t w : unit_vec a -> derivable_pt_lim th t w ->
  angular_velocity (fun s => mm3 (rot_about a (th s)) A) t (vscale w a).
Proof.
  unfold unit_vec. intros u d.
  unfold angular_velocity. rewrite mm3A.
  assert (e : mm3 (hat (vscale w a)) (rot_about a (th t)) =
    mscale w (madd (mscale (cos (th t)) (hat a)) (mscale (sin (th t)) (mm3 (hat a) (hat a))))).
  { unfold rot_about. rewrite hat_scale, mm3_scalel, !mm3_addr, !mm3_scaler, mm3_1r, hat3, u. f_equal. apply mix. }
  rewrite e, mscale_lin. apply (mderiv_mmr (fun s => rot_about a (th s))).
  apply (mderiv_lin I3 (hat a) (mm3 (hat a) (hat a)) (fun s => sin (th s)) (fun s => 1 - cos (th s))).
  - der.
  - eapply lim_eq; [der|cbn beta; ring].
Qed.

(* quaternions *)
Lemma qmatE q : qmat q = mat_of_quat q.
Proof. unfold qmat, mat_of_quat. f_equal; ring. Qed.
(* in homogeneous form the conversion is multiplicative *)
Definition hmat (q : quat) : mat3 :=
  let w := qw q in let x := vx (qv q) in let y := vy (qv q) in let z := vz (qv q) in
  M3 (w * w + x * x - y * y - z * z) (2 * (x * y - w * z)) (2 * (x * z + w * y))
     (2 * (x * y + w * z)) (w * w - x * x + y * y - z * z) (2 * (y * z - w * x))
     (2 * (x * z - w * y)) (2 * (y * z + w * x)) (w * w - x * x - y * y + z * z).
Lemma hmat_unit q : qunit q -> hmat q = mat_of_quat q.
Proof.
  unfold qunit, dot, hmat, mat_of_quat. intros u. f_equal; lra.
Qed.
Lemma hmat_mul a b : hmat (qmul a b) = mm3 (hmat a) (hmat b).
Proof. unfold hmat, qmul. destruct a as [a [x y z]], b as [b [p q r]]. ext; ring. Qed.
Lemma qunit_mul a b : qunit a -> qunit b -> qunit (qmul a b).
Proof.
  unfold qunit, qmul, dot, vadd, vscale, cross. destruct a as [a [x y z]], b as [b [p q r]]. cbn [qw qv vx vy vz].
  intros ua ub. transitivity ((a * a + (x * x + y * y + z * z)) * (b * b + (p * p + q * q + r * r))); [ring|].
  rewrite ua, ub. ring.
Qed.
Lemma qmat_mul a b : qunit a -> qunit b -> qmat (qmul a b) = mm3 (qmat a) (qmat b).
Proof.
  intros ua ub. rewrite !qmatE, <- !hmat_unit by (try apply qunit_mul; assumption). apply hmat_mul.
Qed.
Lemma qinverse_unit a : qunit a -> qinverse a = Q4 (qw a) (vscale (-1) (qv a)).
Proof.
  unfold qunit, qinverse. intros u. rewrite u. destruct (Rlt_dec 0 1); [|lra].
  destruct a as [w [x y z]]; cbn [qw qv]. unfold vscale; cbn [vx vy vz]. f_equal; [field|f_equal; field].
Qed.
Definition qrel (a b : quat) : quat := qmul b (Q4 (qw a) (vscale (-1) (qv a))).
Lemma qrel_unit a b : qunit a -> qunit b -> qunit (qrel a b).
Proof.
  intros ua ub. apply qunit_mul; [exact ub|]. revert ua. unfold qunit, dot, vscale; cbn [qw qv vx vy vz]. intros <-. ring.
Qed.
Lemma qrel_dot a b : qw (qrel a b) = qdot a b.
Proof. unfold qrel, qmul, qdot, dot, vscale; cbn [qw qv vx vy vz]. ring. Qed.
Lemma qrel_mul a b : qunit a -> qmul (qrel a b) a = b.
Proof.
  unfold qunit, dot. intros u. destruct a as [a [x y z]], b as [b [p q r]]; cbn [qw qv vx vy vz] in u.
  transitivity (Q4 (b * (a * a + (x * x + y * y + z * z))) (vscale (a * a + (x * x + y * y + z * z)) (V3 p q r))).
  2:{ rewrite u. unfold vscale; cbn [vx vy vz]. f_equal; [ring|f_equal; ring]. }
  unfold qrel, qmul, dot, vadd, vscale, cross; cbn [qw qv vx vy vz]. f_equal; [ring|f_equal; ring].
Qed.

(* slerp turns about the axis of the relative rotation, through the same fraction of its angle *)
Definition qaa (h : R) (a : vec3) : quat := Q4 (cos h) (vscale (sin h) a).
Lemma qaa_unit h a : unit_vec a -> qunit (qaa h a).
Proof.
  unfold unit_vec, qunit, qaa, dot, vscale; cbn [qw qv vx vy vz]. intros u.
  pose proof (sin2_cos2 h) as e. unfold Rsqr in e.
  transitivity (cos h * cos h + sin h * sin h * (vx a * vx a + vy a * vy a + vz a * vz a)); [ring|]. rewrite u. lra.
Qed.
Lemma qaa_mat h a : unit_vec a -> qmat (qaa h a) = rot_about a (2 * h).
Proof.
  unfold unit_vec. intros u. unfold rot_about. rewrite sin_2a, cos_2a_sin.
  unfold qmat, qaa. destruct a as [x y z]. cbn [vx vy vz] in u. set (s := sin h). set (c := cos h).
  ext; ring.
Qed.
Lemma slerp_turns one t a b : qunit a -> qunit b -> one <= 1 -> Rabs (qdot a b) < one ->
  let r := aa_of_quat (qrel a b) in
  slerp one t a b = qmul (qaa (t * (fst r / 2)) (snd r)) a.
Proof.
  intros ua ub o1 hd. cbn zeta.
  pose proof (qrel_unit a b ua ub) as ur. pose proof (qrel_mul a b ua) as eb. pose proof (qrel_dot a b) as ed.
  set (d := qdot a b) in *. unfold slerp. fold d.
  destruct (Rle_dec one (Rabs d)) as [?|_]; [lra|].
  set (r := qrel a b) in *. unfold qunit in ur. rewrite ed in ur.
  set (n2 := dot (qv r) (qv r)) in *.
  assert (d2 : d * d < 1). { rewrite <- (Rabs_right (d * d)) by nra. rewrite Rabs_mult. pose proof (Rabs_pos d). nra. }
  assert (np : 0 < n2) by lra.
  assert (sn : 0 < sqrt n2) by (apply sqrt_lt_R0; exact np).
  assert (ss : sqrt n2 * sqrt n2 = n2) by (apply sqrt_sqrt; lra).
  unfold aa_of_quat. fold n2. rewrite ed. destruct (Req_EM_T (sqrt n2) 0) as [?|_]; [lra|]. cbn [fst snd].
  set (n := sqrt n2) in *.
  assert (ad : Rabs d * Rabs d = d * d). { rewrite <- Rabs_mult. apply Rabs_right. nra. }
  destruct (atan2_first n (Rabs d) sn (Rabs_pos d)) as (ec & es & rg).
  { rewrite ss, ad. lra. }
  set (phi := atan2 n (Rabs d)) in *.
  assert (ea : acos (Rabs d) = phi). { rewrite <- ec. apply acos_cos. pose proof PI_RGT_0. lra. }
  rewrite ea, es. replace (t * (2 * phi / 2)) with (t * phi) by field.
  replace ((1 - t) * phi) with (phi - t * phi) by ring. rewrite sin_minus, es, ec.
  unfold qaa. set (S := sin (t * phi)). set (C := cos (t * phi)).
  assert (k : exists k, k * k = 1 /\ Rabs d = k * d /\ ((if Rlt_dec d 0 then - n else n) = k * n) /\
    ((if Rlt_dec d 0 then - (S / n) else S / n) = k * (S / n))).
  { destruct (Rlt_dec d 0) as [h|h]; [exists (-1)|exists 1]; repeat split; try ring.
    - rewrite Rabs_left by exact h. ring.
    - rewrite Rabs_right by lra. ring. }
  destruct k as (k & k2 & k3 & k4 & k5). rewrite k4, k5, k3.
  assert (kn : k <> 0) by nra.
  assert (ik : / (k * n) = k * / n).
  { rewrite Rinv_mult_distr by lra. f_equal. apply Rmult_eq_reg_l with k; [rewrite Rinv_r by exact kn; lra|exact kn]. }
  rewrite <- eb. clear eb. destruct r as [rw [rx ry rz]]. cbn [qw qv vx vy vz] in *. subst rw.
  unfold Rdiv. rewrite ik. clearbody S C n. clear - k2 sn.
  destruct a as [aw [ax ay az]]. unfold qmul, qaa, vadd, vscale, cross, dot; cbn [qw qv vx vy vz].
  assert (ni : n * / n = 1) by (apply Rinv_r; lra).
  set (m := / n) in *. clearbody m.
  f_equal; [|f_equal]; apply Rminus_diag_uniq.
  - transitivity ((n * m - 1) * (C * aw)); [ring|rewrite ni; ring].
  - transitivity ((n * m - 1) * (C * ax)); [ring|rewrite ni; ring].
  - transitivity ((n * m - 1) * (C * ay)); [ring|rewrite ni; ring].
  - transitivity ((n * m - 1) * (C * az)); [ring|rewrite ni; ring].
Qed.
Lemma qmat_opp q : qmat (Q4 (- qw q) (vscale (-1) (qv q))) = qmat q.
Proof. unfold qmat, vscale; cbn [qw qv vx vy vz]. f_equal; ring. Qed.

(* coincident orientations: the reference does not move *)
Lemma slerp_same one t a b : qunit a -> qunit b -> one <= 1 -> Rabs (qdot a b) = 1 ->
  qmat (slerp one t a b) = qmat a /\ fst (aa_of_quat (qrel a b)) = 0.
Proof.
  intros ua ub o1 hd.
  pose proof (qrel_unit a b ua ub) as ur. pose proof (qrel_mul a b ua) as eb. pose proof (qrel_dot a b) as ed.
  set (d := qdot a b) in *. set (r := qrel a b) in *. unfold qunit in ur. rewrite ed in ur.
  assert (d2 : d * d = 1).
  { rewrite <- (Rabs_right (d * d)) by nra. rewrite Rabs_mult, hd. ring. }
  assert (z : dot (qv r) (qv r) = 0) by lra.
  split.
  2:{ unfold aa_of_quat. rewrite z, sqrt_0. destruct (Req_EM_T 0 0) as [_|h]; [reflexivity|lra]. }
  assert (rv : qv r = vzero).
  { unfold dot in z. destruct (qv r) as [x y w]; cbn [vx vy vz] in z. unfold vzero. f_equal; nra. }
  unfold slerp. fold d. destruct (Rle_dec one (Rabs d)) as [_|?]; [|lra].
  assert (e : b = Q4 (d * qw a) (vscale d (qv a))).
  { rewrite <- eb. destruct r as [rw rr]. cbn [qw qv] in *. subst rw rr. unfold qmul, vzero. destruct a as [aw [ax ay az]].
    unfold dot, vadd, vscale, cross; cbn [qw qv vx vy vz]. f_equal; [ring|f_equal; ring]. }
  rewrite e. cbn [qw qv]. destruct (Rlt_dec d 0) as [h|h].
  - assert (d = -1) by nra. replace d with (-1) by lra. f_equal. destruct a as [aw [ax ay az]].
    unfold vadd, vscale; cbn [qw qv vx vy vz]. f_equal; [ring|f_equal; ring].
  - assert (d = 1) by nra. replace d with 1 by lra. f_equal. destruct a as [aw [ax ay az]].
    unfold vadd, vscale; cbn [qw qv vx vy vz]. f_equal; [ring|f_equal; ring].
Qed.

(* the reference orientation *)
Lemma rot_path one ts te A B : ts < te -> one <= 1 -> rotation A -> rotation B ->
  Rabs (qdot (quat_of_mat A) (quat_of_mat B)) < one \/ A = B ->
  exists (a : vec3) (th : R) (s v w : R -> R), unit_vec a /\ 0 <= th <= PI /\ B = mm3 (rot_about a th) A /\
  (forall t, QuinticSpline t ts te 0 0 0 1 0 0 = Some (V3 (s t) (v t) (w t))) /\
  forall t, rot_traj one t ts te A B = Some (mm3 (rot_about a (th * s t)) A, vscale (th * v t) a, vscale (th * w t) a).
Proof.
  intros lt o1 hA hB sep.
  destruct (quat_of_mat_ok A hA) as [uA eA]. destruct (quat_of_mat_ok B hB) as [uB eB].
  set (a := quat_of_mat A) in *. set (b := quat_of_mat B) in *.
  pose proof (qrel_unit a b uA uB) as ur. destruct (aa_of_quat_ok _ ur) as (u & rg & e).
  exists (snd (aa_of_quat (qrel a b))), (fst (aa_of_quat (qrel a b))).
  exists (fun t => glue ts te 0 1 (pos ts te 0 0 0 1 0 0) t), (fun t => glue ts te 0 0 (vel ts te 0 0 0 1 0 0) t),
    (fun t => glue ts te 0 0 (acc ts te 0 0 0 1 0 0) t).
  split; [exact u|]. split; [exact rg|].
  split.
  { rewrite <- mat_of_aa_rot by exact u. rewrite e, <- eA, <- eB, <- !qmatE, <- qmat_mul by assumption. now rewrite qrel_mul. }
  split; [intros t; apply quintic_eq; exact lt|].
  intros t. unfold rot_traj. rewrite quintic_eq by exact lt. cbn [vx vy vz]. fold a b.
  rewrite qinverse_unit by exact uA. fold (qrel a b).
  set (s := glue _ _ _ _ _ _). do 3 f_equal.
  destruct sep as [sep|same].
  - rewrite (slerp_turns one s a b uA uB o1 sep). rewrite qmat_mul by (try apply qaa_unit; assumption).
    rewrite qaa_mat by exact u. rewrite (qmatE a), eA. do 2 f_equal. field.
  - assert (ab : a = b) by (unfold a, b; now rewrite same).
    destruct (slerp_same one s a b uA uB o1) as [e1 e2].
    { rewrite <- ab. unfold qdot. unfold qunit in uA. rewrite uA. apply Rabs_R1. }
    rewrite e1, e2, qmatE, eA, Rmult_0_l, rot_about_0. now rewrite mm3_1l.
Qed.
