From mathcomp Require Import all_ssreflect all_algebra.
From mathcomp.algebra_tactics Require Import ring.
From Verif Require Import LinAlg Geo_Model Geo_Spec Geo_Proofs Dyn_Model Dyn_Spec Dyn_Proofs.
From Verif Require Import Redis_Model Redis_Spec Redis_Proofs.
Set Implicit Arguments.
Unset Strict Implicit.
Unset Printing Implicit Defensive.
Import Order.TTheory GRing.Theory Num.Theory.
Local Open Scope ring_scope.

Section Rot.
Variable R : rcfType.
Local Notation W12 := 'cV[R]_((3 + 3) + (3 + 3)).
Implicit Types (F : W12) (Q : 'M[R]_3).

Lemma rot_parts Q F : [/\ force1 (force_rot_yaw Q *m F) = Q *m force1 F,
  moment1 (force_rot_yaw Q *m F) = Q *m moment1 F,
  force2 (force_rot_yaw Q *m F) = Q *m force2 F &
  moment2 (force_rot_yaw Q *m F) = Q *m moment2 F].
Proof.
have [f1 [m1 [f2 [m2 ->]]]] : exists f1 m1 f2 m2, F = col_mx (col_mx f1 m1) (col_mx f2 m2).
  exists (force1 F), (moment1 F), (force2 F), (moment2 F).
  have [h1 h2 h3 h4] := w12E (force1 F) (moment1 F) (force2 F) (moment2 F).
  by apply: w12P; rewrite ?h1 ?h2 ?h3 ?h4.
rewrite /force_rot_yaw mul_block_col !mul0mx addr0 add0r !mul_block_col !mul0mx !addr0 !add0r.
have [-> -> -> ->] := w12E f1 m1 f2 m2.
by have [-> -> -> ->] := w12E (Q *m f1) (Q *m m1) (Q *m f2) (Q *m m2).
Qed.

Lemma rot_trK Q F : rotation Q -> (force_rot_yaw Q)^T *m (force_rot_yaw Q *m F) = F.
Proof.
case=> h _; rewrite mulmxA /force_rot_yaw !tr_block_mx !trmx0 !mulmx_block.
by rewrite !mulmx0 !mul0mx !addr0 !add0r h -!scalar_mx_block mul1mx.
Qed.

Lemma rot_split Q P1 P2 F e : rotation Q ->
  split_wrench (Q *m P1) (Q *m P2) (force_rot_yaw Q *m F) e =
  force_rot_yaw Q *m split_wrench P1 P2 F e.
Proof.
move=> h; have [h1 h2 h3 h4] := rot_parts Q F.
have nf : net_force (force_rot_yaw Q *m F) = Q *m net_force F by rewrite /net_force h1 h3 mulmxDr.
have nm o : net_moment (Q *m o) (Q *m P1) (Q *m P2) (force_rot_yaw Q *m F) = Q *m net_moment o P1 P2 F.
  by rewrite /net_moment h1 h2 h3 h4 -!mulmxBr !cross_rot // !mulmxDr.
rewrite {1}/split_wrench nf !scalemxAr -mulmxDr nm -!scalemxAr.
have [g1 g2 g3 g4] := rot_parts Q (split_wrench P1 P2 F e).
have [k1 k2 k3 k4] := w12E (e *: net_force F)
    (e *: net_moment (e *: P1 + (1 - e) *: P2) P1 P2 F) ((1 - e) *: net_force F)
    ((1 - e) *: net_moment (e *: P1 + (1 - e) *: P2) P1 P2 F).
have [l1 l2 l3 l4] := w12E (e *: (Q *m net_force F))
    (e *: (Q *m net_moment (e *: P1 + (1 - e) *: P2) P1 P2 F)) ((1 - e) *: (Q *m net_force F))
    ((1 - e) *: (Q *m net_moment (e *: P1 + (1 - e) *: P2) P1 P2 F)).
by apply: w12P; rewrite ?g1 ?g2 ?g3 ?g4 ?l1 ?l2 ?l3 ?l4 /split_wrench ?k1 ?k2 ?k3 ?k4 scalemxAr.
Qed.

(* translating the frame does not change a split *)
Lemma split_shift P1 P2 F e c : split_wrench (P1 - c) (P2 - c) F e = split_wrench P1 P2 F e.
Proof.
rewrite /split_wrench.
have -> : net_moment (e *: (P1 - c) + (1 - e) *: (P2 - c)) (P1 - c) (P2 - c) F =
          net_moment (e *: P1 + (1 - e) *: P2) P1 P2 F.
  rewrite /net_moment.
  have d q : q - c - (e *: (P1 - c) + (1 - e) *: (P2 - c)) = q - (e *: P1 + (1 - e) *: P2).
    by apply: vecP; rewrite !xyz; ring.
  by rewrite !d.
by [].
Qed.
End Rot.

Section Dyn.
Variable R : rcfType.
Variables (n : nat) (A : 'M[R]_(6 + n)) (J : 'M[R]_(6 + 6, 6 + n)) (G : 'cV[R]_(6 + n)).
Variable rb : robot R (6 + 6) n.
Hypotheses (hA : posdef A) (hJ : row_free J) (hrb : UpdateRobot A J G = Some rb).
Variables (p0 p1 p2 : 'cV[R]_3) (B : 'M[R]_3).
Hypotheses (hB : B \in unitmx) (hR : rigid_feet p0 B p1 p2 J).
Variables (k : nat) (V2 : 'M[R]_(k, n)).
Hypothesis hV : left_null_basis (cs_W (rb_cs rb)) V2.
Let cs := rb_cs rb.

Lemma foot_base_unit p : foot_base p0 B p \in unitmx.
Proof. by rewrite unitmxE /foot_base det_ublock det1 mul1r -unitmxE. Qed.

Lemma bottom_unit : dsubmx (lsubmx J) \in unitmx.
Proof. by rewrite hR col_mxKd foot_base_unit. Qed.

Lemma feet_fix_base : contacts_fix_base J.
Proof. exact: bottom_base bottom_unit. Qed.

Lemma k6 : k = 6%N.
Proof. exact: (nwjw_square hA hJ hrb hV feet_fix_base). Qed.

Lemma base_wrench (F : 'cV[R]_((3 + 3) + (3 + 3))) :
  (lsubmx J)^T *m (F : 'cV[R]_(6 + 6)) =
  (col_mx (net_force F) (B^T *m net_moment p0 p1 p2 F) : 'cV[R]_(3 + 3)).
Proof.
have fb p (f m : 'cV[R]_3) : (foot_base p0 B p)^T *m col_mx f m =
    col_mx f (B^T *m (m + crossp (p - p0) f)).
  rewrite /foot_base tr_block_mx trmx0 trmx1 trN trmx_mul skew_tr mulmxN opprK mul_block_col.
  by rewrite mul1mx mul0mx addr0 mulmxDr addrC -mulmxA skew_cross.
rewrite hR (tr_col_mx (foot_base p0 B p1)) -{1}[F]vsubmxK (mul_row_col (foot_base p0 B p1)^T).
rewrite -[usubmx F]vsubmxK -[dsubmx F]vsubmxK !fb add_col_mx -mulmxDr.
by [].
Qed.

Lemma base_null (F : 'cV[R]_((3 + 3) + (3 + 3))) :
  (lsubmx J)^T *m (F : 'cV[R]_(6 + 6)) = 0 -> net_force F = 0 /\ net_moment p0 p1 p2 F = 0.
Proof.
rewrite base_wrench => e.
have e' : col_mx (net_force F) (B^T *m net_moment p0 p1 p2 F) = col_mx (0 : 'cV[R]_3) (0 : 'cV[R]_3).
  by rewrite col_mx0; exact: e.
have [h1 h2] := eq_col_mx e'; split=> //.
by have := congr1 (mulmx (invmx B^T)) h2; rewrite mulKmx ?unitmx_tr // mulmx0.
Qed.

Lemma net_B o (F F' : 'cV[R]_((3 + 3) + (3 + 3))) :
  net_force (F' - F) = net_force F' - net_force F /\
  net_moment o p1 p2 (F' - F) = net_moment o p1 p2 F' - net_moment o p1 p2 F.
Proof.
have e : [/\ force1 (F' - F) = force1 F' - force1 F, moment1 (F' - F) = moment1 F' - moment1 F,
  force2 (F' - F) = force2 F' - force2 F & moment2 (F' - F) = moment2 F' - moment2 F].
  by rewrite /force1 /moment1 /force2 /moment2 !linearB.
rewrite /net_force /net_moment; case: e => -> -> -> ->.
by split; apply: vecP; rewrite !xyz; ring.
Qed.

(* two wrenches with equal net wrench and equal second foot are equal *)
Lemma second_foot (F F' : 'cV[R]_((3 + 3) + (3 + 3))) :
  same_net p1 p2 F F' -> dsubmx F' = dsubmx F -> F' = F.
Proof.
case=> h1 /(_ 0) h2 e.
have e3 : force2 F' = force2 F by rewrite /force2 e.
have e4 : moment2 F' = moment2 F by rewrite /moment2 e.
have e1 : force1 F' = force1 F by move: h1; rewrite /net_force e3 => /addIr.
by apply: w12P => //; move: h2; rewrite /net_moment e3 e4 e1 => /addIr /addIr.
Qed.

Let T2 : 'M[R]_(6, 6 + 6) := row_mx 0 1%:M.
Let T2E p (F : 'M[R]_(6 + 6, p)) : T2 *m F = dsubmx F.
Proof. by rewrite -{1}[F]vsubmxK mul_row_col mul1mx mul0mx add0r. Qed.

Lemma T2inj (f : 'cV[R]_(6 + 6)) : T2 *m f = 0 -> (lsubmx J)^T *m f = 0 -> f = 0.
Proof.
rewrite T2E => h1 h2; have [h3 h4] := base_null h2.
have h0 : dsubmx (f : 'cV[R]_((3 + 3) + (3 + 3))) = dsubmx (0 : 'cV[R]_((3 + 3) + (3 + 3))).
  by rewrite [RHS]linear0; exact: h1.
apply: (second_foot _ h0); split.
  by rewrite h3 /net_force /force1 /force2 !linear0 addr0.
move=> o; rewrite [LHS]net_moment_shift h3 cross0 subr0.
move: h4; rewrite net_moment_shift h3 cross0 subr0 => ->.
by rewrite /net_moment /force1 /force2 /moment1 /moment2 !linear0 !cross0 !addr0.
Qed.

Variable zs : bool.
(* positions of cc_[0] and cc_[1] *)
Variables q1 q2 : 'cV[R]_3.
Variables (com : 'cV[R]_3) (c s : R) (on1 on2 : bool) (cc : seq (bool * 'cV[R]_3)).
Hypothesis hcs : c * c + s * s = 1.
Let ft := Feet ((on1, q1) :: (on2, q2) :: cc) com c s.
Let Q := rotZ c (- s).

Lemma Qrot : rotation Q.
Proof. by apply: rotZ_rotation; rewrite mulrNN. Qed.

(* the split chosen for a net wrench *)
Definition chosen (F : 'cV[R]_((3 + 3) + (3 + 3))) : ext R :=
  choose_eta zs (99%:R / 100%:R) (26%:R / 100%:R) (1 / 10%:R) 1 (9%:R / 10%:R) (9%:R / 10%:R)
    (Q *m (q1 - com)) (Q *m (q2 - com)) (net_force (force_rot_yaw Q *m F))
    (net_moment 0 (Q *m (q1 - com)) (Q *m (q2 - com)) (force_rot_yaw Q *m F)).

Lemma chosen_net F F' : same_net q1 q2 F F' -> chosen F' = chosen F.
Proof.
case=> h1 h2; rewrite /chosen.
have nf X : net_force (force_rot_yaw Q *m X) = Q *m net_force X.
  by have [a1 _ a3 _] := rot_parts Q X; rewrite /net_force a1 a3 mulmxDr.
have nm X : net_moment 0 (Q *m (q1 - com)) (Q *m (q2 - com)) (force_rot_yaw Q *m X) =
    Q *m net_moment com q1 q2 X.
  have [a1 a2 a3 a4] := rot_parts Q X.
  by rewrite /net_moment a1 a2 a3 a4 !subr0 !cross_rot ?mulmxDr //; exact: Qrot.
by rewrite !nf !nm h1 h2.
Qed.

Lemma castV : exists V : 'M[R]_(6, n), [/\ V *m cs_W cs = 0, row_free V &
  forall tin, RedistributeTwo zs rb V2 ft tin =
    let F := getContactForce rb tin in
    match chosen F with
    | Fin e => if inverse (dsubmx (rsubmx (cs_JCinvT cs)) *m V^T) is Some Mi
       then RedisOk (V^T *m Mi *m (- dsubmx (F : 'cV[R]_(6 + 6)) + dsubmx (split_wrench q1 q2 F e)))
       else RedisSingular R n
    | _ => RedisNaN R n
    end].
Proof.
move: V2 hV; rewrite k6 => V [h1 h2 _]; exists V; split=> // tin.
rewrite /RedistributeTwo /ft; cbn [ft_cc ft_com ft_c ft_s snd].
rewrite -/(CalculateContactForce tin (cs_JCinvT (rb_cs rb)) (rb_PC rb)) -/(getContactForce rb tin).
set F := getContactForce rb tin; rewrite -/Q.
have [_ e2 e3] := twomodP zs (99%:R / 100%:R) (26%:R / 100%:R) (1 / 10%:R) 1 (9%:R / 10%:R)
  (9%:R / 10%:R) (Q *m (q1 - com)) (Q *m (q2 - com)) (force_rot_yaw Q *m F).
move: e2 e3; case: (ContactRedistributetwomod _ _ _ _ _ _ _ _ _ _) => -[Rf eta] res /= -> ->.
case: eqP => // e; rewrite castmx_id -/(chosen F).
case: (chosen F) => // x.
rewrite rot_split; last exact: Qrot.
by rewrite rot_trK ?split_shift //; exact: Qrot.
Qed.

Lemma redis_outcome tin (F := getContactForce rb tin) :
  match chosen F with
  | Fin e => exists tc, [/\ RedistributeTwo zs rb V2 ft tin = RedisOk tc, cs_W cs *m tc = 0 &
      dsubmx (rsubmx (cs_JCinvT cs) *m tc) =
      dsubmx (split_wrench q1 q2 F e - F : 'cV[R]_(6 + 6))]
  | _ => RedistributeTwo zs rb V2 ft tin = RedisNaN R n
  end.
Proof.
have [V [VW Vf E]] := castV.
have := E tin; rewrite -/F /=; case: (chosen F) => [e||] // ->.
have [_ _ _ [e1 e2 e3 e4 [e5 e6]]] := rbE hA hJ hrb.
have Ws : (cs_W cs)^T = cs_W cs by case: (rb_projector hA hJ hrb) => _ _ _ _ [_ []].
have u : dsubmx (rsubmx (cs_JCinvT cs)) *m V^T \in unitmx.
  rewrite -T2E; exact: (nwjw_unit hA hJ erefl erefl e1 e2 e3 e4 e5 erefl T2inj).
rewrite inverseE //; eexists; split; first by reflexivity.
  by rewrite !mulmxA -{1}Ws -trmx_mul VW tr0 !mul0mx.
rewrite -mul_dsub_mx !mulmxA mulmxV // mul1mx addrC.
have -> : dsubmx (split_wrench q1 q2 F e - F : 'cV[R]_(6 + 6)) =
  dsubmx (split_wrench q1 q2 F e : 'cV[R]_(6 + 6)) - dsubmx (F : 'cV[R]_(6 + 6)) by rewrite linearB.
by [].
Qed.

(* effect of the redistribution torque added to the torque it was computed for *)
Lemma redis_effect_any tin tc e a f a' f' :
  chosen (getContactForce rb tin) = Fin e -> RedistributeTwo zs rb V2 ft tin = RedisOk tc ->
  contact_motion A J G tin a f -> contact_motion A J G (tin + tc) a' f' ->
  [/\ a' = a, same_net p1 p2 f f' &
    dsubmx (f' : 'cV[R]_((3 + 3) + (3 + 3))) = dsubmx (split_wrench q1 q2 f e)].
Proof.
have := redis_outcome tin => /= h he; rewrite he in h; case: h => tc' [-> Wtc dT] [<-].
move=> /(rb_motion hA hJ hrb)[-> ->] /(rb_motion hA hJ hrb)[-> ->].
have [_ _ _ [e1 e2 e3 e4 [e5 e6]]] := rbE hA hJ hrb.
have [h1 h2] := null_torque_effect hA hJ erefl erefl e1 e2 e3 e4 e5 erefl G tin Wtc.
have [n1 n2] := null_force hA hJ erefl erefl e1 e2 e3 e4 e5 erefl Wtc.
move: dT; rewrite !(rb_force hA hJ hrb) h2; set F := force_of _ _ _; set D := _ *m tc' => dT.
have [z1 z2] := base_null n2.
have nz o : net_moment o p1 p2 D = 0.
  have m0 : net_moment 0 p1 p2 D = 0 by move: z2; rewrite net_moment_shift z1 cross0 subr0.
  by rewrite net_moment_shift z1 cross0 subr0 m0.
have DE : D = (F + D) - F by rewrite addrC addKr.
split; first by rewrite h1.
  split; last move=> o.
    have [d1 _] := net_B 0 F (F + D); rewrite -DE z1 in d1.
    by apply/eqP; rewrite -subr_eq0 -d1.
  have [_ d2] := net_B o F (F + D); rewrite -DE nz in d2.
  by apply/eqP; rewrite -subr_eq0 -d2.
rewrite [LHS](linearD _ F D); apply: (addrI (- dsubmx (F : 'cV[R]_((3 + 3) + (3 + 3))))).
by rewrite addKr addrC -linearB; exact: dT.
Qed.
End Dyn.

Section Dyn2.
Variable R : rcfType.
Variables (n : nat) (A : 'M[R]_(6 + n)) (J : 'M[R]_(6 + 6, 6 + n)) (G : 'cV[R]_(6 + n)).
Variable rb : robot R (6 + 6) n.
Hypotheses (hA : posdef A) (hJ : row_free J) (hrb : UpdateRobot A J G = Some rb).
Variables (p0 p1 p2 : 'cV[R]_3) (B : 'M[R]_3).
Hypotheses (hB : B \in unitmx) (hR : rigid_feet p0 B p1 p2 J).
Variables (k : nat) (V2 : 'M[R]_(k, n)).
Hypothesis hV : left_null_basis (cs_W (rb_cs rb)) V2.
Variables (zs : bool) (com : 'cV[R]_3) (c s : R) (on1 on2 : bool) (cc : seq (bool * 'cV[R]_3)).
Hypothesis hcs : c * c + s * s = 1.
Let ft := Feet ((on1, p1) :: (on2, p2) :: cc) com c s.

(* cc_[0] and cc_[1] are the two feet *)
Lemma redis_effect tin tc e a f a' f' :
  chosen zs p1 p2 com c s (getContactForce rb tin) = Fin e ->
  RedistributeTwo zs rb V2 ft tin = RedisOk tc ->
  contact_motion A J G tin a f -> contact_motion A J G (tin + tc) a' f' ->
  a' = a /\ f' = split_wrench p1 p2 f e.
Proof.
move=> C E m1 m2; have [-> [s1 s2] d] := redis_effect_any hA hJ hrb hB hR hV hcs C E m1 m2.
split=> //; have [t1 t2] := split_net p1 p2 f e.
apply: (@second_foot _ p1 p2 _ _ _ d).
by split=> [|o]; rewrite ?s1 ?s2 ?t1 ?t2.
Qed.
End Dyn2.
