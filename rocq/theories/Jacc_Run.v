(* Proofs about the acceleration-level QPs: all levels, and when a task is met exactly. *)
From mathcomp Require Import all_ssreflect all_algebra.
From mathcomp Require Import zify.
From mathcomp.algebra_tactics Require Import ring.
From Verif Require Import DMat DMatL Cone_Model Cone_Spec Cone_Props QP_Model QP_Proofs Jacc_Model Jacc_Spec Jacc_Proofs Jacc_Thm.
Set Implicit Arguments.
Unset Strict Implicit.
Unset Printing Implicit Defensive.
Import Order.TTheory GRing.Theory Num.Theory.
Local Open Scope ring_scope.

Section Run.
Variable R : realFieldType.
Local Notation dm := (dm R).
Local Notation jdata := (jdata R).
Local Notation jrobot := (jrobot R).
Local Notation jtask := (jtask R).

Variable solver : nat -> bqp R -> option (nat -> R).
Variables (problem : jrobot -> jtask -> option (bqp R)) (data : jrobot -> jdata).
Variables (D : jdata) (cc : seq (pcontact R)) (acc : jtask -> (nat -> R) -> nat -> R) (tb m : nat).
Variable ok : jrobot -> Prop.
Hypothesis okD : jd_ok D m (6 * size (actives cc))%N.
Hypothesis ltb : (tb <= m)%N.
Hypothesis accE : forall s s' x y r, same_input s s' -> (forall i, (i < d_nv D)%N -> x i = y i) -> acc s' y r = acc s x r.
Hypothesis ok_data : forall rb, ok rb -> data rb = D /\ jr_cc rb = cc.
Hypothesis ok_lev : forall rb k s, ok rb -> task rb k = Some s -> j_h s = k /\ (size (jr_ts rb) <= jr_nqp rb)%N.
Hypothesis ok_prob : forall rb k s, ok rb -> task rb k = Some s -> solved_above rb k ->
  exists q, problem rb s = Some q /\ means rb D acc tb k s q.
Hypothesis ok_keep : forall rb rb' k s s', only_task rb rb' k s' -> task rb k = Some s -> same_input s s' -> ok rb -> ok rb'.
Hypothesis so : sound solver.
Hypothesis co : complete solver.

Lemma same_refl (s : jtask) : same_input s s.
Proof. by []. Qed.

(* level i of rb has been solved: its members hold a plan that keeps all levels up to i *)
Definition lev_done (rb : jrobot) (i : nat) (s : jtask) : Prop :=
  exists x, [/\ holds D s x, plan D cc tb x & above_met acc rb i.+1 x].

Lemma met_ext s x y : (forall i, (i < d_nv D)%N -> x i = y i) -> met acc s x -> met acc s y.
Proof. by move=> e h r lr; rewrite -h //; apply: accE. Qed.

Lemma jloop_ok todo : forall k rb, ok rb -> (k + todo)%N = size (jr_ts rb) -> solved_above rb k ->
  (exists x, plan D cc tb x /\ above_met acc rb k x) ->
  exists rb', [/\ jloop (jcall solver problem data) rb k todo = Some (rb', true), size (jr_ts rb') = size (jr_ts rb),
    forall i, (i < k)%N -> task rb' i = task rb i &
    forall i s, (k <= i)%N -> task rb i = Some s -> exists s', [/\ task rb' i = Some s', same_input s s' & lev_done rb' i s']].
Proof.
elim: todo => [|todo IH] k rb okr kE sol [x0 [p0 a0]].
  exists rb; split=> // i s li es; have := task_lt es; rewrite -kE addn0 => lt; lia.
have lk : (k < size (jr_ts rb))%N by lia.
have [s es] : exists s, task rb k = Some s.
  case E: (jr_ts rb) lk => [//|s0 ts] _; exists (nth s0 (jr_ts rb) k).
  by rewrite /task (nth_map s0) // -kE; lia.
have [hE sz] := ok_lev okr es; have [dE cE] := ok_data okr.
have [q [eq M]] := ok_prob okr es sol; rewrite -dE in M.
have [nvE mE cdE _ _] := okD.
have [rb' [s' [ec [only same _ [x [hx px ax tx]]]]]] :
    exists rb' s', jcall solver problem data rb k = Some (rb', true) /\ answer_ok rb D acc tb k s s' rb'.
  have [[eN _]|] := call_ok so es eq M hE sz; last by rewrite dE.
  have [F _] := M; have : exists x, bqp_feasible q x.
    exists (put_slack D x0 (fun r => acc s x0 r - ent (j_f s) r 0)); apply/F; rewrite dE cE.
    have ext i : (i < d_nv D + d_m D + d_c D)%N -> x0 i = put_slack D x0 (fun r => acc s x0 r - ent (j_f s) r 0) i.
      by move=> li; rewrite /put_slack li.
    have ext' i : (i < d_nv D)%N -> x0 i = put_slack D x0 (fun r => acc s x0 r - ent (j_f s) r 0) i.
      by move=> li; apply: ext; lia.
    split.
    - exact: (plan_ext okD (erefl _) ltb ext p0).
    - by move=> i si li esi; apply: (met_ext ext'); apply: a0 li esi.
    move=> r lr; rewrite (@accE s s x0) // /slk /put_slack.
    have -> : (d_nv D + d_m D + d_c D + r < d_nv D + d_m D + d_c D)%N = false by lia.
    by rewrite addKn addrC subrK.
  by move/(co k) => [y]; rewrite eN.
have okr' := ok_keep only es same okr.
have [_ ts' oth] := only; have [k1 k2 k3 k4 _] := same.
rewrite cE in px.
have [_ _ _ [dq q4]] := hx.
have metk : met acc s' x.
  move=> r lr; rewrite (@accE s s' x) // k4 q4 // tx //; by rewrite -k2.
have szE : size (jr_ts rb') = size (jr_ts rb).
  apply/eqP; rewrite eqn_leq; apply/andP; split; rewrite leqNgt; apply/negP => lt.
  - have [e|/eqP ne] := eqVneq (size (jr_ts rb)) k; first by rewrite e ltnn in lk.
    have := oth _ ne; rewrite /task [RHS]nth_default ?size_map //.
    by rewrite (nth_map s).
  - have [e|/eqP ne] := eqVneq (size (jr_ts rb')) k; first by have := task_lt ts'; rewrite e ltnn.
    have := oth _ ne; rewrite /task [LHS]nth_default ?size_map //.
    by rewrite (nth_map s).
have ax' : above_met acc rb' k.+1 x.
  move=> i si; rewrite ltnS leq_eqVlt => /orP[/eqP ->|li]; first by rewrite ts' => -[<-].
  by rewrite oth; [apply: ax|lia].
have [|||rb2 [e2 sz2 old new]] := IH k.+1 rb' okr'.
- by rewrite szE; lia.
- move=> i si; rewrite ltnS leq_eqVlt => /orP[/eqP ->|li]; first by rewrite ts' => -[<-].
  by rewrite oth; [apply: sol|lia].
- by exists x.
exists rb2; split.
- by rewrite /= ec e2.
- by rewrite sz2.
- by move=> i li; rewrite old ?oth //; lia.
move=> i si; rewrite leq_eqVlt => /orP[/eqP <-|li].
  rewrite es => -[<-]; exists s'; split=> //; first by rewrite old.
  exists x; split=> // j sj lj; rewrite old //; exact: ax'.
move=> esi; apply: new => //; by rewrite oth //; lia.
Qed.

End Run.

Section Exact.
Variable R : realFieldType.
Local Notation jdata := (jdata R).
Local Notation dm := (dm R).

(* x + e (y - x) *)
Definition seg_pt (x y : nat -> R) (e : R) : nat -> R := fun i => x i + e * (y i - x i).

Lemma jaccel_seg n (J : dm) x y e r : jaccel n J (seg_pt x y e) r = jaccel n J x r + e * (jaccel n J y r - jaccel n J x r).
Proof.
rewrite /jaccel -sumrB mulr_sumr -big_split /=; apply: eq_bigr => j _; rewrite /seg_pt; ring.
Qed.

Lemma norm_seg (a b e l : R) : 0 <= e <= 1 -> `|a| <= l -> `|b| <= l -> `|a + e * (b - a)| <= l.
Proof.
case/andP=> e0 e1 ha hb.
have -> : a + e * (b - a) = (1 - e) * a + e * b by ring.
apply: le_trans (ler_norm_add _ _) _; rewrite !normrM (ger0_norm e0) ger0_norm ?subr_ge0 //.
have -> : l = (1 - e) * l + e * l by ring.
by apply: ler_add; apply: ler_wpmul2l; rewrite ?subr_ge0.
Qed.

Lemma blk3_seg (F G : nat -> R) e k : blk3 (seg_pt F G e) k = blk3 F k + e *: (blk3 G k - blk3 F k).
Proof. by apply/matrixP => i j; rewrite !mxE. Qed.

Lemma vseg (A : 'M[R]_3) (f g : 'cV[R]_3) e i : (A *m (f + e *: (g - f))) i 0 = (A *m f) i 0 + e * ((A *m g) i 0 - (A *m f) i 0).
Proof. by rewrite mulmxDr -scalemxAr mulmxBr !mxE. Qed.

Lemma cone_half (a b z w e mu : R) : 0 <= e <= 1 -> `|a| <= - (mu * z) -> `|b| <= - (mu * w) ->
  `|a + e * (b - a)| <= - (mu * (z + e * (w - z))).
Proof.
case/andP=> e0 e1 ha hb.
have -> : a + e * (b - a) = (1 - e) * a + e * b by ring.
apply: le_trans (ler_norm_add _ _) _; rewrite !normrM (ger0_norm e0) ger0_norm ?subr_ge0 //.
have -> : - (mu * (z + e * (w - z))) = (1 - e) * - (mu * z) + e * - (mu * w) by ring.
by apply: ler_add; apply: ler_wpmul2l; rewrite ?subr_ge0.
Qed.

Lemma cone_seg (c : pcontact R) (f g n o : 'cV[R]_3) e : 0 <= e <= 1 -> in_cone c f n -> in_cone c g o ->
  in_cone c (f + e *: (g - f)) (n + e *: (o - n)).
Proof.
move=> he [h1 h2 h3 h4 h5] [g1 g2 g3 g4 g5].
by split; rewrite /vx /vy /vz !vseg; apply: cone_half.
Qed.

Lemma plan_seg (D : jdata) cc tb x y e : 0 <= e <= 1 -> plan D cc tb x -> plan D cc tb y -> plan D cc tb (seg_pt x y e).
Proof.
move=> he [h1 h2 h3 h4 h5] [g1 g2 g3 g4 g5]; split.
- move=> i li; rewrite jaccel_seg.
  have -> : \sum_(0 <= j < d_c D) ent (d_J D) j i * frc D (seg_pt x y e) j =
     \sum_(0 <= j < d_c D) ent (d_J D) j i * frc D x j +
     e * (\sum_(0 <= j < d_c D) ent (d_J D) j i * frc D y j - \sum_(0 <= j < d_c D) ent (d_J D) j i * frc D x j).
    rewrite -sumrB mulr_sumr -big_split /=; apply: eq_bigr => j _; rewrite /frc /seg_pt; ring.
  have -> : (if (i < 6)%N then 0 else trq D (seg_pt x y e) (i - 6)) =
     (if (i < 6)%N then 0 else trq D x (i - 6)) + e * ((if (i < 6)%N then 0 else trq D y (i - 6)) - (if (i < 6)%N then 0 else trq D x (i - 6))).
    by case: ifP => _; rewrite // subr0 mulr0 addr0.
  rewrite -(h1 i li) -(g1 i li); ring.
- by move=> r lr; rewrite jaccel_seg h2 // g2 // subr0 mulr0 addr0.
- move=> c0 k lk; rewrite !(blk3_seg (frc D x) (frc D y)); apply: cone_seg => //; [exact: h3|exact: g3].
- by move=> r lr; apply: norm_seg => //; [apply: h4|apply: g4].
by move=> r lr; apply: norm_seg => //; [apply: h5|apply: g5].
Qed.

Definition cross (D : jdata) (x y : nat -> R) : R :=
  \sum_(0 <= i < d_nv D) \sum_(0 <= j < d_nv D) x i * ent (d_A D) i j * (y j - x j).

Lemma energy_seg (D : jdata) x y e : spd D ->
  energy D (seg_pt x y e) = energy D x + e * (2%:R * cross D x y) + e ^+ 2 * energy D (fun i => y i - x i).
Proof.
case=> sym _.
have tr : \sum_(0 <= i < d_nv D) \sum_(0 <= j < d_nv D) (y i - x i) * ent (d_A D) i j * x j = cross D x y.
  rewrite /cross exchange_big /= !big_nat; apply: eq_bigr => j /andP[_ lj].
  rewrite !big_nat; apply: eq_bigr => i /andP[_ li]; rewrite (sym i j) //; ring.
rewrite (_ : 2%:R * cross D x y = cross D x y + cross D x y); last by rewrite mulr_natl mulr2n.
rewrite -{2}tr /energy /cross.
rewrite -!big_split /= !mulr_sumr -!big_split /=; apply: eq_bigr => i _.
rewrite -!big_split /= !mulr_sumr -!big_split /=; apply: eq_bigr => j _.
rewrite /seg_pt; ring.
Qed.

Lemma energy_ge0 (D : jdata) x : spd D -> 0 <= energy D x.
Proof.
case=> _ pos.
case: (boolP (has (fun i => x i != 0) (iota 0 (d_nv D)))) => [/hasP[i]|/hasPn h].
  by rewrite mem_iota add0n => /andP[_ li] nz; apply: ltW; apply: pos; exists i.
rewrite /energy big_nat big1 // => i /andP[_ li]; rewrite big1 // => j _.
have := h i; rewrite mem_iota add0n li negbK => /(_ isT) /eqP ->; by rewrite !mul0r.
Qed.

Lemma dev0 (D : jdata) t x : (forall r, (r < t)%N -> slk D x r = 0) -> deviation D t x = 0.
Proof. by move=> h; apply: sum_nat0 => r lr; rewrite h // expr0n. Qed.

Lemma dev_ge0 (D : jdata) t x : 0 <= deviation D t x.
Proof. by apply: sumr_ge0 => r _; rewrite exprn_even_ge0. Qed.

(* if 0 <= e a + e^2 b for all e in (0, 1] then 0 <= a *)
Lemma small_step (a b : R) : (forall e, 0 < e <= 1 -> 0 <= e * a + e ^+ 2 * b) -> 0 <= a.
Proof.
move=> h; case: (lerP 0 a) => // neg; exfalso.
pose k := 1 + `|b| - a.
have k0 : 0 < k by rewrite /k -addrA ltr_paddr ?ltr01 // addr_ge0 ?normr_ge0 // oppr_ge0 ltW.
pose e := - a / k.
have e0 : 0 < e by rewrite /e divr_gt0 // oppr_gt0.
have e1 : e <= 1 by rewrite /e ler_pdivr_mulr // mul1r /k -[X in X <= _]add0r ler_add2r addr_ge0 ?ler01 ?normr_ge0.
have := h e; rewrite e0 e1 => /(_ isT).
have -> : e * a + e ^+ 2 * b = e * (a + e * b) by ring.
rewrite pmulr_rge0 //; apply/negP; rewrite -ltNge.
have -> : a + e * b = a * ((k - b) / k) by rewrite /e; field; rewrite gt_eqF.
rewrite nmulr_rlt0 // divr_gt0 // /k.
have -> : 1 + `|b| - a - b = 1 + (`|b| - b) + - a by ring.
rewrite ltr_paddr ?oppr_ge0 ?(ltW neg) //.
by rewrite ltr_paddr ?ltr01 // subr_ge0 ler_norm.
Qed.

Local Notation jtask := (jtask R).

Definition affine_acc (acc : jtask -> (nat -> R) -> nat -> R) : Prop :=
  forall s x y e r, acc s (seg_pt x y e) r = acc s x r + e * (acc s y r - acc s x r).

Lemma taskacc_affine nv : affine_acc (@taskacc R nv).
Proof. by move=> s x y e r; apply: jaccel_seg. Qed.

Lemma taskaccR_affine T : affine_acc (@taskaccR R T).
Proof.
move=> s x y e r; rewrite /taskaccR -jaccel_seg; apply: jaccel_ext => k lk.
rewrite /seg_pt -sumrB mulr_sumr -big_split /=; apply: eq_bigr => j _; ring.
Qed.

Lemma exact_iff (rb : jrobot R) (D : jdata) acc tb m k s q x :
  jd_ok D m (6 * size (actives (jr_cc rb)))%N -> (tb <= m)%N ->
  (forall s x y r, (forall i, (i < d_nv D)%N -> x i = y i) -> acc s y r = acc s x r) -> affine_acc acc ->
  means rb D acc tb k s q -> spd D ->
  bqp_feasible q x -> (forall r, (r < j_dof s)%N -> slk D x r = 0) ->
  bqp_optimal q x <-> forall y, plan D (jr_cc rb) tb y -> above_met acc rb k y -> energy D x <= energy D y.
Proof.
move=> okD ltb accE aff [F C] sp fx sx; have [px ax tx] := proj1 (F x) fx.
have cx : bqp_cost q x = 1 / 2%:R * energy D x by rewrite C dev0 // mulr0 addr0.
have h2 : 0 < 1 / 2%:R :> R by rewrite divr_gt0 ?ltr01 ?ltr0n.
split=> [[_ opt] y py ay|h]; last first.
  split=> // y /F[py ay _]; rewrite cx C ler_pmul2l //.
  by apply: le_trans (h y py ay) _; rewrite ler_addl mulr_ge0 ?ler0n ?dev_ge0.
pose y' := put_slack D y (fun r => acc s y r - ent (j_f s) r 0).
have ext i : (i < d_nv D + d_m D + d_c D)%N -> y i = y' i by move=> li; rewrite /y' /put_slack li.
have ext' i : (i < d_nv D)%N -> y i = y' i by move=> li; apply: ext; lia.
have py' := plan_ext okD (erefl _) ltb ext py.
have ay' : above_met acc rb k y' by move=> i si li es r lr; rewrite (accE _ y y') //; apply: ay li es r lr.
have ty' : tracks D acc s y'.
  move=> r lr; rewrite (accE _ y y') // /slk /y' /put_slack.
  have -> : (d_nv D + d_m D + d_c D + r < d_nv D + d_m D + d_c D)%N = false by lia.
  by rewrite addKn addrC subrK.
have step e : 0 < e <= 1 -> 0 <= e * (2%:R * cross D x y') + e ^+ 2 * (energy D (fun i => y' i - x i) + 100%:R * deviation D (j_dof s) y').
  move=> he; have he' : 0 <= e <= 1 by case/andP: he => /ltW -> ->.
  have fz : bqp_feasible q (seg_pt x y' e).
    apply/F; split; first exact: plan_seg.
      by move=> i si li es r lr; rewrite aff (ax i si li es r lr) (ay' i si li es r lr) subrr mulr0 addr0.
    move=> r lr; rewrite aff (tx r lr) (ty' r lr) /slk /seg_pt; ring.
  have := opt _ fz; rewrite cx C ler_pmul2l // energy_seg //.
  have -> : deviation D (j_dof s) (seg_pt x y' e) = e ^+ 2 * deviation D (j_dof s) y'.
    rewrite /deviation mulr_sumr; apply: sum_nat_eq => r lr.
    have := sx r lr; rewrite /slk /seg_pt => ->; ring.
  rewrite -addrA -addrA -[X in X <= _]addr0 ler_add2l.
  by rewrite (_ : e ^+ 2 * energy D (fun i => y' i - x i) + 100%:R * (e ^+ 2 * deviation D (j_dof s) y') =
    e ^+ 2 * (energy D (fun i => y' i - x i) + 100%:R * deviation D (j_dof s) y')) //; ring.
have := small_step step; rewrite pmulr_rge0 ?ltr0n // => cr.
have -> : energy D y = energy D (seg_pt x y' 1).
  rewrite /energy; apply: sum_nat_eq => i li; apply: sum_nat_eq => j lj.
  by rewrite /seg_pt !mul1r !(addrC (x _)) !subrK !ext'.
rewrite energy_seg // !mul1r expr1n mul1r -addrA ler_addl addr_ge0 ?mulr_ge0 ?ler0n //.
exact: energy_ge0.
Qed.
End Exact.
