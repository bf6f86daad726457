(* C110-C112: the acceleration-level QP for the non-contact joints. *)
From mathcomp Require Import all_ssreflect all_algebra.
From mathcomp Require Import zify.
From mathcomp.algebra_tactics Require Import ring.
From Verif Require Import DMat DMatL Geo_Model Geo_Spec Geo_Proofs Cone_Model Cone_Spec QP_Model Jacc_Model Jacc_Spec Jacc_Proofs Jacc_Thm Jacc_Ex Jacc_NC.
Set Implicit Arguments.
Unset Strict Implicit.
Unset Printing Implicit Defensive.
Import Order.TTheory GRing.Theory Num.Theory.
Local Open Scope ring_scope.

Section Props.
Variable R : realFieldType.
Local Notation dm := (dm R).
Local Notation jrobot := (jrobot R).
Local Notation jtask := (jtask R).
Local Notation NC := (@CalcSingleTaskTorqueWithJACC_QP_R_NC R).

(* what the task rows of the code ask of the non-contact joints *)
Definition nc_follows (s : jtask) (pa : dm) (nv a : nat) (r : 'cV[R]_3) (x : nat -> R) : Prop :=
  nc_part s nv a x 0 = upper (j_f s) - upper pa + crossp r (lower (j_f s) - lower pa) + blk3 (nc_tdev a x) 0 /\
  nc_part s nv a x 3 = lower (j_f s) - lower pa + blk3 (nc_tdev a x) 3.

(* C110 *)
Theorem C110_wrong_size solver (rb : jrobot) k s pa : task rb k = Some s -> nr pa != jr_rnv rb ->
  NC solver rb k pa = Some (rb, false).
Proof. by rewrite /NC -/(task rb k) => -> ->. Qed.

Theorem C110_problem_partial (rb : jrobot) s pa a nv y y0 : nc_ok rb s pa a nv y y0 ->
  exists q, [/\ problemNC rb s pa = Some q,
    forall x, bqp_feasible q x <-> [/\ nc_motion rb a x, nc_momentum rb pa a x & nc_follows s pa nv a (y - y0) x] &
    forall x, bqp_cost q x =
      1 / 2%:R * (\sum_(0 <= r < 6) nc_gdev a x r ^+ 2 + 5%:R * \sum_(0 <= r < 6) nc_tdev a x r ^+ 2)].
Proof.
move=> ok; have [q [e F C]] := problemNC_ok ok; exists q; split=> // x.
by rewrite F; split=> [[h1 h2 h3 h4]|[h1 h2 [h3 h4]]].
Qed.

Theorem C110_sized (rb : jrobot) s pa q : problemNC rb s pa = Some q ->
  bqp_sized q (jr_nc rb + jr_nc rb + 6 + j_dof s) (jr_nc rb + 6 + j_dof s).
Proof.
have bw (M : dm) a b h w B M' : blockw M a b h w B = Some M' -> dims M' (nr M) (nc M).
  by rewrite /blockw; case: ifP => // _ [<-].
rewrite /problemNC; set n := (_ + j_dof s)%N; set eq := (_ + j_dof s)%N.
case: (j_link s) => //= id; case: (nth None _ id) => // x; case: (nth None _ 0) => // x0.
case: (seg pa 0 6) => //= base; case: (if (6 <= nr pa)%N then _ else _) => //= ga; case: dsub => //= df; case: dmul => //= fl.
case E0: blockw => [H1|] //=; case E1: blockw => [H|] //=; case: (if _ && _ then _ else _) => //= M.
case E2: blockw => [A1|] //=; case E3: blockw => [A2|] //=; case: seg => //= G; case F1: segw => [l1|] //=.
case E4: blockw => [A3|] //=; case E5: blockw => [A4|] //=; case F2: segw => [l2|] //=.
case: (if (jr_nc rb <= _)%N then _ else _) => //= Jn; case E6: blockw => [A5|] //=; case E7: blockw => [A6|] //=.
case F3: segw => [l3|] //=; case F4: lput => [l4|] //= [<-].
have [h1 h2] := bw _ _ _ _ _ _ _ E0; have [h3 h4] := bw _ _ _ _ _ _ _ E1.
have [a1 b1] := bw _ _ _ _ _ _ _ E2; have [a2 b2] := bw _ _ _ _ _ _ _ E3; have [a3 b3] := bw _ _ _ _ _ _ _ E4.
have [a4 b4] := bw _ _ _ _ _ _ _ E5; have [a5 b5] := bw _ _ _ _ _ _ _ E6; have [a6 b6] := bw _ _ _ _ _ _ _ E7.
have [c1 d1] := bw _ _ _ _ _ _ _ F1; have [c2 d2] := bw _ _ _ _ _ _ _ F2; have [c3 d3] := bw _ _ _ _ _ _ _ F3.
split=> //=; rewrite /dims ?h3 ?h4 ?h1 ?h2 ?a6 ?b6 ?a5 ?b5 ?a4 ?b4 ?a3 ?b3 ?a2 ?b2 ?a1 ?b1 //.
by rewrite c3 c2 c1 d3 d2 d1; split=> //; move: F4; rewrite /lput; case: ifP => // _ [<-].
Qed.

Theorem C110_answer_partial solver (rb : jrobot) k s pa a nv y y0 : nc_ok rb s pa a nv y y0 ->
  task rb k = Some s -> (j_h s < jr_nqp rb)%N -> sound solver ->
  NC solver rb k pa = Some (rb, false) \/
  exists rb' s' x, [/\ NC solver rb k pa = Some (rb', true), only_task rb rb' k s', same_input s s',
    nc_motion rb a x /\ nc_momentum rb pa a x /\ nc_follows s pa nv a (y - y0) x &
    [/\ j_cqp s' = j_cqp s,
        dims (j_acc s') a 1 /\ forall i, (i < a)%N -> ent (j_acc s') i 0 = x i,
        dims (j_tq s') a 1 /\ forall i, (i < a)%N -> ent (j_tq s') i 0 = nc_trq a x i,
        dims (j_gacc s') 6 1 /\ forall i, (i < 6)%N -> ent (j_gacc s') i 0 = nc_gdev a x i &
        dims (j_fqp s') 6 1 /\ forall i, (i < 6)%N -> ent (j_fqp s') i 0 = nc_tdev a x i]].
Proof.
move=> ok es lq so; have [q [e F _]] := C110_problem_partial ok.
have [[naE _ _] _ [rp _] [dofE _] _] := ok.
have lk := task_lt es.
rewrite /NC -/(task rb k) es rp eqxx e lq /=.
case eS: (solver (j_h s) q) => [x|]; last by left.
right; eexists; eexists; exists x; split; first by [].
- exact: set_only.
- by [].
- by have [h1 h2 h3] := proj1 (F x) (so _ _ _ eS).
by rewrite naE dofE; split.
Qed.

(* a task that is not six-dimensional has no defined outcome *)
Theorem C110_other_dims solver (rb : jrobot) k s pa : task rb k = Some s -> dims pa (jr_rnv rb) 1 ->
  nr (j_f s) = j_dof s -> j_dof s != 6%N -> NC solver rb k pa = None.
Proof.
move=> es [rp cp] fE n6; rewrite /NC -/(task rb k) es rp eqxx /= /problemNC.
case: (j_link s) => // id; case: (nth None _ id) => // x; case: (nth None _ 0) => // x0.
rewrite /seg /dblock; case: ifP => // _; case: ifP => // _; case: ifP => // _.
by rewrite /dsub /dadd /= fE (negbTE n6).
Qed.

(* C111: the commanded acceleration of the link *)
Theorem C111_reference_partial (s : jtask) pa nv a r x : nc_follows s pa nv a r x ->
  (forall i, (i < 6)%N -> nc_tdev a x i = 0) ->
  link_ang (lower pa) (nc_part s nv a x 3) = lower (j_f s) /\
  (link_lin r (upper pa) (lower pa) (nc_part s nv a x 0) = upper (j_f s) <->
   crossp r (lower (j_f s) - 2%:R *: lower pa) = 0).
Proof.
move=> [h1 h2] z.
have z0 : blk3 (nc_tdev a x) 0 = 0 by apply/matrixP => i j; rewrite !mxE add0n z //; have := ltn_ord i; lia.
have z3 : blk3 (nc_tdev a x) 3 = 0 by apply/matrixP => i j; rewrite !mxE z //; have := ltn_ord i; lia.
rewrite z0 addr0 in h1; rewrite z3 addr0 in h2; rewrite h1 h2; split.
  by rewrite /link_ang addrC subrK.
rewrite /link_lin; set f := upper (j_f s); set g := lower (j_f s); set b := upper pa; set c := lower pa.
have -> : b + crossp c r + (f - b + crossp r (g - c)) = f + crossp r (g - 2%:R *: c).
  apply: vecP; rewrite !xyz; ring.
by split=> [h|->]; [apply: (addrI f); rewrite h addr0 | rewrite addr0].
Qed.

(* C112: every joint acceleration is admissible, whatever its size and that of its torque *)
Theorem C112_no_limits_partial (rb : jrobot) s pa a nv y y0 (acc : nat -> R) : nc_ok rb s pa a nv y y0 ->
  exists q x, [/\ problemNC rb s pa = Some q, bqp_feasible q x & forall i, (i < a)%N -> x i = acc i].
Proof.
move=> ok; have [q [e F _]] := C110_problem_partial ok; exists q.
pose tau i := \sum_(0 <= j < a) ent (jr_ANC rb) (nr (jr_ANC rb) - a + i) (nc (jr_ANC rb) - a + j) * acc j
    + ent (jr_G rb) (jr_vc rb + i) 0.
pose gd r := jaccel a (jr_JI rb) acc r - ent pa (nr pa - 6 + r) 0.
pose ref : 'cV[R]_(3 + 3) := col_mx (upper (j_f s) - upper pa + crossp (y - y0) (lower (j_f s) - lower pa)) (lower (j_f s) - lower pa).
pose td r := \sum_(0 <= j < a) ent (j_J s) r (nv - a + j) * acc j - ent (of_mx ref) r 0.
pose x i := if (i < a)%N then acc i else if (i < a + a)%N then tau (i - a)%N
   else if (i < a + a + 6)%N then gd (i - (a + a))%N else td (i - (a + a + 6))%N.
have xa i : (i < a)%N -> x i = acc i by move=> li; rewrite /x li.
have xt i : (i < a)%N -> nc_trq a x i = tau i.
  move=> li; rewrite /nc_trq /x; have -> : (a + i < a)%N = false by lia.
  by rewrite ltn_add2l li addKn.
have xg r : (r < 6)%N -> nc_gdev a x r = gd r.
  move=> lr; rewrite /nc_gdev /x; have -> : (a + a + r < a)%N = false by lia.
  have -> : (a + a + r < a + a)%N = false by lia.
  by rewrite ltn_add2l lr addKn.
have xd r : nc_tdev a x r = td r.
  rewrite /nc_tdev /x; have -> : (a + a + 6 + r < a)%N = false by lia.
  have -> : (a + a + 6 + r < a + a)%N = false by lia.
  have -> : (a + a + 6 + r < a + a + 6)%N = false by lia.
  by rewrite addKn.
have sumx (g : nat -> R) : \sum_(0 <= j < a) g j * x j = \sum_(0 <= j < a) g j * acc j.
  by apply: sum_nat_eq => j lj; rewrite xa.
exists x; split=> //; apply/F; split.
- by move=> i li; rewrite xt // sumx.
- by move=> r lr; rewrite xg // /gd /jaccel sumx addrC subrK.
split; apply/matrixP => i j; rewrite ord1 [LHS]mxE sumx.
  rewrite [RHS]mxE [blk3 _ _ _ _]mxE xd /td add0n.
  have -> : ent (of_mx ref) i 0 = ref (lshift 3 i) 0 by rewrite -of_mxE.
  by rewrite col_mxEu addrC subrK.
rewrite [RHS]mxE [blk3 _ _ _ _]mxE xd /td.
have -> : ent (of_mx ref) (3 + i)%N 0 = ref (rshift 3 i) 0 by rewrite -of_mxE.
by rewrite col_mxEd addrC subrK.
Qed.
End Props.

(* ---- examples and refutations ---- *)
Section Examples.
Variable R : realFieldType.
Local Notation dm := (dm R).

(* the hand is to follow it: linear acceleration (0, 1, 0), angular (0, 0, 1) *)
Definition follow (i : nat) : R := ((i == 1) || (i == 5))%N%:R.

Example C110_hypotheses : nc_ok (xrobNC 1 follow) (xtaskNC follow) (vec 12 (fun i => (i == 5)%N%:R)) 1 7 (hand R) 0.
Proof. exact: xNC_ok. Qed.

Lemma xNC_feas g f pa q : dims pa 12 1 -> problemNC (xrobNC g f) (xtaskNC f) pa = Some q ->
  (forall x, bqp_feasible q x <->
     [/\ x 1%N = x 0%N + g, forall r, (r < 6)%N -> ent pa (6 + r) 0 + nc_gdev 1 x r = 0 & nc_follows (xtaskNC f) pa 7 1 (hand R) x]) /\
  (forall x, bqp_cost q x = 1 / 2%:R * (\sum_(0 <= r < 6) nc_gdev 1 x r ^+ 2 + 5%:R * \sum_(0 <= r < 6) nc_tdev 1 x r ^+ 2)).
Proof.
move=> dp eq; have [q' [eq' Fq Cq]] := C110_problem_partial (xNC_ok g f dp).
move: eq'; rewrite eq => -[eqq]; rewrite -{}eqq in Fq Cq; rewrite subr0 in Fq.
split=> // x; rewrite Fq; have [rp _] := dp.
have e1 : nc_motion (xrobNC g f) 1 x <-> x 1%N = x 0%N + g.
  split=> [h|h [|i] //]; last by move=> _; rewrite /= big_nat1 /= mul1r.
  by have := h 0%N isT; rewrite /= big_nat1 /= mul1r -[nc_trq _ _ _]/(x 1%N) => e; rewrite -e.
have e2 : nc_momentum (xrobNC g f) pa 1 x <-> forall r, (r < 6)%N -> ent pa (6 + r) 0 + nc_gdev 1 x r = 0.
  have z r : jaccel 1 (jr_JI (xrobNC g f)) x r = 0 by rewrite /jaccel big_nat1 /= mul0r.
  by split=> h r lr; have := h r lr; rewrite z rp.
by split=> -[h1 h2 h3]; split=> //; [apply/e1|apply/e2|apply/e1|apply/e2].
Qed.

(* the part of the hand's acceleration that the joint contributes *)
Lemma xNC_part f x : nc_part (xtaskNC f) 7 1 x 0 = (vec3 0 (x 0%N) 0 : 'cV[R]_3) /\
  nc_part (xtaskNC f) 7 1 x 3 = (vec3 0 0 (x 0%N) : 'cV[R]_3).
Proof.
split; apply: vecP; rewrite !xyz /X /Y /Z !mxE !big_nat1 /= ?inordK //=; ring.
Qed.

Lemma vec3_eq (a b c d e f : R) : vec3 a b c = vec3 d e f <-> [/\ a = d, b = e & c = f].
Proof.
split=> [h|[-> -> ->] //]; split.
- by rewrite -(X3 a b c) h X3.
- by rewrite -(Y3 a b c) h Y3.
- by rewrite -(Z3 a b c) h Z3.
Qed.

Lemma vec3_id (v : 'cV[R]_3) : v = vec3 (X v) (Y v) (Z v).
Proof. by apply: vecP; rewrite !xyz. Qed.

Lemma xNC_defined (g : R) (f : nat -> R) (pa : dm) : dims pa 12 1 -> exists q, problemNC (xrobNC g f) (xtaskNC f) pa = Some q.
Proof. by move=> dp; have [q [eq _ _]] := C110_problem_partial (xNC_ok g f dp); exists q. Qed.

Lemma blkX (F : nat -> R) k : X (blk3 F k) = F k /\ Y (blk3 F k) = F (k + 1)%N /\ Z (blk3 F k) = F (k + 2)%N.
Proof. by rewrite /X /Y /Z !mxE !inordK // addn0. Qed.

Lemma handX : [/\ X (hand R) = 1, Y (hand R) = 0 & Z (hand R) = 0].
Proof. by rewrite /X /Y /Z !mxE /= !inordK. Qed.

(* the task rows in coordinates, for a base that only turns about z with acceleration w *)
Lemma xNC_follows (f : nat -> R) (w : R) (x : nat -> R) :
  nc_follows (xtaskNC f) (vec 12 (fun i => if (i == 5)%N then w else 0)) 7 1 (hand R) x <->
  [/\ 0 = f 0%N + nc_tdev 1 x 0 /\ x 0%N = f 1%N - (f 5%N - w) + nc_tdev 1 x 1,
      0 = f 2%N + f 4%N + nc_tdev 1 x 2, 0 = f 3%N + nc_tdev 1 x 3,
      0 = f 4%N + nc_tdev 1 x 4 & x 0%N = f 5%N - w + nc_tdev 1 x 5].
Proof.
rewrite /nc_follows; have [-> ->] := xNC_part f x; have [hx hy hz] := handX.
have b F k := blkX F k.
rewrite [X in vec3 0 (x 0%N) 0 = X]vec3_id [X in vec3 0 0 (x 0%N) = X]vec3_id !vec3_eq.
rewrite /crossp !xyz hx hy hz /upper /lower !(proj1 (b _ _)) !(proj1 (proj2 (b _ _))) !(proj2 (proj2 (b _ _))) /=.
rewrite !mul0r !mul1r !subr0 !addr0 !sub0r.
by split=> [[[h1 h2 h3] [h4 h5 h6]]|[[h1 h2] h3 h4 h5 h6]].
Qed.

(* an answer with acceleration a, torque a + g, and the deviation t *)
Definition xnc (g a : R) (t : nat -> R) (i : nat) : R :=
  if (i == 0)%N then a else if (i == 1)%N then a + g else if (i < 8)%N then 0 else t (i - 8)%N.

Lemma xnc_parts g a t : [/\ xnc g a t 0 = a, xnc g a t 1 = a + g, forall r, (r < 6)%N -> nc_gdev 1 (xnc g a t) r = 0 &
  forall r, nc_tdev 1 (xnc g a t) r = t r].
Proof.
split=> // r; rewrite /nc_gdev /nc_tdev /xnc.
  move=> lr; have -> : (1 + 1 + r == 0)%N = false by lia.
  have -> : (1 + 1 + r == 1)%N = false by lia.
  by have -> : (1 + 1 + r < 8)%N by lia.
have -> : (1 + 1 + 6 + r == 0)%N = false by lia.
have -> : (1 + 1 + 6 + r == 1)%N = false by lia.
have -> : (1 + 1 + 6 + r < 8)%N = false by lia.
by rewrite addKn.
Qed.

Local Notation turn w := (vec 12 (fun i => if (i == 5)%N then w else 0 : R)).

(* the problem for a base that turns about z with acceleration w, in coordinates *)
Lemma xNC_turn g f w : exists q, [/\ problemNC (xrobNC g f) (xtaskNC f) (turn w) = Some q,
  forall x, bqp_feasible q x <-> [/\ x 1%N = x 0%N + g, forall r, (r < 6)%N -> nc_gdev 1 x r = 0 &
  [/\ 0 = f 0%N + nc_tdev 1 x 0 /\ x 0%N = f 1%N - (f 5%N - w) + nc_tdev 1 x 1,
      0 = f 2%N + f 4%N + nc_tdev 1 x 2, 0 = f 3%N + nc_tdev 1 x 3,
      0 = f 4%N + nc_tdev 1 x 4 & x 0%N = f 5%N - w + nc_tdev 1 x 5]] &
  forall x, bqp_cost q x = 1 / 2%:R * (\sum_(0 <= r < 6) nc_gdev 1 x r ^+ 2 + 5%:R * \sum_(0 <= r < 6) nc_tdev 1 x r ^+ 2)].
Proof.
have dp : dims (turn w) 12 1 by [].
have [q e] := xNC_defined g f dp; have [F C] := xNC_feas dp e.
exists q; split=> // x; rewrite F; have W := xNC_follows f w x.
have e2 : (forall r, (r < 6)%N -> ent (turn w) (6 + r) 0 + nc_gdev 1 x r = 0) <-> (forall r, (r < 6)%N -> nc_gdev 1 x r = 0).
  have z r : ent (turn w) (6 + r) 0 = 0 by [].
  by split=> h r lr; have := h r lr; rewrite z add0r.
by split=> -[h1 h2 h3]; split=> //; [apply/e2|apply/W|apply/e2|apply/W].
Qed.


(* C111 refuted: the joint at rest gives the hand exactly the desired acceleration; every optimum of
   the problem gives it another *)
Theorem C111_attainable_missed_refuted : exists (rb : jrobot R) s pa q,
  [/\ nc_ok rb s pa 1 7 (hand R) 0, problemNC rb s pa = Some q,
   exists x, [/\ bqp_feasible q x,
      link_lin (hand R) (upper pa) (lower pa) (nc_part s 7 1 x 0) = upper (j_f s) &
      link_ang (lower pa) (nc_part s 7 1 x 3) = lower (j_f s)] &
   (exists x, bqp_optimal q x) /\
   forall x, bqp_optimal q x ->
      link_lin (hand R) (upper pa) (lower pa) (nc_part s 7 1 x 0) <> upper (j_f s) /\
      link_ang (lower pa) (nc_part s 7 1 x 3) <> lower (j_f s)].
Proof.
have [q [e F C]] := xNC_turn 0 follow 1.
exists (xrobNC 0 follow), (xtaskNC follow), (turn 1), q.
have [hx hy hz] := handX; have b G k := blkX G k.
have lin x : link_lin (hand R) (upper (turn 1)) (lower (turn 1)) (nc_part (xtaskNC follow) 7 1 x 0) = vec3 0 (1 + x 0%N) 0.
  rewrite (proj1 (xNC_part follow x)) /link_lin /crossp /upper /lower; apply: vecP;
  rewrite !xyz ?hx ?hy ?hz ?(proj1 (b _ _)) ?(proj1 (proj2 (b _ _))) ?(proj2 (proj2 (b _ _))) /=; ring.
have ang x : link_ang (lower (turn 1)) (nc_part (xtaskNC follow) 7 1 x 3) = vec3 0 0 (1 + x 0%N).
  rewrite (proj2 (xNC_part follow x)) /link_ang /lower; apply: vecP;
  rewrite !xyz ?(proj1 (b _ _)) ?(proj1 (proj2 (b _ _))) ?(proj2 (proj2 (b _ _))) /=; ring.
have up : upper (j_f (xtaskNC follow)) = vec3 0 1 0.
  by apply: vecP; rewrite !xyz /upper ?(proj1 (b _ _)) ?(proj1 (proj2 (b _ _))) ?(proj2 (proj2 (b _ _))).
have lo : lower (j_f (xtaskNC follow)) = vec3 0 0 1.
  by apply: vecP; rewrite !xyz /lower ?(proj1 (b _ _)) ?(proj1 (proj2 (b _ _))) ?(proj2 (proj2 (b _ _))).
(* every answer by its acceleration *)
pose t a i : R := if (i == 1)%N then a - 1 else if (i == 5)%N then a else 0.
have feas a : bqp_feasible q (xnc 0 a (t a)).
  have [p0 p1 p2 p3] := xnc_parts 0 a (t a); apply/F; split; first by rewrite p0 p1.
    exact: p2.
  by rewrite !p3 p0 /t /follow /=; split; first split; ring.
have cst x : bqp_feasible q x -> bqp_cost q x = 5%:R / 2%:R * ((x 0%N - 1) ^+ 2 + x 0%N ^+ 2).
  move=> /F [_ g0 [[t0 t1] t2 t3 t4 t5]]; rewrite C.
  have -> : \sum_(0 <= r < 6) nc_gdev 1 x r ^+ 2 = 0.
    by rewrite sum_nat0 // => r lr; rewrite g0 // expr0n.
  rewrite !big_nat_recr //= big_geq //.
  move: t0 t1 t2 t3 t4 t5; rewrite /follow /=; move: (nc_tdev 1 x) (x 0%N) => T a t0 t1 t2 t3 t4 t5.
  have -> : T 0%N = 0 by rewrite t0; ring.
  have -> : T 1%N = a - 1 by rewrite t1; ring.
  have -> : T 2%N = 0 by rewrite t2; ring.
  have -> : T 3%N = 0 by rewrite t3; ring.
  have -> : T 4%N = 0 by rewrite t4; ring.
  have -> : T 5%N = a by rewrite t5; ring.
  by rewrite !expr0n /=; field.
have two : (2%:R : R) != 0 by rewrite pnatr_eq0.
have sq a : 5%:R / 2%:R * ((a - 1) ^+ 2 + a ^+ 2) = 5%:R / 4%:R + 5%:R * (a - 1 / 2%:R) ^+ 2 :> R by field.
have opt x : bqp_optimal q x -> x 0%N = 1 / 2%:R.
  move=> [fx ox]; have := ox _ (feas (1 / 2%:R)); rewrite !cst // !sq; have [-> _ _ _] := xnc_parts 0 (1 / 2%:R) (t (1 / 2%:R)).
  rewrite subrr expr0n /= mulr0 addr0 -subr_le0 addrAC subrr add0r pmulr_rle0 ?ltr0n // => h.
  by apply/eqP; rewrite -subr_eq0 -sqrf_eq0 eq_le h sqr_ge0.
split=> //; first exact: xNC_ok.
- exists (xnc 0 0 (t 0)); split; first exact: feas.
  + by rewrite lin up /xnc /= addr0.
  by rewrite ang lo /xnc /= addr0.
split.
  exists (xnc 0 (1 / 2%:R) (t (1 / 2%:R))); split; first exact: feas.
  move=> y fy; rewrite !cst // !sq; have [-> _ _ _] := xnc_parts 0 (1 / 2%:R) (t (1 / 2%:R)).
  rewrite subrr expr0n /= mulr0 addr0 ler_addl; apply: mulr_ge0; [exact: ler0n | exact: sqr_ge0].
have h0 : (1 / 2%:R : R) != 0 by rewrite mul1r invr_eq0.
move=> x /opt ex; rewrite lin ang ex up lo; split=> /vec3_eq [_ h1 h2].
  by move/eqP: h0; apply; apply: (addrI 1); rewrite h1 addr0.
by move/eqP: h0; apply; apply: (addrI 1); rewrite h2 addr0.
Qed.

(* C112 refuted: every optimum asks for a torque of 1000, the limit in the code being 100 *)
Theorem C112_torque_limit_refuted : exists (rb : jrobot R) s pa q,
  [/\ nc_ok rb s pa 1 7 (hand R) 0, problemNC rb s pa = Some q, exists x, bqp_optimal q x &
   forall x, bqp_optimal q x -> 100%:R < nc_trq 1 x 0].
Proof.
have [q [e F C]] := xNC_turn 1000%:R (fun _ => 0) 0.
exists (xrobNC 1000%:R (fun _ => 0)), (xtaskNC (fun _ => 0)), (turn 0), q.
have cge x : 0 <= bqp_cost q x.
  rewrite C; apply: mulr_ge0; first by rewrite divr_ge0 ?ler01 ?ler0n.
  apply: addr_ge0; first by apply: sumr_ge0 => i _; exact: sqr_ge0.
  by apply: mulr_ge0; [exact: ler0n | apply: sumr_ge0 => i _; exact: sqr_ge0].
have [p0 p1 p2 p3] := xnc_parts 1000%:R 0 (fun _ => 0).
have f0 : bqp_feasible q (xnc 1000%:R 0 (fun _ => 0)).
  apply/F; split; first by rewrite p0 p1.
    exact: p2.
  by rewrite !p3 p0; split; first split; ring.
have c0 : bqp_cost q (xnc 1000%:R 0 (fun _ => 0)) = 0.
  rewrite C !sum_nat0 ?mulr0 ?addr0 ?mulr0 // => r lr; first by rewrite p3 expr0n.
  by rewrite p2 // expr0n.
split=> //; first exact: xNC_ok.
  by exists (xnc 1000%:R 0 (fun _ => 0)); split=> // y _; rewrite c0.
move=> x [fx ox]; have := ox _ f0; rewrite c0 => cx.
have {cx} cx : bqp_cost q x = 0 by apply/eqP; rewrite eq_le cx cge.
have [m g [[t0 t1] t2 t3 t4 t5]] := proj1 (F x) fx.
have x0 : x 0%N = 0.
  have z5 : nc_tdev 1 x 5 ^+ 2 = 0.
    move: cx; rewrite C (sum_nat0 (f := fun r => nc_gdev 1 x r ^+ 2)); last by move=> r lr; rewrite g // expr0n.
    rewrite add0r => /eqP; rewrite !mulf_eq0 invr_eq0 !pnatr_eq0 oner_eq0 /= => /eqP s0.
    apply/eqP; rewrite eq_le sqr_ge0 andbT -s0 big_nat_recr //= ler_addr.
    by apply: sumr_ge0 => i _; exact: sqr_ge0.
  by move/eqP: z5; rewrite expf_eq0 /= => /eqP z5; rewrite t5 z5; ring.
by rewrite /nc_trq m x0 add0r ltr_nat.
Qed.

Example C111_hypotheses : exists q x, [/\ problemNC (xrobNC 1 follow) (xtaskNC follow) (turn 1) = Some q, bqp_feasible q x &
  nc_follows (xtaskNC follow) (turn 1) 7 1 (hand R) x].
Proof.
have dp : dims (turn (1 : R)) 12 1 by [].
have [q [x [e fx _]]] := C112_no_limits_partial (fun _ => 3%:R) (xNC_ok 1 follow (pa := turn 1) (conj erefl erefl)).
exists q, x; split=> //.
by have [_ _] := proj1 (proj1 (xNC_feas dp e) x) fx.
Qed.

(* C110 refuted: a three-dimensional task whose members all have the right sizes *)
Theorem C110_three_dim_refuted : exists (rb : jrobot R) s pa, [/\ task rb 0 = Some s, j_dof s = 3%N,
  dims (j_f s) 3 1 /\ dims (j_J s) 3 7, dims pa (jr_rnv rb) 1 &
  forall solver, CalcSingleTaskTorqueWithJACC_QP_R_NC solver rb 0 pa = None].
Proof.
pose s : jtask R := JT 0 3 (DM 3 7 (fun _ _ => 1)) (vec 3 (fun _ => 1)) (dzero R 0 1) (dzero R 0 1) (dzero R 0 1) (dzero R 0 1) (dzero R 0 1) (Some 1%N).
exists (JR 7 1 6 1 (xA R) (vec 7 (fun _ => 0)) (xJC R) [:: xfoot R] false (dzero R 0 0) [:: s] 2 12 6
     (dzero R 0 0) (dzero R 0 0) (dzero R 0 0) (dzero R 0 0) 1 6 (dident R 7) (dzero R 6 1) [:: 0; hand R]), s, (turn 0).
split=> // solver; exact: (@C110_other_dims R solver _ 0%N s _ erefl (conj erefl erefl) erefl isT).
Qed.
End Examples.

Print Assumptions C110_wrong_size.
Print Assumptions C110_problem_partial.
Print Assumptions C110_answer_partial.
Print Assumptions C110_other_dims.
Print Assumptions C110_three_dim_refuted.
Print Assumptions C110_sized.
Print Assumptions C111_reference_partial.
Print Assumptions C111_attainable_missed_refuted.
Print Assumptions C112_no_limits_partial.
Print Assumptions C112_torque_limit_refuted.
