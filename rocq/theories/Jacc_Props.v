(* C104-C109: the acceleration-level QPs of the full and the reduced model. *)
From mathcomp Require Import all_ssreflect all_algebra.
From mathcomp Require Import zify.
From mathcomp.algebra_tactics Require Import ring.
From Verif Require Import DMat DMatL Cone_Model Cone_Spec QP_Model Jacc_Model Jacc_Spec Jacc_Proofs Jacc_Thm Jacc_Run Jacc_Ex.
Set Implicit Arguments.
Unset Strict Implicit.
Unset Printing Implicit Defensive.
Import Order.TTheory GRing.Theory Num.Theory.
Local Open Scope ring_scope.

Section Props.
Variable R : realFieldType.
Local Notation jrobot := (jrobot R).
Local Notation jtask := (jtask R).

(* C104: the points of the problem are exactly the plans that keep the tasks above *)
Theorem C104_problem_is_plan (rb : jrobot) m k s : jrobot_ok rb m -> task rb k = Some s -> solved_above rb k ->
  exists q, [/\ problemJ rb s = Some q,
    forall x, bqp_feasible q x <->
      [/\ plan (full_of rb) (jr_cc rb) m x, above_met (taskacc (6 + m)) rb k x & tracks (full_of rb) (taskacc (6 + m)) s x] &
    forall x, bqp_cost q x = 1 / 2%:R * (energy (full_of rb) x + 100%:R * deviation (full_of rb) (j_dof s) x)].
Proof. by move=> ok es sol; have [q [e [F C]]] := problemJ_ok ok es sol; exists q. Qed.

Theorem C104_answer solver (rb : jrobot) m k s : jrobot_ok rb m -> task rb k = Some s -> solved_above rb k -> sound solver ->
  CalcSingleTaskTorqueWithJACC_QP solver rb k = Some (rb, false) \/
  exists rb' s' x, [/\ CalcSingleTaskTorqueWithJACC_QP solver rb k = Some (rb', true), only_task rb rb' k s', same_input s s',
    j_gacc s' = j_gacc s & [/\ holds (full_of rb) s' x, plan (full_of rb) (jr_cc rb) m x, above_met (taskacc (6 + m)) rb k x &
    tracks (full_of rb) (taskacc (6 + m)) s x]].
Proof.
move=> ok es sol so; have [q [e M]] := problemJ_ok ok es sol.
have [_ _ [sz lev]] := ok; have [hE _ _] := lev k s es.
have [[_ e0]|[rb' [s' [ec [h1 h2 h3 [x hx]]]]]] := call_ok so es e M hE sz; first by left.
by right; exists rb', s', x.
Qed.

(* C105: all levels *)
Theorem C105_hierarchy solver (rb : jrobot) m : jrobot_ok rb m -> sound solver -> complete solver ->
  (exists x, plan (full_of rb) (jr_cc rb) m x) ->
  exists rb', jrun (CalcSingleTaskTorqueWithJACC_QP solver) rb = Some (rb', true) /\
    forall k s, task rb k = Some s -> exists s' x, [/\ task rb' k = Some s', same_input s s', holds (full_of rb) s' x,
      plan (full_of rb) (jr_cc rb) m x & above_met (taskacc (6 + m)) rb' k.+1 x].
Proof.
move=> okr so co [x0 p0]; have [[_ _ cd] okD _] := okr.
have [|||||||||||rb' [e _ _ new]] := @jloop_ok R solver (@problemJ R) (@full_of R) (full_of rb) (jr_cc rb) (taskacc (6 + m)) m m
  (fun r => [/\ jrobot_ok r m, full_of r = full_of rb & jr_cc r = jr_cc rb]) _ _ _ _ _ _ _ so co (size (jr_ts rb)) 0%N rb.
- by rewrite -cd.
- by [].
- move=> s s' x y r [_ _ JE _ _] ext; rewrite /taskacc JE; apply: jaccel_ext => i li; rewrite ext //.
  by have [-> _ _ _ _] := okD.
- by move=> r [].
- by move=> r k s [[_ _ [sz lev]] _ _] es; have [] := lev k s es.
- by move=> r k s [o dE _] es sol; have [q M] := problemJ_ok o es sol; exists q; rewrite -dE.
- move=> r r' k s s' on es si [o dE cE].
  by have [h1 h2 h3] := only_keeps on es si o; rewrite h2 h3.
- by [].
- by [].
- by [].
- by exists x0.
exists rb'; split=> // k s es.
have [s' [h1 h2 [x [h3 h4 h5]]]] := new k s (leq0n _) es.
by exists s', x.
Qed.

(* C104, C109: all parts of the problem handed to the solver have matching sizes *)
Lemma JaccQP_sized (D : jdata R) C ccs tb prev t J f q : JaccQP D C ccs tb prev t J f = Some q ->
  bqp_sized q (d_nv D + d_m D + d_c D + t) (d_nv D + d_c D + sumn [seq p.1.1 | p <- prev] + t + ccs).
Proof.
have bw (M : DMat.dm R) a b h w B M' : blockw M a b h w B = Some M' -> dims M' (nr M) (nc M).
  by rewrite /blockw; case: ifP => // _ [<-].
have sw (M : DMat.dm R) a h B M' : segw M a h B = Some M' -> dims M' (nr M) (nc M) by apply: bw.
have lp l a h (w : DMat.dm R) l' : lput l a h w = Some l' -> lsize l' = lsize l by rewrite /lput; case: ifP => // _ [<-].
have lc l a h (x : R) l' : lconst l a h x = Some l' -> lsize l' = lsize l by rewrite /lconst; case: ifP => // _ [<-].
have li l a h (l' : lbv R) : lsetinf l a h = Some l' -> lsize l' = lsize l by rewrite /lsetinf; case: ifP => // _ [<-].
rewrite /JaccQP /jcost; set n := (_ + t)%N; set eq := (_ + t)%N.
case E0: blockw => [H0|] //=; case E1: blockw => [H|] //=; case: jmotion => //= r1; case: jprev => //= -[[A2 lb2] idx].
case: blockw => //= A3; case: blockw => //= A4; case: segw => //= lb3; case: blockw => //= Ai.
case E2: blockw => [B1|] //=; case E3: blockw => [B2|] //=; case E4: lput => [l1|] //=; case E5: lsetinf => [l2|] //=.
case E6: segw => [u1|] //=; case E7: segw => [u2|] //=; case E8: lconst => [x1|] //=; case E9: lconst => [y1|] //=.
case E10: lconst => [x2|] //=; case E11: lconst => [y2|] //= [<-].
have [h1 h2] := bw _ _ _ _ _ _ _ E0; have [h3 h4] := bw _ _ _ _ _ _ _ E1.
have [a1 a2] := bw _ _ _ _ _ _ _ E2; have [a3 a4] := bw _ _ _ _ _ _ _ E3.
have [b1 b2] := sw _ _ _ _ _ E6; have [b3 b4] := sw _ _ _ _ _ E7.
split=> //=; rewrite /dims ?h3 ?h4 ?h1 ?h2 ?a3 ?a4 ?a1 ?a2 ?b3 ?b4 ?b1 ?b2 //.
  by rewrite (li _ _ _ _ E5) (lp _ _ _ _ _ E4).
by rewrite (lc _ _ _ _ _ E10) (lc _ _ _ _ _ E11) (lc _ _ _ _ _ E8) (lc _ _ _ _ _ E9).
Qed.
Theorem C104_sized (rb : jrobot) s q : problemJ rb s = Some q ->
  exists k, bqp_sized q (jr_nv rb + jr_m rb + jr_cdof rb + j_dof s) k.
Proof.
rewrite /problemJ; case: jabove => //= prev; case: jcone => //= AR; case: getContactConstraintMatrix => //= C e.
by eexists; exact: (JaccQP_sized e).
Qed.
Theorem C109_sized (rb : jrobot) s q : problemJR rb s = Some q ->
  exists k, bqp_sized q (jr_rnv rb + jr_rm rb + jr_cdof rb + j_dof s) k.
Proof.
rewrite /problemJR; case: jabove => //= prev; case: redJ => //= J; case: jcone => //= AR; case: dmul => //= C.
by case: ifP => // _ e; eexists; exact: (JaccQP_sized e).
Qed.

(* C106: the limits given by SetTorqueLimit do not enter *)
Theorem C106_limits_ignored (rb : jrobot) (s : jtask) ls lim :
  problemJ (JR (jr_nv rb) (jr_m rb) (jr_cdof rb) (jr_cln rb) (jr_A rb) (jr_G rb) (jr_JC rb) (jr_cc rb) ls lim
     (jr_ts rb) (jr_nqp rb) (jr_rnv rb) (jr_rm rb) (jr_AR rb) (jr_GR rb) (jr_JCR rb) (jr_JRinvT rb)
     (jr_nc rb) (jr_vc rb) (jr_ANC rb) (jr_JI rb) (jr_xpos rb)) s = problemJ rb s.
Proof. by []. Qed.

Theorem C106_limits_200_partial solver (rb rb' : jrobot) m k s s' : jrobot_ok rb m -> task rb k = Some s -> solved_above rb k ->
  sound solver -> CalcSingleTaskTorqueWithJACC_QP solver rb k = Some (rb', true) -> task rb' k = Some s' ->
  forall i, (i < m)%N -> `|ent (j_tq s') i 0| <= 200%:R.
Proof.
move=> ok es sol so ec ts' i li.
have [|] := C104_answer ok es sol so; first by rewrite ec.
case=> r1 [s1 [x [e1 [_ t1 _] _ _ [[_ [_ h] _ _] [_ _ _ _ lim] _ _]]]].
move: e1; rewrite ec => -[e1]; rewrite e1 t1 in ts'; case: ts' => <-.
by have [_ [_ mE _ _ _] _] := ok; rewrite h ?lim // mE.
Qed.

(* C107: when a task is met exactly *)
Theorem C107_exact_iff_partial (rb : jrobot) m k s q x : jrobot_ok rb m -> task rb k = Some s -> solved_above rb k ->
  spd (full_of rb) -> problemJ rb s = Some q -> bqp_feasible q x -> (forall r, (r < j_dof s)%N -> slk (full_of rb) x r = 0) ->
  bqp_optimal q x <->
  (forall y, plan (full_of rb) (jr_cc rb) m y -> above_met (taskacc (6 + m)) rb k y -> energy (full_of rb) x <= energy (full_of rb) y).
Proof.
move=> ok es sol sp eq fx sx; have [q' [eq' M]] := problemJ_ok ok es sol.
move: eq'; rewrite eq => -[eqq]; rewrite -eqq in M.
have [[_ _ cd] okD _] := ok; rewrite cd in okD.
apply: (exact_iff okD (leqnn m) _ (@taskacc_affine R (6 + m)) M sp fx sx).
by move=> s' y z r ext; apply: jaccel_ext => i li; rewrite ext //; have [-> _ _ _ _] := okD.
Qed.

(* a robot that can stand still never meets a first task that asks for a motion *)
Theorem C107_moving_task_missed (rb : jrobot) m s q x y : jrobot_ok rb m -> task rb 0 = Some s -> spd (full_of rb) ->
  problemJ rb s = Some q -> bqp_optimal q x ->
  plan (full_of rb) (jr_cc rb) m y -> (forall i, (i < 6 + m)%N -> y i = 0) ->
  (exists2 r, (r < j_dof s)%N & ent (j_f s) r 0 != 0) ->
  exists2 r, (r < j_dof s)%N & slk (full_of rb) x r != 0.
Proof.
move=> ok es sp eq opt py y0 [r lr fr].
case: (boolP (has (fun r => slk (full_of rb) x r != 0) (iota 0 (j_dof s)))) => [/hasP[i]|/hasPn h].
  by rewrite mem_iota add0n => /andP[_ li] nz; exists i.
exfalso; have sx i : (i < j_dof s)%N -> slk (full_of rb) x i = 0.
  by move=> li; have := h i; rewrite mem_iota add0n li negbK => /(_ isT) /eqP.
have sol : solved_above rb 0 by [].
have fx := proj1 opt.
have [okc okD _] := ok; have [nvE _ _ _ _] := okD.
have := proj1 (C107_exact_iff_partial ok es sol sp eq fx sx) opt y py (fun i s0 li => False_ind _ (notF li)).
have -> : energy (full_of rb) y = 0.
  rewrite /energy; apply: sum_nat0 => i li; apply: sum_nat0 => j lj; rewrite y0 ?mul0r //; by rewrite -nvE.
move=> le; have x0 i : (i < 6 + m)%N -> x i = 0.
  move=> li; apply/eqP; apply: contraTT le => nz; rewrite -ltNge.
  by apply: (proj2 sp); exists i; rewrite ?nvE.
have [q' [eq' F _]] := C104_problem_is_plan ok es sol.
move: eq'; rewrite eq => -[eqq]; rewrite -eqq in F.
have [_ _ tr] := proj1 (F x) fx; have := tr r lr; rewrite sx // addr0 => e.
by move: fr; rewrite -e /taskacc /jaccel sum_nat0 ?eqxx // => j lj; rewrite x0 ?mulr0.
Qed.

(* C108: gravity is the only generalised force in the plan *)
Theorem C108_gravity_only_partial (rb : jrobot) m (x B : nat -> R) : plan (full_of rb) (jr_cc rb) m x ->
  motion (full_of rb) B x <-> forall i, (i < jr_nv rb)%N -> B i = ent (jr_G rb) i 0.
Proof.
case=> mo _ _ _ _; split=> [mB i li|h i li].
  by have := mB i li; rewrite -(mo i li) => /addrI.
by rewrite -(mo i li) h.
Qed.

(* C109: the reduced model *)
Theorem C109_problem_is_plan (rb : jrobot) m nv k s : jrobotR_ok rb m nv -> task rb k = Some s -> solved_above rb k ->
  exists q, [/\ problemJR rb s = Some q,
    forall x, bqp_feasible q x <->
      [/\ plan (reduced_of rb) (jr_cc rb) (m - 6) x, above_met (taskaccR (jr_JRinvT rb)) rb k x &
          tracks (reduced_of rb) (taskaccR (jr_JRinvT rb)) s x] &
    forall x, bqp_cost q x = 1 / 2%:R * (energy (reduced_of rb) x + 100%:R * deviation (reduced_of rb) (j_dof s) x)].
Proof. by move=> ok es sol; have [q [e [F C]]] := problemJR_ok ok es sol; exists q. Qed.

Theorem C109_answer solver (rb : jrobot) m nv k s : jrobotR_ok rb m nv -> task rb k = Some s -> solved_above rb k -> sound solver ->
  CalcSingleTaskTorqueWithJACC_QP_R solver rb k = Some (rb, false) \/
  exists rb' s' x, [/\ CalcSingleTaskTorqueWithJACC_QP_R solver rb k = Some (rb', true), only_task rb rb' k s', same_input s s',
    j_gacc s' = j_gacc s & [/\ holds (reduced_of rb) s' x, plan (reduced_of rb) (jr_cc rb) (m - 6) x,
    above_met (taskaccR (jr_JRinvT rb)) rb k x & tracks (reduced_of rb) (taskaccR (jr_JRinvT rb)) s x]].
Proof.
move=> ok es sol so; have [q [e M]] := problemJR_ok ok es sol.
have [_ _ _ _ [sz lev]] := ok; have [hE _ _] := lev k s es.
have [[_ e0]|[rb' [s' [ec [h1 h2 h3 [x hx]]]]]] := call_ok so es e M hE sz; first by left.
by right; exists rb', s', x.
Qed.

Theorem C109_hierarchy solver (rb : jrobot) m nv : jrobotR_ok rb m nv -> sound solver -> complete solver ->
  (exists x, plan (reduced_of rb) (jr_cc rb) (m - 6) x) ->
  exists rb', jrun (CalcSingleTaskTorqueWithJACC_QP_R solver) rb = Some (rb', true) /\
    forall k s, task rb k = Some s -> exists s' x, [/\ task rb' k = Some s', same_input s s', holds (reduced_of rb) s' x,
      plan (reduced_of rb) (jr_cc rb) (m - 6) x & above_met (taskaccR (jr_JRinvT rb)) rb' k.+1 x].
Proof.
move=> okr so co [x0 p0]; have [[_ _ cd] okD le6 dT _] := okr.
have [|||||||||||rb' [e _ _ new]] := @jloop_ok R solver (@problemJR R) (@reduced_of R) (reduced_of rb) (jr_cc rb) (taskaccR (jr_JRinvT rb)) (m - 6) m
  (fun r => [/\ jrobotR_ok r m nv, reduced_of r = reduced_of rb, jr_cc r = jr_cc rb & jr_JRinvT r = jr_JRinvT rb]) _ _ _ _ _ _ _ so co (size (jr_ts rb)) 0%N rb.
- by rewrite -cd.
- exact: leq_subr.
- move=> s s' x y r [_ _ JE _ _] ext; rewrite /taskaccR JE; apply: jaccel_ext => k lk.
  apply: sum_nat_eq => j lj; rewrite ext //.
  by have [-> _ _ _ _] := okD; case: dT => <-.
- by move=> r [].
- by move=> r k s [[_ _ _ _ [sz lev]] _ _ _] es; have [] := lev k s es.
- by move=> r k s [o dE _ TE] es sol; have [q M] := problemJR_ok o es sol; exists q; rewrite -dE -TE.
- move=> r r' k s s' on es si [o dE cE TE].
  by have [h1 h2 h3 h4] := only_keepsR on es si o; rewrite h2 h3 h4.
- by [].
- by [].
- by [].
- by exists x0.
exists rb'; split=> // k s es.
have [s' [h1 h2 [x [h3 h4 h5]]]] := new k s (leq0n _) es.
by exists s', x.
Qed.
End Props.

(* ---- examples and refutations ---- *)
Section Examples.
Variable F : realFieldType.
Definition xr (f : F) : jrobot F := xrob true 45%:R [:: xtask 0 f; xtask 1 2%:R].

Example C104_hypotheses : jrobot_ok (xr 1) 1 /\ task (xr 1) 0 = Some (xtask 0 1) /\ solved_above (xr 1) 0.
Proof. by split; [apply: xrob_ok|]. Qed.
Example C105_hypotheses : jrobot_ok (xr 1) 1 /\ exists x, plan (full_of (xr 1)) (jr_cc (xr 1)) 1 x.
Proof. by split; [apply: xrob_ok|exists (xplan 0 0); apply: xplan_ok; rewrite normr0 ler0n]. Qed.
Example C109_hypotheses : jrobotR_ok (xrobR [:: xtask 0 (1 : F); xtask 1 2%:R]) 7 7 /\
  exists x, plan (reduced_of (xrobR [:: xtask 0 (1 : F); xtask 1 2%:R])) [:: xfoot F] (7 - 6) x.
Proof. by split; [apply: xrobR_ok|exists (@xplanR F); apply: xplanR_ok]. Qed.

Lemma xfeas f q : problemJ (xr f) (xtask 0 f) = Some q ->
  (forall x, bqp_feasible q x <-> plan (full_of (xr f)) [:: xfoot F] 1 x /\ x 6%N = f + x 14%N) /\
  (forall x, bqp_cost q x = 1 / 2%:R * (energy (full_of (xr f)) x + 100%:R * x 14%N ^+ 2)).
Proof.
move=> eq; have [q' [eq' Fq Cq]] := @C104_problem_is_plan F (xr f) 1 0%N (xtask 0 f) (xrob_ok true 45%:R f 2%:R) (erefl (Some (xtask 0 f))) (fun i s li => False_ind _ (notF li)).
move: eq'; rewrite -/(xr f) eq => -[eqq]; rewrite -{}eqq in Fq Cq.
split=> x; last by rewrite Cq /deviation /= big_nat1.
rewrite Fq /tracks /=; split=> [[h1 _ h2]|[h1 h2]].
  split=> //; have := h2 0%N isT; rewrite /taskacc /jaccel /= sum_pick' /=.
  by rewrite /slk.
by split=> //; case=> // _; rewrite /taskacc /jaccel /= sum_pick'.
Qed.

Lemma xdefined f : exists q, problemJ (xr f) (xtask 0 f) = Some q.
Proof.
by have [q [eq _ _]] := @C104_problem_is_plan F (xr f) 1 0%N (xtask 0 f) (xrob_ok true 45%:R f 2%:R) (erefl (Some (xtask 0 f))) (fun i s li => False_ind _ (notF li)); exists q.
Qed.

(* the optimal torque is 50 although the limit is 45 and a plan within the limit exists *)
Theorem C106_limit_exceeded_refuted : exists (rb : jrobot F) s q x y,
  [/\ jrobot_ok rb 1, task rb 0 = Some s, problemJ rb s = Some q, bqp_optimal q x &
   [/\ jr_lset rb, ent (jr_lim rb) 0 0 < `|trq (full_of rb) x 0|, bqp_feasible q y & `|trq (full_of rb) y 0| <= ent (jr_lim rb) 0 0]].
Proof.
have [q eq] := xdefined 0; have [Fq Cq] := xfeas eq.
exists (xr 0), (xtask 0 0), q, (xplan 0 0), (xplan (- 10%:R) (- 10%:R)); split=> //.
- exact: xrob_ok.
- split=> [|y fy]; first by apply/Fq; split; [apply: xplan_ok; rewrite normr0 ler0n|rewrite /xplan /= add0r].
  have -> : bqp_cost q (xplan 0 0) = 0.
    rewrite Cq xenergy sum_nat0; last first.
      by do 7 (case=> [_|]; first by rewrite /xplan /= expr0n).
    by rewrite /xplan /= expr0n mulr0 addr0 mulr0.
  rewrite Cq xenergy mulr_ge0 ?divr_ge0 ?ler01 ?ler0n // addr_ge0 //; last by rewrite mulr_ge0 ?ler0n // exprn_even_ge0.
  by apply: sumr_ge0 => i _; rewrite exprn_even_ge0.
split; first by [].
- by rewrite /trq /xplan /= ?addr0 ger0_norm ?ler0n // ltr_nat.
- by apply/Fq; split; [apply: xplan_ok; rewrite normrN ger0_norm ?ler0n|rewrite /xplan /= add0r].
rewrite /trq /xplan /=; have -> : 50%:R - 10%:R = 40%:R :> F by rewrite -natrB.
by rewrite ger0_norm ?ler0n // ler_nat.
Qed.

(* the task asks for acceleration 1, which is attainable; the optimal answer is 100/101 *)
Theorem C107_attainable_task_missed_refuted : exists (rb : jrobot F) s q x y,
  [/\ jrobot_ok rb 1, task rb 0 = Some s, problemJ rb s = Some q, bqp_optimal q x &
   [/\ spd (full_of rb), slk (full_of rb) x 0 != 0, bqp_feasible q y & forall r, (r < j_dof s)%N -> slk (full_of rb) y r = 0]].
Proof.
have [q eq] := xdefined 1; have [Fq Cq] := xfeas eq.
pose a : F := 100%:R / 101%:R.
exists (xr 1), (xtask 0 1), q, (xplan a (a - 1)), (xplan 1 0); split=> //.
- exact: xrob_ok.
- split=> [|y /Fq[py ty]].
    apply/Fq; split; [apply: xplan_ok|by rewrite /xplan /= addrC subrK].
    by rewrite /a ger0_norm ?divr_ge0 ?ler0n // ler_pdivr_mulr ?ltr0n // -natrM ler_nat.
  have [base _] := xplan_base py.
  have en z : (forall i, (i < 6)%N -> z i = 0) -> energy (full_of (xr 1)) z = z 6%N ^+ 2.
    by move=> z0; rewrite xenergy big_nat_recr //= sum_nat0 ?add0r // => i li; rewrite z0 // expr0n.
  rewrite !Cq !en //; last by move=> [|[|[|[|[|[|i]]]]]].
  rewrite ler_pmul2l ?divr_gt0 ?ltr01 ?ltr0n // [xplan _ _ 6]/= [xplan _ _ 14]/=.
  have -> : y 14%N = y 6%N - 1 by rewrite ty addrC addKr.
  rewrite -subr_ge0.
  have -> : y 6%N ^+ 2 + 100%:R * (y 6%N - 1) ^+ 2 - (a ^+ 2 + 100%:R * (a - 1) ^+ 2) = 101%:R * (y 6%N - a) ^+ 2.
    by rewrite /a; field.
  by rewrite mulr_ge0 ?ler0n // exprn_even_ge0.
split; first exact: xspd.
- rewrite /slk /= /a; have -> : 100%:R / 101%:R - 1 = - (1 / 101%:R) :> F by field.
  by rewrite oppr_eq0 mul1r invr_eq0 pnatr_eq0.
- by apply/Fq; split; [apply: xplan_ok; rewrite normr1 ler1n|rewrite /xplan /= addr0].
by case.
Qed.

(* the same robot moving: a Coriolis torque of 3 on the joint is not part of the plan *)
Theorem C108_moving_robot_refuted : exists (rb : jrobot F) s q x (B : nat -> F),
  [/\ jrobot_ok rb 1, task rb 0 = Some s, problemJ rb s = Some q, bqp_feasible q x & ~ motion (full_of rb) B x].
Proof.
have [q eq] := xdefined 0; have [Fq _] := xfeas eq.
exists (xr 0), (xtask 0 0), q, (xplan 0 0), (fun i => ent (jr_G (xr 0)) i 0 + if (i == 6)%N then 3%:R else 0).
have px : plan (full_of (xr 0)) (jr_cc (xr 0)) 1 (xplan 0 0) by apply: xplan_ok; rewrite normr0 ler0n.
split=> //; first exact: xrob_ok.
  by apply/Fq; split=> //; rewrite /xplan /= add0r.
move/(C108_gravity_only_partial _ px) => /(_ 6%N isT) /eqP /=.
by rewrite -subr_eq0 addrC addKr pnatr_eq0.
Qed.

(* hypotheses of C107_moving_task_missed *)
Example C107_hypotheses : [/\ jrobot_ok (xr 1) 1, spd (full_of (xr 1)), plan (full_of (xr 1)) (jr_cc (xr 1)) 1 (xplan 0 0) &
  forall i, (i < 6 + 1)%N -> xplan 0 0 i = 0 :> F].
Proof.
split; [exact: xrob_ok|exact: xspd|by apply: xplan_ok; rewrite normr0 ler0n|].
by do 7 (case=> //).
Qed.
End Examples.

Print Assumptions C104_problem_is_plan.
Print Assumptions C104_answer.
Print Assumptions C104_sized.
Print Assumptions C109_sized.
Print Assumptions C105_hierarchy.
Print Assumptions C106_limits_ignored.
Print Assumptions C106_limits_200_partial.
Print Assumptions C106_limit_exceeded_refuted.
Print Assumptions C107_exact_iff_partial.
Print Assumptions C107_moving_task_missed.
Print Assumptions C107_attainable_task_missed_refuted.
Print Assumptions C108_gravity_only_partial.
Print Assumptions C108_moving_robot_refuted.
Print Assumptions C109_problem_is_plan.
Print Assumptions C109_answer.
Print Assumptions C109_hierarchy.
