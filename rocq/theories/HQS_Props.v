(* C165: the two back ends of a level of the hierarchy *)
From mathcomp Require Import all_ssreflect all_algebra.
From mathcomp Require Import zify.
From Verif Require Import DMat DMatL LinAlg Cone_Model QP_Model QP_Spec HQP_Model HQP_Spec HQP_Proofs HQP_Thm HQP_First HQP_Ex HQP_Props HQS_Model HQS_Spec.
Set Implicit Arguments.
Unset Strict Implicit.
Unset Printing Implicit Defensive.
Import Order.TTheory GRing.Theory Num.Theory.
Local Open Scope ring_scope.

Section C165.
Variable R : realFieldType.
Local Notation level := (level R).

(* raise the slacks to zero *)
Definition raise ns (z : nat -> R) : nat -> R := fun c => if (c < ns)%N then z c else Num.max 0 (z c).

Lemma level_lbE ns nin : exists lb, level_lb R ns nin = Some lb /\
  forall x, above_lb lb x <-> forall c, (c < nin)%N -> 0 <= x (ns + c)%N.
Proof.
rewrite /level_lb; case: (posnP nin) => [->|p].
  by eexists; split.
rewrite /lsetzero /= leqnn; eexists; split=> // x; rewrite /above_lb /=; split=> [h c lc|h c b lc].
  by apply: (h (ns + c)%N 0); rewrite ?leq_addr ?ltn_add2l ?lc.
case: ifP => // /andP[l1 l2] [<-]; rewrite -(subnKC l1); apply: h; lia.
Qed.

(* abstractly: a problem with the slack rows of a level *)
Lemma same_optimal (ns nin : nat) (q : oqp R) (lb : lbv R) :
  (forall x, above_lb lb x <-> forall c, (c < nin)%N -> 0 <= x (ns + c)%N) ->
  (forall z, oqp_feasible q z -> oqp_feasible q (raise ns z)) ->
  (forall z, oqp_cost q (raise ns z) <= oqp_cost q z) ->
  (forall z, oqp_cost q (raise ns z) = oqp_cost q z -> forall c, (c < nin)%N -> 0 <= z (ns + c)%N) ->
  forall x, oqp_optimal q x <-> bqp_optimal q lb x.
Proof.
move=> hlb hf hc hs x; have rlb z : above_lb lb (raise ns z).
  by apply/hlb => c lc; rewrite /raise ltnNge leq_addr /= le_maxr lexx.
split=> [[fx ox]|[fx lx ox]].
  split=> //; last by move=> z fz _; apply: ox.
  by apply/hlb/hs/le_anti; rewrite hc ox //; apply: hf.
split=> // z fz; apply: le_trans (hc z); apply: ox; [exact: hf|exact: rlb].
Qed.

Section Content.
Variables (n : nat) (d : level) (above : seq level) (p l : level) (q : oqp R).
Hypothesis qc : qp_content n d above p l q.
Hypothesis sym : l_cost l -> (Hm n l)^T = Hm n l.
Let u (z : nat -> R) : 'cV[R]_(l_ns p) := col_of (l_ns p) z.
Let v (z : nat -> R) : 'cV[R]_(l_nin l) := col_of (l_nin l) (fun c => z (l_ns p + c)%N).

Lemma raise_u z : u (raise (l_ns p) z) = u z.
Proof. by apply/matrixP => i j; rewrite !mxE /raise ltn_ord. Qed.
Lemma raise_v z i : v (raise (l_ns p) z) i 0 = Num.max 0 (v z i 0).
Proof. by rewrite !mxE /raise ltnNge leq_addr. Qed.

Lemma raise_feasible z : oqp_feasible q z -> oqp_feasible q (raise (l_ns p) z).
Proof.
rewrite !(content_feasible qc) -/(u z) -/(u (raise _ z)) -/(v z) -/(v (raise _ z)) raise_u => -[h1 h2]; split=> // i.
by rewrite raise_v; apply: le_trans (h1 i) _; rewrite le_maxr lexx orbT.
Qed.

Lemma sq_max (x : R) : Num.max 0 x ^+ 2 <= x ^+ 2.
Proof. by case: (leP 0 x) => // _; rewrite expr0n sqr_ge0. Qed.
Lemma cost_diff z : 2%:R * oqp_cost q z - 2%:R * oqp_cost q (raise (l_ns p) z) = \sum_i (v z i 0 ^+ 2 - Num.max 0 (v z i 0) ^+ 2).
Proof.
rewrite !(content_cost qc) // -/(u z) -/(u (raise _ z)) -/(v z) -/(v (raise _ z)) raise_u.
rewrite opprB addrA subrK /level_objective opprD addrACA subrr addr0 opprD addrACA subrr add0r.
by rewrite sumrB /sqnorm; congr (_ - _); apply: eq_bigr => i _; rewrite raise_v.
Qed.
Lemma raise_cost z : oqp_cost q (raise (l_ns p) z) <= oqp_cost q z.
Proof.
rewrite -(ler_pmul2l (_ : 0 < 2%:R :> R)) ?ltr0n // -subr_ge0 cost_diff; apply: sumr_ge0 => i _.
by rewrite subr_ge0 sq_max.
Qed.
Lemma raise_strict z : oqp_cost q (raise (l_ns p) z) = oqp_cost q z -> forall c, (c < l_nin l)%N -> 0 <= z (l_ns p + c)%N.
Proof.
move=> e c lc; have := cost_diff z; rewrite e subrr => /esym/eqP.
rewrite psumr_eq0; last by move=> i _; rewrite subr_ge0 sq_max.
move=> /allP /(_ (Ordinal lc)); rewrite mem_index_enum => /(_ isT) /=.
rewrite (_ : v z (Ordinal lc) 0 = z (l_ns p + c)%N); last by rewrite mxE.
by case: (leP 0 (z (l_ns p + c)%N)) => // h; rewrite expr0n subr0 expf_eq0 /= lt_eqF.
Qed.
End Content.

(* entries below the threshold of sparseView being zero, OSQP's problem is the level's own *)
Lemma osqp_exact (l : level) : nothing_dropped (l_qA l) -> nothing_dropped (l_qH l) ->
  let q := OQP (l_qH l) (l_qg l) (l_qA l) (l_qub l) in
  (forall z, oqp_feasible (osqp_problem l) z <-> oqp_feasible q z) /\
  (forall z, oqp_cost (osqp_problem l) z = oqp_cost q z).
Proof.
move=> ndA ndH q.
have fE z : oqp_feasible (osqp_problem l) z <-> oqp_feasible q z.
  rewrite /oqp_feasible /=; have E a : (a < nr (o_A q))%N -> rowdot (sparseView (o_A q)) a z = rowdot (o_A q) a z.
    by move=> la; rewrite /rowdot; apply: sum_nat_eq => c lc; rewrite (sparse_id ndA).
  by split=> h a la; have := h a la; rewrite E.
have cE z : oqp_cost (osqp_problem l) z = oqp_cost q z.
  rewrite /oqp_cost; congr (_ * _ + _); apply: sum_nat_eq => a la.
  by apply: sum_nat_eq => c lc; rewrite (sparse_id ndH).
by [].
Qed.
Lemma osqp_same (l : level) : nothing_dropped (l_qA l) -> nothing_dropped (l_qH l) -> forall x,
  oqp_optimal (osqp_problem l) x <-> oqp_optimal (OQP (l_qH l) (l_qg l) (l_qA l) (l_qub l)) x.
Proof.
move=> ndA ndH x; have [fE cE] := osqp_exact ndA ndH.
by split=> -[/fE h1 h2]; split; [exact: h1|move=> z /fE fz; rewrite -!cE; apply: h2|exact: h1|move=> z /fE fz; rewrite !cE; apply: h2].
Qed.

(* C165.  After a sequential solve, at every level below the first: HQP_Hierarch::solve is defined, and its optimal
   answers are those of the problem OSQP was given, slacks included *)
Theorem C165_same_answers (n : nat) osqp (d : level) (hs hs' : seq level) (init : bool) :
  (forall i, (i < size hs)%N -> shaped n (nth d hs i)) -> prepared n d hs -> init \/ all_ready d hs ->
  solveSequential osqp hs init = Some hs' ->
  forall i, (0 < i < size hs)%N ->
  let l := nth d hs' i in
  nothing_dropped (l_qA l) -> nothing_dropped (l_qH l) -> (l_cost l -> (Hm n l)^T = Hm n l) ->
  exists q lb, solve_problem (l_ns (nth d hs' i.-1)) l = Some (q, lb) /\
    forall x, bqp_optimal q lb x <-> oqp_optimal (osqp_problem l) x.
Proof.
move=> sh pr st e i li l ndA ndH sym.
have [||hs1 [e1 c]] := @solveSequential_ok R n osqp d init hs _ _ st.
- by move=> h; move: li; rewrite h andbF.
- by move=> j lj; split; [exact: sh|have [] := pr j lj].
move: e1; rewrite e => -[E]; rewrite -{hs1}E in c.
have [lb [elb hlb]] := level_lbE (l_ns (nth d hs' i.-1)) (l_nin l).
exists (OQP (l_qH l) (l_qg l) (l_qA l) (l_qub l)), lb; split; first by rewrite /solve_problem elb.
move=> x; rewrite osqp_same //; symmetry; have qc := c i li; rewrite -/l in qc.
apply: (same_optimal hlb); [exact: (raise_feasible qc)|exact: (raise_cost qc sym)|exact: (raise_strict qc sym)].
Qed.

(* C165, the first level, as HQP::solvefirst solves it *)
Theorem C165_first_level (n : nat) osqp (l : level) (hs : seq level) (init : bool) : shaped n l -> weighted l ->
  exists l', solvefirst osqp n (l :: hs) init = Some (l' :: hs) /\
  (nothing_dropped (l_qA l') -> nothing_dropped (l_qH l') -> (l_cost l -> (Hm n l)^T = Hm n l) ->
   exists q lb, solve_problem n l' = Some (q, lb) /\ forall x, bqp_optimal q lb x <-> oqp_optimal (osqp_problem l') x).
Proof.
move=> sh we; have [l' [e sd _ _ [_ _ pb]]] := first_problem osqp hs init sh we.
exists l'; split=> // ndA ndH sym; have {}pb := pb ndA ndH sym.
have enin : l_nin l' = l_nin l by case: sd.
have [lb [elb hlb]] := level_lbE n (l_nin l').
exists (OQP (l_qH l') (l_qg l') (l_qA l') (l_qub l')), lb; split; first by rewrite /solve_problem elb.
rewrite enin in hlb.
pose v (z : nat -> R) : 'cV[R]_(l_nin l) := col_of (l_nin l) (fun c => z (n + c)%N).
have ru z : col_of n (raise n z) = col_of n z by apply/matrixP => i j; rewrite !mxE /raise ltn_ord.
have rv z i : v (raise n z) i 0 = Num.max 0 (v z i 0) by rewrite !mxE /raise ltnNge leq_addr.
have sq_max (t : R) : Num.max 0 t ^+ 2 <= t ^+ 2 by case: (leP 0 t) => // _; rewrite expr0n sqr_ge0.
have cd z : 2%:R * oqp_cost (osqp_problem l') z - 2%:R * oqp_cost (osqp_problem l') (raise n z) =
    \sum_i (v z i 0 ^+ 2 - Num.max 0 (v z i 0) ^+ 2).
  have [_ ->] := pb z; have [_ ->] := pb (raise n z); rewrite ru -/(v z) -/(v (raise n z)).
  rewrite opprB addrA subrK /weighted_objective opprD addrACA subrr addr0 opprD addrACA subrr add0r.
  by rewrite sumrB /sqnorm; congr (_ - _); apply: eq_bigr => i _; rewrite rv.
have box : forall x, oqp_optimal (osqp_problem l') x <-> bqp_optimal (osqp_problem l') lb x.
  apply: (same_optimal hlb) => z.
  - move=> /(proj1 (pb z)) h; apply/(proj1 (pb _)) => i; rewrite ru -/(v (raise n z)) rv.
    by apply: le_trans (h i) _; rewrite le_maxr lexx orbT.
  - rewrite -(ler_pmul2l (_ : 0 < 2%:R :> R)) ?ltr0n // -subr_ge0 cd; apply: sumr_ge0 => i _.
    by rewrite subr_ge0 sq_max.
  move=> ez c lc; have := cd z; rewrite ez subrr => /esym/eqP.
  rewrite psumr_eq0; last by move=> i _; rewrite subr_ge0 sq_max.
  move=> /allP /(_ (Ordinal lc)); rewrite mem_index_enum => /(_ isT) /=.
  rewrite (_ : v z (Ordinal lc) 0 = z (n + c)%N); last by rewrite mxE.
  by case: (leP 0 (z (n + c)%N)) => // h; rewrite expr0n subr0 expf_eq0 /= lt_eqF.
move=> x; rewrite box; have [fE cE] := osqp_exact ndA ndH.
by split=> -[h1 h2 h3]; split=> //; [exact/fE|move=> z /fE fz lz; rewrite !cE; apply: h3|exact/fE|
  move=> z /fE fz lz; rewrite -!cE; apply: h3].
Qed.
End C165.

(* a level that wants y = 2 and y <= 1, below one that wants nothing: one variable and one slack; the hypotheses of C165
   hold, and so do those on the problem *)
Section Example165.
Variable R : realFieldType.
Local Notation dl := (sl 0 0 0 0 0 (fun=> 0 : R) false 0 0 (dident R 1) 0 0 0).
Definition slack_hs : seq (level R) :=
  [:: sl 0 1 0 0 0 (fun=> 0) false 0 0 (dident R 1) 1 0 0;
      sl 1 1 1 (-1) 1 (fun=> - 2%:R) false 0 0 (dident R 1) 0 0 0].
Example C165_ex osqp : exists hs',
  [/\ forall i, (i < size slack_hs)%N -> shaped 1 (nth dl slack_hs i), prepared 1 dl slack_hs,
      solveSequential osqp slack_hs true = Some hs', l_nin (nth dl hs' 1) = 1%N &
      nothing_dropped (l_qA (nth dl hs' 1)) /\ nothing_dropped (l_qH (nth dl hs' 1))].
Proof.
have pr : prepared 1 dl slack_hs by apply: sl_prepared => //; exists 1 => //; exact/eqP/oner_neq0.
have [k0 [k [H [g [A [ub [y [v [w [x [e ex c ey ev]]]]]]]]]]] :=
  two_levels osqp (sl_shaped 0 1 0 0 0 (fun=> 0) false 0 0 (dident R 1) 1 0 0)
    (sl_shaped 1 1 1 (-1) 1 (fun=> - 2%:R) false 0 0 (dident R 1) 0 0 0) pr.
have [rA cA] := qc_A c; have [rH cH] := qc_H c; rewrite /= in rA cA rH cH.
have one : `|1 : R| <= sparse_tol R = false by apply/negbTE/one_kept.
eexists; split; [by move=> [|[|i]] hi; [exact: sl_shaped|exact: sl_shaped|]|exact: pr|exact: e|exact: erefl|].
have [h1 h2 _] := qc_own c 0; have a1 := h1 0; have a2 := h2 0; rewrite /= in a1 a2; rewrite !mxE big_ord1 !mxE /= mulr1 in a1.
have hH (i j : 'I_(1 + 1)) := congr1 (fun M : 'M[R]_(1 + 1) => M i j) (qc_Hm c : mx_of (1 + 1) (1 + 1) H = _).
clear e ex ey ev c h1 h2 pr; split; rewrite /=.
  move=> [|i] [|[|j]]; rewrite ?rA ?cA // => _ _; rewrite ?a1 ?a2 ?normrN ?one //.
move=> [|[|i]] [|[|j]]; rewrite ?rH ?cH // => _ _.
- have := hH (lshift 1 0) (lshift 1 0); rewrite block_mxEul mxE /= => ->.
  by rewrite /TT /= addr0 !mxE big_ord1 !mxE big_ord1 !mxE /= !mulr1 one.
- by have := hH (lshift 1 0) (rshift 1 0); rewrite block_mxEur !mxE /= => ->.
- by have := hH (rshift 1 0) (lshift 1 0); rewrite block_mxEdl !mxE /= => ->.
by have := hH (rshift 1 0) (rshift 1 0); rewrite block_mxEdr !mxE /= => ->; rewrite one.
Qed.
Example C165_first_ex : let l := sl 1 1 1 (-1) 1 (fun=> - 2%:R : R) false 0 0 (dident R 1) 0 0 0 in shaped 1 l /\ weighted l.
Proof. by []. Qed.
End Example165.

Print Assumptions C165_same_answers.
Print Assumptions C165_first_level.
