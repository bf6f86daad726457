(* C29 - C33, C70 - C72: the hierarchical QP. *)
From mathcomp Require Import all_ssreflect all_algebra.
From mathcomp Require Import zify.
From mathcomp.algebra_tactics Require Import ring.
From Verif Require Import LinAlg DMat DMatL Cone_Model QP_Model QP_Spec HQP_Model HQP_Spec HQP_Proofs HQP_Thm HQP_Ex.
Set Implicit Arguments.
Unset Strict Implicit.
Unset Printing Implicit Defensive.
Import Order.TTheory GRing.Theory Num.Theory.
Local Open Scope ring_scope.

Section Props.
Variable R : realFieldType.
Local Notation dm := (dm R).
Local Notation level := (level R).

(* C29.  prepare always succeeds on matrices of the announced sizes, leaves the user's data and
   the answers alone, and the Z_ of level i spans exactly the changes of the decision variables
   that keep B_k for every k <= i. *)
Theorem C29_null_space_bases (n : nat) (f : dm -> dm) (d : level) (hs : seq level) :
  null_space_ok f -> hs <> [::] -> (forall i, (i < size hs)%N -> shaped n (nth d hs i)) ->
  exists hs', [/\ prepare f hs = Some hs', size hs' = size hs, prepared n d hs' &
    forall i, (i < size hs)%N ->
      [/\ same_data (nth d hs i) (nth d hs' i), shaped n (nth d hs' i),
          yv n (nth d hs' i) = yv n (nth d hs i) & l_v (nth d hs' i) = l_v (nth d hs i)]].
Proof.
move=> fok ne sh; have [hs' [e sz h]] := prepare_ok fok ne sh.
exists hs'; split=> //; first exact: spans_prepared h sz.
move=> i li; have [_ _ ->] := h i li; split=> //.
by have [? ? ? ? ?] := sh i li.
Qed.

(* C30.  Whatever the solver returns, solving the lower levels does not change B_k y of the
   level k, so w_ans_ of level k is still the residual at the final answer. *)
Theorem C30_residuals_kept (n : nat) osqp (d : level) (hs hs' : seq level) (init : bool) :
  (forall i, (i < size hs)%N -> shaped n (nth d hs i)) -> prepared n d hs ->
  solveSequential osqp hs init = Some hs' ->
  size hs' = size hs /\
  forall k i, (k <= i < size hs)%N ->
    [/\ same_data (nth d hs k) (nth d hs' k),
        Bm n (nth d hs' k) *m yv n (nth d hs' i) = Bm n (nth d hs' k) *m yv n (nth d hs' k),
        k = 0%N -> yv n (nth d hs' 0) = yv n (nth d hs 0) &
        (0 < k)%N -> wv (nth d hs' k) = Bm n (nth d hs' k) *m yv n (nth d hs' i) + bv (nth d hs' k)].
Proof.
move=> sh pr e; case: (posnP (size hs)) => [s0|sp].
  by move: e; rewrite /solveSequential (size0nil s0) => -[<-]; split=> // k i; rewrite /= ltn0 andbF.
have dZ : forall i, (i < size hs)%N -> dims (l_Z (nth d hs i)) n (l_ns (nth d hs i)) by move=> i /pr[].
have r : run osqp d init hs hs' by apply: solveSequential_run e; case: (hs) sp.
split; first exact: run_size r.
move=> k i lki; have lk : (k < size hs)%N by case/andP: lki => a b; apply: leq_ltn_trans a b.
have res := run_residual sh dZ r pr lki.
have [[sd _] _ sf] := run_level sh dZ r lk; split=> //.
  by move=> _; have [_ [ey _]] := run_kept0 r; rewrite /yv ey.
by move=> k0; rewrite res; case: (sf k0) => _ _ _ _ _ _ [_ ->].
Qed.

(* C30, definedness: the first solve never accesses a matrix out of range. *)
Theorem C30_defined (n : nat) osqp (d : level) (hs : seq level) :
  (forall i, (i < size hs)%N -> shaped n (nth d hs i)) -> prepared n d hs ->
  exists hs', solveSequential osqp hs true = Some hs'.
Proof.
move=> sh pr; case: (posnP (size hs)) => [s0|sp]; first by rewrite (size0nil s0); eexists.
have [|||hs' [e _]] := @solveSequential_ok R n osqp d true hs.
- by case: (hs) sp.
- by move=> i li; split; [apply: sh|case: (pr i li)].
- by left.
by exists hs'.
Qed.

(* C31 with the error caused by sparseView(1E-5), which drops coefficients of absolute value at
   most 1e-17 from the constraint matrix.  Missing for the full statement: the error term. *)
Theorem C31_inequalities_kept_partial (n : nat) osqp (d : level) (hs hs' : seq level) (init : bool) :
  (forall i, (i < size hs)%N -> shaped n (nth d hs i)) -> prepared n d hs -> init \/ all_ready d hs ->
  solveSequential osqp hs init = Some hs' ->
  l_v (nth d hs' 0) = l_v (nth d hs 0) /\
  forall i, (0 < i < size hs)%N -> oqp_feasible (osqp_problem (nth d hs' i)) (ans_of (nth d hs' i)) ->
  forall k, (k <= i)%N -> forall r,
    (Am n (nth d hs' k) *m yv n (nth d hs' i) + av (nth d hs' k)) r 0 <= vv (nth d hs' k) r 0 +
      (10%:R ^+ 17)^-1 * \sum_(c < l_ns (nth d hs' i.-1)) `|ans_of (nth d hs' i) c|.
Proof.
move=> sh pr st e; split.
  case: (posnP (size hs)) => [s0|sp].
    by move: e; rewrite /solveSequential (size0nil s0) => -[<-].
  by rewrite (run_first (is_run d e sp)).
move=> i li fe k lk r; apply: le_trans (kept_ineq sh pr st e li fe lk r) _.
by rewrite ler_add2l /tol1; under eq_bigr do rewrite mxE.
Qed.

(* C31, exact when no coefficient is dropped. *)
Theorem C31_inequalities_kept_exact (n : nat) osqp (d : level) (hs hs' : seq level) (init : bool) :
  (forall i, (i < size hs)%N -> shaped n (nth d hs i)) -> prepared n d hs -> init \/ all_ready d hs ->
  solveSequential osqp hs init = Some hs' ->
  forall i, (0 < i < size hs)%N -> nothing_dropped (l_qA (nth d hs' i)) ->
  oqp_feasible (osqp_problem (nth d hs' i)) (ans_of (nth d hs' i)) ->
  forall k, (k <= i)%N ->
    lec (Am n (nth d hs' k) *m yv n (nth d hs' i) + av (nth d hs' k)) (vv (nth d hs' k)).
Proof. by move=> sh pr st e i li nd fe k lk; apply: (kept_ineq_exact sh pr st e li nd fe lk). Qed.

(* C31, recursive feasibility: if the initial answer of level 0 respects its inequalities and
   the solver returned a feasible point for every level that has one, then every level's problem
   is feasible, so the final answer respects all inequalities up to the accepted slacks. *)
Theorem C31_recursive_feasibility (n : nat) osqp (d : level) (hs hs' : seq level) (init : bool) :
  (forall i, (i < size hs)%N -> shaped n (nth d hs i)) -> prepared n d hs -> init \/ all_ready d hs ->
  solveSequential osqp hs init = Some hs' ->
  (forall i, (0 < i < size hs)%N -> (exists x, oqp_feasible (osqp_problem (nth d hs' i)) x) ->
     oqp_feasible (osqp_problem (nth d hs' i)) (ans_of (nth d hs' i))) ->
  (forall i, (0 < i < size hs)%N -> nothing_dropped (l_qA (nth d hs' i))) ->
  lec (Am n (nth d hs 0) *m yv n (nth d hs 0) + av (nth d hs 0)) (vv (nth d hs 0)) ->
  forall i k, (k <= i)%N -> (0 < i < size hs)%N ->
    lec (Am n (nth d hs' k) *m yv n (nth d hs' i) + av (nth d hs' k)) (vv (nth d hs' k)).
Proof.
move=> sh pr st e ok nd h0 i k lk li.
by apply: (kept_ineq_exact sh pr st e li (nd i li) _ lk); apply: (all_feasible sh pr st e ok h0 nd).
Qed.

(* C32.  If the answer of level i is optimal for the problem handed to OSQP (no coefficient
   dropped, symmetric additional cost) then (y_i, v_i) minimises |B_i y + b_i|^2 + |v|^2 (+ y'H y)
   over all y that keep every B_k y, k < i, all v >= A_i y + a_i, and the inequalities of the
   levels above; it satisfies these itself; and the slacks are non-negative. *)
Theorem C32_level_optimal (n : nat) osqp (d : level) (hs hs' : seq level) (init : bool) :
  (forall i, (i < size hs)%N -> shaped n (nth d hs i)) -> prepared n d hs -> init \/ all_ready d hs ->
  solveSequential osqp hs init = Some hs' ->
  forall i, (0 < i < size hs)%N ->
  let l k := nth d hs' k in
  nothing_dropped (l_qA (l i)) -> nothing_dropped (l_qH (l i)) ->
  (l_cost (l i) -> (Hm n (l i))^T = Hm n (l i)) ->
  oqp_optimal (osqp_problem (l i)) (ans_of (l i)) ->
  let ok (y : 'cV[R]_n) (v : 'cV[R]_(l_nin (l i))) :=
    [/\ forall k, (k < i)%N -> Bm n (l k) *m y = Bm n (l k) *m yv n (l k),
        lec (Am n (l i) *m y + av (l i)) v &
        forall k, (k < i)%N -> lec (Am n (l k) *m y + av (l k)) (vv (l k))] in
  [/\ ok (yv n (l i)) (vv (l i)),
      forall y v, ok y v -> level_objective (l i) (yv n (l i)) (vv (l i)) <= level_objective (l i) y v &
      forall r, 0 <= vv (l i) r 0].
Proof.
move=> sh pr st e i li l ndA ndH sym opt ok.
have sp : (0 < size hs)%N by case/andP: li => _; apply: leq_ltn_trans.
have res := run_residual sh (Zs pr) (is_run d e sp) pr.
have ki := kept_ineq_exact sh pr st e li ndA (proj1 opt).
have i0 := proj1 (andP li); have lt := proj2 (andP li).
have okS : ok (yv n (l i)) (vv (l i)).
  split; [|exact: ki|by move=> k lk; apply: ki; apply: ltnW].
  by move=> k lk; apply: res; rewrite (ltnW lk).
have opt' y v : ok y v -> level_objective (l i) (yv n (l i)) (vv (l i)) <= level_objective (l i) y v.
  case=> hB hA hK; apply: (optimal sh pr st e li ndA ndH sym opt) => // k lk.
  rewrite hB // [RHS]res //; apply/andP; split; first by rewrite -ltnS prednK.
  by rewrite prednK // ltnW.
split=> // r; rewrite leNgt; apply/negP => neg.
pose v' : 'cV[R]_(l_nin (l i)) := \col_j (if j == r then 0 else vv (l i) j 0).
have : ok (yv n (l i)) v'.
  case: okS => hB hA hK; split=> // j; rewrite [v' j 0]mxE; case: eqP => [->|_]; last exact: hA.
  exact: le_trans (hA r) (ltW neg).
move/opt'; rewrite /level_objective; rewrite ler_add2r ler_add2l leNgt => /negP; apply.
rewrite /sqnorm [X in _ < X](bigD1 r) // [X in X < _](bigD1 r) //= mxE eqxx expr0n add0r.
rewrite (eq_bigr (fun j => vv (l i) j 0 ^+ 2)); last by move=> j /negbTE h; rewrite mxE h.
by rewrite ltr_addr exprn_even_gt0 //= lt_eqF.
Qed.

(* C72.  The problem built by a solve with init = false is the one a solve from scratch would
   build, as long as the sizes have not changed since the last solve; and every solve leaves the
   hierarchy in a state where this is the case. *)
Theorem C72_resolve_same_problem (n : nat) (d : level) (above : seq level) (p l : level) :
  dims (l_Z p) n (l_ns p) -> dims (l_y p) n 1 -> shaped n l ->
  (forall j, (j < size above)%N -> shaped n (nth d above j)) -> qp_ready above p l ->
  exists q q', [/\ levelQP above p l true (l_ns p + l_nin l) (rows_of above + l_nin l) = Some q,
    levelQP above p l false (l_ns p + l_nin l) (rows_of above + l_nin l) = Some q' &
    forall x, (oqp_feasible q x <-> oqp_feasible q' x) /\ oqp_cost q x = oqp_cost q' x].
Proof.
move=> dZ dy shl sha rd.
have ok j : (j < size above)%N -> row_ok n (nth d above j) by move=> lj; apply/shaped_row_ok/sha.
have [|q [e c]] := @levelQP_ok R n d above p l true dZ dy shl ok; first by left.
have [|q' [e' c']] := @levelQP_ok R n d above p l false dZ dy shl ok; first by right.
exists q, q'; split=> // x; split.
  by rewrite (content_feasible c) (content_feasible c').
have [rH cH] := qc_H c; have [rH' cH'] := qc_H c'; have [rg _] := qc_g c; have [rg' _] := qc_g c'.
rewrite /oqp_cost rH cH rH' cH' rg rg'; congr (_ * _ + _).
  rewrite !sum_ord; apply: eq_bigr => a _; rewrite !sum_ord; apply: eq_bigr => b _.
  by rewrite -(mxE' (o_H q) a b) -(mxE' (o_H q') a b) (qc_Hm c) (qc_Hm c').
rewrite !sum_ord; apply: eq_bigr => a _.
by rewrite -(mxE' (o_g q) a (0 : 'I_1)) -(mxE' (o_g q') a (0 : 'I_1)) (qc_gm c) (qc_gm c').
Qed.

Theorem C72_solve_leaves_ready (n : nat) osqp (d : level) (hs hs' : seq level) (init : bool) :
  (forall i, (i < size hs)%N -> shaped n (nth d hs i)) -> prepared n d hs -> init \/ all_ready d hs ->
  solveSequential osqp hs init = Some hs' ->
  [/\ all_ready d hs', prepared n d hs' & forall i, (i < size hs')%N -> shaped n (nth d hs' i)].
Proof.
move=> sh pr st e; case: (posnP (size hs)) => [s0|sp].
  move: e; rewrite /solveSequential (size0nil s0) => -[<-]; split=> // i; by rewrite ltn0 ?andbF.
have szE := run_size (is_run d e sp).
split; first 1 last.
- exact: run_prepared sh (Zs pr) (is_run d e sp) pr.
- by rewrite szE => i li; have [_ ? _] := run_level sh (Zs pr) (is_run d e sp) li.
move=> i; rewrite szE => li; have c := content sh pr st e li; split.
- exact: qc_H c.
- exact: qc_g c.
- exact: qc_A c.
- exact: qc_ub c.
split=> a b.
  move=> la /andP[lb lb2].
  have lb' : (b - l_ns (nth d hs' i.-1) < l_nin (nth d hs' i))%N by lia.
  have := qc_Hm c => /= /matrixP Hm.
  have := Hm (lshift _ (Ordinal la)) (rshift _ (Ordinal lb')); rewrite block_mxEur !mxE /= subnKC // => ->.
  have := Hm (rshift _ (Ordinal lb')) (lshift _ (Ordinal la)); by rewrite block_mxEdl !mxE /= subnKC.
move=> /andP[la la2] /andP[lb lb2].
have lb' : (b - l_ns (nth d hs' i.-1) < l_nin (nth d hs' i))%N by lia.
have [|j lj [r er]] := @row_of_level R d (take i hs') (a - l_nin (nth d hs' i))%N; first by lia.
have [_ h _] := qc_inh c lj r; have := h (Ordinal lb'); rewrite /= subnKC //.
by rewrite -addnA -er subnKC.
Qed.

(* C31, refuted as stated: an inequality coefficient of 1e-18 is dropped before the problem
   reaches OSQP, so an optimal answer violates the inequality by 9. *)
Let dl : level := sl 0 0 0 0 0 (fun=> 0) false 0 0 (dident R 0) 0 0 0.
Definition drop_hs (eps big : R) : seq level :=
  [:: sl 1 1 eps (-1) 0 (fun=> 0) false 0 0 (dident R 1) 1 0 0;
      sl 0 1 0 0 1 (fun=> - big) false 0 0 (dident R 1) 0 0 0].

Lemma drop_prepared eps big : prepared 1 dl (drop_hs eps big).
Proof. apply: sl_prepared => //; exists 1 => //; exact/eqP/oner_neq0. Qed.

Theorem C31_dropped_entry_refuted :
  exists osqp (hs hs' : seq level) (d : level),
  [/\ forall i, (i < size hs)%N -> shaped 1 (nth d hs i), prepared 1 d hs,
      solveSequential osqp hs true = Some hs',
      oqp_optimal (osqp_problem (nth d hs' 1)) (ans_of (nth d hs' 1)) &
      vv (nth d hs' 0) = 0 /\ exists r, 0 < (Am 1 (nth d hs' 0) *m yv 1 (nth d hs' 1) + av (nth d hs' 0)) r 0].
Proof.
have : exists eps big : R, `|eps| <= sparse_tol R /\ 1 < eps * big.
  exists (10%:R ^+ 18)^-1, (10%:R ^+ 19); split; first exact: eps_dropped.
  by rewrite [_ ^+ 19]exprS mulrCA mulVf ?mulr1 ?ltr1n // expf_neq0 // pnatr_eq0.
case=> eps [big [small large]].
pose osqp (_ : nat) (_ : bool) (_ : oqp R) (c : nat) : R := big.
have [k0 [k [H [g [A [ub [y [v [w [x [e ex c ey ev]]]]]]]]]]] :=
  two_levels osqp (sl_shaped 1 1 eps (-1) 0 (fun=> 0) false 0 0 (dident R 1) 1 0 0)
    (sl_shaped 0 1 0 0 1 (fun=> - big) false 0 0 (dident R 1) 0 0 0) (@drop_prepared eps big).
exists osqp, (drop_hs eps big); eexists; exists dl; split; [by move=> [|[|i]] hi; [exact: sl_shaped|exact: sl_shaped|]|exact: drop_prepared|exact: e| |].
- have cA := qc_A c; rewrite /= in cA.
  split; last first.
    move=> z _; apply: (ov_opt2 (hv := 1) (gv := - big) c) => //=; [ring|rewrite big_ord1; ring|].
    by rewrite ex opprK mul1r.
  move=> i /=; case: cA => -> cA; case: i => //= _.
  rewrite /rowdot /= cA big_nat1.
  have [h _ ->] := qc_inh c (isT : (0 < 1)%N) 0; have := h 0; rewrite /= => ->.
  rewrite !mxE big_ord1 !mxE /= mulr1 small mul0r big_ord1 !mxE /=; rewrite mulr0 oppr0 add0r opprK add0r.
  exact: ler01.
split; first by apply/matrixP => i j; rewrite !mxE.
exists 0; rewrite {1}/yv ey !mxE big_ord1 !mxE big_ord1 !mxE /= add0r mul1r ex /osqp.
by rewrite subr_gt0.
Qed.

(* C70, refuted: the cost vector given to updateCostMatrix is not part of the minimised cost.  A
   level that only wants y = 0 and has the additional cost y^2/2 - y ends at y = 0 although y = 1/2
   is allowed and better. *)
Definition g_hs : seq level :=
  [:: sl 0 1 0 0 0 (fun=> 0) false 0 0 (dident R 1) 1 0 0;
      sl 0 1 0 0 1 (fun=> 0) true 1 (-1) (dident R 1) 0 0 0].

Lemma g_prepared : prepared 1 dl g_hs.
Proof. apply: sl_prepared => //; exists 1 => //; exact/eqP/oner_neq0. Qed.

Theorem C70_cost_vector_ignored_refuted :
  exists osqp (hs' : seq level) (d : level),
  [/\ forall i, (i < size g_hs)%N -> shaped 1 (nth d g_hs i), prepared 1 d g_hs,
      solveSequential osqp g_hs true = Some hs',
      oqp_optimal (osqp_problem (nth d hs' 1)) (ans_of (nth d hs' 1)) &
      let l := nth d hs' 1 in
      let objective y := level_objective l y (vv l) + 2%:R * ((gv 1 l)^T *m y) 0 0 in
      exists y, Bm 1 (nth d hs' 0) *m y = Bm 1 (nth d hs' 0) *m yv 1 (nth d hs' 0) /\
        objective y < objective (yv 1 l)].
Proof.
pose osqp (_ : nat) (_ : bool) (_ : oqp R) (c : nat) : R := 0.
have [k0 [k [H [g [A [ub [y [v [w [x [e ex c ey ev]]]]]]]]]]] :=
  two_levels osqp (sl_shaped 0 1 0 0 0 (fun=> 0) false 0 0 (dident R 1) 1 0 0)
    (sl_shaped 0 1 0 0 1 (fun=> 0) true 1 (-1) (dident R 1) 0 0 0) g_prepared.
exists osqp; eexists; exists dl; split; [by move=> [|[|i]] hi; [exact: sl_shaped|exact: sl_shaped|]|exact: g_prepared|exact: e| |].
  split; first exact: (ov_feasible c).
  move=> z _; apply: (ov_opt2 (hv := 2%:R) (gv := 0) c); rewrite ?big_ord1; [ring|ring|exact: ler1n|].
  by rewrite /= ex mulr0 oppr0.
rewrite /=; have -> : yv 1 (lev1 (sl 0 1 0 0 0 (fun=> 0) false 0 0 (dident R 1) 1 0 0) (sl 0 1 0 0 1 (fun=> 0) true 1 (-1) (dident R 1) 0 0 0)
     H g A ub k y v w x) = 0.
  rewrite [LHS]ey; apply: scalar_eq; rewrite !mxE big_ord1 !mxE /= ex mulr0; exact: addr0.
clear c e; exists (const_mx (1 / 2%:R)); split; first by rewrite [LHS]l0_B [RHS]l0_B.
rewrite /= !l1_objective !big_ord1 !mxE !big_ord1 !mxE /= -subr_gt0.
have pos (a : R) : a = 1 / 2%:R -> 0 < a by move=> ->; rewrite mul1r invr_gt0 ltr0n.
by apply: pos; field.
Qed.

(* C71, refuted: the weights given to updateConstraintWeight do not enter solveSequential.  A level
   that wants y = 0 with weight 1 and y = 2 with weight 3 ends at y = 1, where the weighted residual
   is 10, although it is 4 at y = 2. *)
Definition wgt : dm := DM 2 2 (fun i j => if i == j then (if i == 0%N then 1 else 3%:R) else 0).
Definition w_b (i : nat) : R := if i == 0%N then 0 else - 2%:R.
Definition w_hs : seq level :=
  [:: sl 0 1 0 0 0 (fun=> 0) false 0 0 (dident R 1) 1 0 0;
      sl 0 2 0 0 1 w_b false 0 0 wgt 0 0 0].

Lemma w_prepared : prepared 1 dl w_hs.
Proof. apply: sl_prepared => //; exists 1 => //; exact/eqP/oner_neq0. Qed.

Theorem C71_weights_ignored_refuted :
  exists osqp (hs' : seq level) (d : level),
  [/\ forall i, (i < size w_hs)%N -> shaped 1 (nth d w_hs i), prepared 1 d w_hs,
      solveSequential osqp w_hs true = Some hs',
      oqp_optimal (osqp_problem (nth d hs' 1)) (ans_of (nth d hs' 1)) &
      let l := nth d hs' 1 in
      let objective y := sqnorm (mx_of (l_neq l) (l_neq l) (l_W l) *m (Bm 1 l *m y + bv l)) in
      l_W l = wgt /\
      exists y, Bm 1 (nth d hs' 0) *m y = Bm 1 (nth d hs' 0) *m yv 1 (nth d hs' 0) /\
        objective y < objective (yv 1 l)].
Proof.
pose osqp (_ : nat) (_ : bool) (_ : oqp R) (c : nat) : R := 1.
have [k0 [k [H [g [A [ub [y [v [w [x [e ex c ey ev]]]]]]]]]]] :=
  two_levels osqp (sl_shaped 0 1 0 0 0 (fun=> 0) false 0 0 (dident R 1) 1 0 0)
    (sl_shaped 0 2 0 0 1 w_b false 0 0 wgt 0 0 0) w_prepared.
exists osqp; eexists; exists dl; split; [by move=> [|[|i]] hi; [exact: sl_shaped|exact: sl_shaped|]|exact: w_prepared|exact: e| |].
  split; first exact: (ov_feasible c).
  move=> z _; apply: (ov_opt2 (hv := 2%:R) (gv := - 2%:R) c); rewrite ?big_ord_recl ?big_ord0 /w_b /=; [ring|ring|exact: ler1n|].
  by rewrite ex opprK mulr1.
split=> //.
rewrite /=; have -> : yv 1 (lev1 (sl 0 1 0 0 0 (fun=> 0) false 0 0 (dident R 1) 1 0 0) (sl 0 2 0 0 1 w_b false 0 0 wgt 0 0 0)
     H g A ub k y v w x) = const_mx 1.
  rewrite [LHS]ey; apply: scalar_eq; rewrite !mxE big_ord1 !mxE /= ex mulr1; exact: add0r.
clear c e; exists (const_mx 2%:R); split; first by rewrite [LHS]l0_B [RHS]l0_B.
rewrite /sqnorm /= !big_ord_recl !big_ord0 ![(_ *m _) _ _]mxE !big_ord_recl !big_ord0 !l1_res ![const_mx _ _ _]mxE !mxE /w_b /=.
rewrite -subr_gt0.
have pos (a : R) : a = 6%:R -> 0 < a by move=> ->; rewrite ltr0n.
apply: pos; ring.
Qed.

(* C72, refuted without the size condition: the equality of level 0 vanishes between two cycles (a
   contact is lifted, say), so its null space grows.  prepare recomputes Z_, but the QP matrices of
   level 1 keep their old size when init = false, and the block writes are out of range. *)
Definition r_hs : seq level :=
  [:: sl 0 1 0 0 1 (fun=> 0) false 0 0 (dident R 1) 0 0 0;
      sl 0 1 0 0 1 (fun=> 0) false 0 0 (dident R 1) 0 0 0].
(* level 0 after updateEqConstraint(0, 0) and prepare *)
Definition changed (l : level) : level :=
  setZ (setBb l (DM 1 1 (fun _ _ => 0)) (l_b l)) (DM 1 1 (fun _ _ => 1)) 1.

Lemma r_prepared : prepared 1 dl r_hs.
Proof.
have K (x : 'cV[R]_1) (l : level) : l_neq l = 1%N -> l_B l = DM 1 1 (fun _ _ => 1) -> l_ns l = 0%N ->
    Bm 1 l *m x = 0 -> exists u, x = Zm 1 l *m u.
  move=> e1 e2 e3; rewrite /Bm e1 e2 => /matrixP /(_ 0 0); rewrite !mxE big_ord1 !mxE mul1r => x0.
  by exists 0; rewrite mulmx0; apply: scalar_eq; rewrite x0 mxE.
case=> [|[|]] // _; split=> //.
- by move=> k _; apply/matrixP => i [].
- by move=> x /(_ 0%N isT); apply: K.
- by move=> k _; apply/matrixP => i [].
by move=> x /(_ 0%N isT); apply: K.
Qed.

Theorem C72_null_space_changed_refuted :
  exists osqp (hs hs' hs2 : seq level) (d : level),
  [/\ [/\ forall i, (i < size hs)%N -> shaped 1 (nth d hs i), prepared 1 d hs & solveSequential osqp hs true = Some hs'],
      hs2 = set_nth d hs' 0 (changed (nth d hs' 0)),
      (forall i, (i < size hs2)%N -> shaped 1 (nth d hs2 i)) /\ prepared 1 d hs2 &
      solveSequential osqp hs2 true <> None /\ solveSequential osqp hs2 false = None].
Proof.
pose osqp (_ : nat) (_ : bool) (_ : oqp R) (c : nat) : R := 0.
have [k0 [k [H [g [A [ub [y [v [w [x [e ex c ey ev]]]]]]]]]]] :=
  two_levels osqp (sl_shaped 0 1 0 0 1 (fun=> 0) false 0 0 (dident R 1) 0 0 0)
    (sl_shaped 0 1 0 0 1 (fun=> 0) false 0 0 (dident R 1) 0 0 0) r_prepared.
have [rH _] := qc_H c; rewrite /= in rH.
have sh : forall i, (i < size r_hs)%N -> shaped 1 (nth dl r_hs i) by case=> [|[|]].
have [_ _ sh'] := C72_solve_leaves_ready sh r_prepared (or_introl isT) e.
exists osqp, r_hs; eexists; eexists; exists dl; split; [split; [exact: sh|exact: r_prepared|exact: e]|reflexivity| |].
  clear c e; split; first by move=> [|[|i]] hi; [exact: (sh' 0%N)|exact: (sh' 1%N)|].
  by apply: sl_prepared => //; exists 1 => //; exact/eqP/oner_neq0.
split; last by rewrite /solveSequential /= /solve_level /= /levelQP /= /own_cost /= /blockw /= rH.
have pr2 : prepared 1 dl [:: changed (lev0 (nth dl r_hs 0) k0); lev1 (nth dl r_hs 0) (nth dl r_hs 1) H g A ub k y v w x].
  by apply: sl_prepared => //; exists 1 => //; exact/eqP/oner_neq0.
have [|hs3] := @C30_defined 1 osqp dl _ _ pr2; last by move=> e3; rewrite [solveSequential _ _ _]e3.
by move=> [|[|i]] hi; [exact: (sh' 0%N)|exact: (sh' 1%N)|].
Qed.

(* An example for C30 - C32: the top level demands y <= 1, the next one wants y = 2 and ends at
   y = 1.  All hypotheses of C31 (exact form) and C32 hold, with an optimal solver answer. *)
Definition lim_hs : seq level :=
  [:: sl 1 1 1 (-1) 0 (fun=> 0) false 0 0 (dident R 1) 1 0 0;
      sl 0 1 0 0 1 (fun=> - 2%:R) false 0 0 (dident R 1) 0 0 0].

Lemma lim_prepared : prepared 1 dl lim_hs.
Proof. apply: sl_prepared => //; exists 1 => //; exact/eqP/oner_neq0. Qed.

Example C32_example : exists osqp (hs' : seq level),
  [/\ forall i, (i < size lim_hs)%N -> shaped 1 (nth dl lim_hs i), prepared 1 dl lim_hs,
      solveSequential osqp lim_hs true = Some hs',
      [/\ nothing_dropped (l_qA (nth dl hs' 1)), nothing_dropped (l_qH (nth dl hs' 1)) &
          oqp_optimal (osqp_problem (nth dl hs' 1)) (ans_of (nth dl hs' 1))] &
      yv 1 (nth dl hs' 1) = const_mx 1].
Proof.
pose osqp (_ : nat) (_ : bool) (_ : oqp R) (c : nat) : R := 1.
have [k0 [k [H [g [A [ub [y [v [w [x [e ex c ey ev]]]]]]]]]]] :=
  two_levels osqp (sl_shaped 1 1 1 (-1) 0 (fun=> 0) false 0 0 (dident R 1) 1 0 0)
    (sl_shaped 0 1 0 0 1 (fun=> - 2%:R) false 0 0 (dident R 1) 0 0 0) lim_prepared.
have [rA cA] := qc_A c; have [rH cH] := qc_H c; rewrite /= in rA cA rH cH.
have H1 : ent H 0 0 = 1 by rewrite (ov_H c) /=; ring.
have [A1 ub1] : ent A 0 0 = 1 /\ ent ub 0 0 = 1.
  have [h _ u] := qc_inh c (isT : (0 < 1)%N) 0; have := h 0; rewrite /= => ->; move: u; rewrite /= => ->.
  rewrite !mxE !big_ord1 !mxE /= mulr1 mulr0 oppr0 add0r opprK add0r; split; exact: erefl.
have one : `|1 : R| <= sparse_tol R = false by apply/negbTE/one_kept.
have fe z : oqp_feasible (osqp_problem (lev1 (sl 1 1 1 (-1) 0 (fun=> 0) false 0 0 (dident R 1) 1 0 0)
    (sl 0 1 0 0 1 (fun=> - 2%:R) false 0 0 (dident R 1) 0 0 0) H g A ub k y v w x)) z <-> z 0%N <= 1.
  clear c e ex ey ev; rewrite /oqp_feasible /= rA /=; split.
    by move=> /(_ 0%N isT); rewrite /rowdot /= cA big_nat1 A1 one mul1r ub1.
  by move=> h [|i] hi; last by []; rewrite /rowdot /= cA big_nat1 A1 one mul1r ub1.
exists osqp; eexists; split; [by move=> [|[|i]] hi; [exact: sl_shaped|exact: sl_shaped|]|exact: lim_prepared|exact: e| |].
  split.
  - by clear -rA cA A1 one; move=> [|i] [|j] /=; rewrite ?rA ?cA // A1 one.
  - by clear -rH cH H1 one; move=> [|i] [|j] /=; rewrite ?rH ?cH // H1 one.
  split; first by apply/fe; rewrite /ans_of /= ex.
  move=> z /fe zl.
  have h1 : 1 <= `|1%:R * 1 ^+ 2 + 0 : R| by rewrite addr0 expr1n mulr1 normr1.
  rewrite !(fun t => ov_sparse c t h1) /ans_of /= ex !big_ord1 /osqp -subr_ge0.
  have rc (t : R) : 1 / 2%:R * (1%:R * 1 ^+ 2 + 0) * t ^+ 2 + (1 * (1 * 0 + -2%:R) + 0) * t -
    (1 / 2%:R * (1%:R * 1 ^+ 2 + 0) * 1 ^+ 2 + (1 * (1 * 0 + -2%:R) + 0) * 1) =
    (1 - t) + 1 / 2%:R * (t - 1) ^+ 2 by field.
  rewrite rc; clear -zl; apply: addr_ge0; first by rewrite subr_ge0.
  by apply: mulr_ge0; [rewrite mul1r invr_ge0 ler0n|apply: sqr_ge0].
rewrite {1}/yv /= ey; apply: scalar_eq; rewrite !mxE big_ord1 !mxE /= ex mulr1; exact: add0r.
Qed.

(* C29 applies to it with the kernel computed by Gaussian elimination *)
Example C29_example : exists hs', prepare (@knull R) lim_hs = Some hs' /\ prepared 1 dl hs'.
Proof.
have [||hs' [e _ p _]] := @C29_null_space_bases 1 (@knull R) dl lim_hs (@knull_ok R); [by []|by case=> [|[|]]|].
by exists hs'.
Qed.

(* C72: the hierarchy after the first solve is ready for a second one with init = false *)
Example C72_example : exists osqp hs1 hs2,
  solveSequential osqp lim_hs true = Some hs1 /\ solveSequential osqp hs1 false = Some hs2 /\ hs1 <> [::].
Proof.
have [osqp [hs1 [sh pr e _ _]]] := C32_example.
have [rd pr1 sh1] := C72_solve_leaves_ready sh pr (or_introl isT) e.
have ne : hs1 <> [::] by move=> h; move: (run_size (is_run dl e isT)); rewrite h.
have [|||hs2 [e2 _]] := @solveSequential_ok R 1 osqp dl false hs1; [by []| |by right|by exists osqp, hs1, hs2].
by move=> i li; split; [apply: sh1|have [] := pr1 i li].
Qed.
End Props.

(* C33.  Row normalisation keeps the set of solutions of both constraints and makes the non-zero
   rows unit vectors; nothing else of the level changes. *)
Section Normalised.
Variable R : rcfType.

Lemma normalized_row (m : nat) (M v : dm R) i (y : nat -> R) : (i < m)%N ->
  let '(M', v') := normalized m M v in
  exists2 s : R, 0 < s & [/\ rowdot M' i y = rowdot M i y / s, ent v' i 0 = ent v i 0 / s &
    (exists j, (j < nc M)%N /\ ent M i j <> 0) -> \sum_(0 <= j < nc M') ent M' i j ^+ 2 = 1].
Proof.
move=> li; rewrite /normalized; set s := rownorm M i.
have ss : 0 <= \sum_(0 <= j < nc M) ent M i j ^+ 2 by apply: sumr_ge0 => j _; apply: sqr_ge0.
have sE : s ^+ 2 = \sum_(0 <= j < nc M) ent M i j ^+ 2 by rewrite /s /rownorm sqr_sqrtr.
exists (if 0 < s then s else 1); first by case: ifP => // _; exact: ltr01.
split; [|by rewrite /= li|].
  by rewrite /rowdot /= li /= mulr_suml; apply: eq_bigr => j _; rewrite mulrAC.
case=> j [lj nz]; rewrite /= li /= -/s.
have sp : 0 < \sum_(0 <= j < nc M) ent M i j ^+ 2.
  rewrite sum_ord (bigD1 (Ordinal lj)) //= ltr_paddr ?sumr_ge0 //; first by move=> k _; apply: sqr_ge0.
  by rewrite exprn_even_gt0 //=; apply/eqP.
have s0 : 0 < s by rewrite /s /rownorm sqrtr_gt0.
rewrite s0; under eq_bigr do rewrite expr_div_n.
by rewrite -mulr_suml -sE divff // expf_neq0 // gt_eqF.
Qed.

Theorem C33_normalisation (n : nat) (l : level R) : shaped n l ->
  let l' := normalizeConstraintMatrix l in
  [/\ shaped n l', l_nin l' = l_nin l /\ l_neq l' = l_neq l,
      forall y, (forall i, (i < l_nin l)%N -> rowdot (l_A l') i y + ent (l_a l') i 0 <= 0) <->
                (forall i, (i < l_nin l)%N -> rowdot (l_A l) i y + ent (l_a l) i 0 <= 0),
      forall y, (forall i, (i < l_neq l)%N -> rowdot (l_B l') i y + ent (l_b l') i 0 = 0) <->
                (forall i, (i < l_neq l)%N -> rowdot (l_B l) i y + ent (l_b l) i 0 = 0) &
      [/\ forall i, (i < l_nin l)%N -> (exists j, (j < n)%N /\ ent (l_A l) i j <> 0) ->
             \sum_(0 <= j < n) ent (l_A l') i j ^+ 2 = 1,
          forall i, (i < l_neq l)%N -> (exists j, (j < n)%N /\ ent (l_B l) i j <> 0) ->
             \sum_(0 <= j < n) ent (l_B l') i j ^+ 2 = 1 &
          [/\ l_V l' = l_V l, l_W l' = l_W l, l_cost l' = l_cost l, l_H l' = l_H l & l_g l' = l_g l]]].
Proof.
move=> [dB db dA dH dy].
have nE m M v : normalized m M v = ((normalized m M v).1, (normalized m M v).2) :> dm R * dm R by case: normalized.
have eqv (s a b : R) : 0 < s -> (a / s + b / s <= 0) = (a + b <= 0).
  by move=> sp; rewrite -mulrDl pmulr_lle0 // invr_gt0.
have eqz (s a b : R) : 0 < s -> (a / s + b / s = 0) <-> (a + b = 0).
  move=> sp; rewrite -mulrDl; split=> [/eqP|->]; last by rewrite mul0r.
  by rewrite mulf_eq0 invr_eq0 (gt_eqF sp) orbF => /eqP.
have hB i y := @normalized_row (l_neq l) (l_B l) (l_b l) i y.
have hA i y := @normalized_row (l_nin l) (l_A l) (l_a l) i y.
rewrite /normalizeConstraintMatrix.
case: (posnP (l_nin l)) => [n0|np] /=.
  split=> //=.
  - by move=> y; split=> h i li; have := h i li; have [s sp [/= -> -> _]] := hB i y li; move/(eqz _ _ _ sp).
  split=> // i li ex; first by rewrite n0 in li.
  have [s sp [_ _ h]] := hB i (fun=> 0) li.
  by have [_ cB] := dB; move: h; rewrite /= cB => ->.
have [[rA cA] da nV] := dA np.
split=> //=.
- by move=> y; split=> h i li; have := h i li; have [s sp [/= -> -> _]] := hA i y li; rewrite (eqv _ _ _ sp).
- by move=> y; split=> h i li; have := h i li; have [s sp [/= -> -> _]] := hB i y li; move/(eqz _ _ _ sp).
split=> // i li ex.
  by have [s sp [_ _ h]] := hA i (fun=> 0) li; move: h; rewrite /= cA => ->.
have [s sp [_ _ h]] := hB i (fun=> 0) li.
by have [_ cB] := dB; move: h; rewrite /= cB => ->.
Qed.

(* a row of norm 5 and a zero row *)
Example C33_example : exists l : level R,
  shaped 2 l /\ exists i j, (i < l_nin l)%N /\ (j < 2)%N /\ ent (l_A l) i j <> 0 /\
    ent (l_A (normalizeConstraintMatrix l)) i j <> ent (l_A l) i j.
Proof.
pose A : dm R := DM 2 2 (fun i j => if i == 0%N then if j == 0%N then 3%:R else 4%:R else 0).
pose l := setAa (initLevel R 2 2 1) A (dzero R 2 1).
exists l; split; first by split.
exists 0%N, 0%N; split=> //; split=> //; split; first by apply/eqP; rewrite pnatr_eq0.
have n5 : rownorm A 0 = 5%:R.
  have -> : rownorm A 0 = Num.sqrt (5%:R ^+ 2).
    rewrite /rownorm /=; congr Num.sqrt.
    by rewrite big_nat_recl // big_nat1 /=; ring.
  by rewrite sqrtr_sqr ger0_norm // ler0n.
rewrite /normalizeConstraintMatrix /= n5 ltr0n /=; apply/eqP.
have f0 : 5%:R != 0 :> R by rewrite pnatr_eq0.
by rewrite -(inj_eq (mulIf f0)) divfK // -natrM eqr_nat.
Qed.
End Normalised.

Print Assumptions C29_null_space_bases.
Print Assumptions C30_residuals_kept.
Print Assumptions C30_defined.
Print Assumptions C31_inequalities_kept_partial.
Print Assumptions C31_inequalities_kept_exact.
Print Assumptions C31_recursive_feasibility.
Print Assumptions C31_dropped_entry_refuted.
Print Assumptions C32_level_optimal.
Print Assumptions C33_normalisation.
Print Assumptions C70_cost_vector_ignored_refuted.
Print Assumptions C71_weights_ignored_refuted.
Print Assumptions C72_resolve_same_problem.
Print Assumptions C72_solve_leaves_ready.
Print Assumptions C72_null_space_changed_refuted.
