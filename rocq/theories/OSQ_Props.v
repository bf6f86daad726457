(* C166, C167: what the solver objects of the levels remember between solves *)
From mathcomp Require Import all_ssreflect all_algebra.
From mathcomp Require Import ring zify.
From Verif Require Import DMat DMatL LinAlg Cone_Model QP_Model QP_Spec HQP_Model HQP_Spec HQP_Proofs HQP_Thm HQP_First HQP_Ex HQP_Props OSQ_Model OSQ_Spec OSQ_Proofs.
Set Implicit Arguments.
Unset Strict Implicit.
Unset Printing Implicit Defensive.
Import Order.TTheory GRing.Theory Num.Theory.
Local Open Scope ring_scope.

Section OSQProps.
Variable R : realFieldType.
Local Notation level := (level R).
Local Notation fresh := (fun _ : nat => fresh_solver R).
Implicit Types (st : nat -> solver R) (hs : seq level) (d : level).

(* C166, first part: the first solve of a new object, with init, answers for the problems of its levels, and leaves
   these problems loaded *)
Theorem C166_first_partial (n : nat) best d hs :
  (forall i, (i < size hs)%N -> shaped n (nth d hs i)) -> prepared n d hs ->
  exists st' hs', [/\ solveSequentialS best fresh d hs true = Some (st', hs'),
    solveSequential (ideal best) hs true = Some hs' &
    loaded st' d hs (fun i => osqp_problem (nth d hs' i))].
Proof.
move=> sh pr; have [hs' [e es h]] := run_sizes best fresh sh pr (or_introl isT).
exists (after fresh d hs' true), hs'; split=> //.
  move: e; rewrite /solveSequentialS; case e1: solveSequential => [hs1|] // -[_ e2]; rewrite e2 in e1.
  apply: (sequential_ext (d := d) e1) => i; rewrite es => li.
  by rewrite /osqp_of (solve_fresh (h i li)).
by move=> i li; rewrite /after es li (solve_fresh (h i li)); split=> //; exact: h.
Qed.

(* the sizes do not depend on the contents *)
Lemma loaded_same st d hs hs2 w : loaded st d hs w -> same_sizes d hs hs2 -> loaded st d hs2 w.
Proof.
move=> lo [es h] i; rewrite es => li; have [e1 e2] := lo i li; split=> //; case/andP: li => i0 li.
have [a1 _] := h i li; have [_ a2] := h i.-1 (leq_ltn_trans (leq_pred i) li).
rewrite a1 a2 (@rows_of_kept R d hs hs2 i.+1) ?es // => j lj; have [] := h j (leq_trans lj li); by [].
Qed.

(* C166, second part: once problems of the same sizes are loaded, whatever they are, a solve without init answers for
   the present problems of its levels *)
Theorem C166_update_partial (n : nat) best st d hs0 hs w :
  loaded st d hs0 w -> same_sizes d hs0 hs ->
  (forall i, (i < size hs)%N -> shaped n (nth d hs i)) -> prepared n d hs -> all_ready d hs ->
  exists st' hs', [/\ solveSequentialS best st d hs false = Some (st', hs'),
    solveSequential (ideal best) hs false = Some hs' &
    loaded st' d hs (fun i => osqp_problem (nth d hs' i))].
Proof.
move=> lo0 ss sh pr rd; have lo := loaded_same lo0 ss.
have [hs' [e es h]] := run_sizes (init := false) best st sh pr (or_intror rd).
have key i : (0 < i < size hs)%N -> s_work (solveOSQP (st i) (osqp_problem (nth d hs' i)) false) = Some (osqp_problem (nth d hs' i)).
  by move=> li; have [ew pw] := lo i li; apply: solve_update ew pw (h i li).
exists (after st d hs' false), hs'; split=> //.
  move: e; rewrite /solveSequentialS; case e1: solveSequential => [hs1|] // -[_ e2]; rewrite e2 in e1.
  by apply: (sequential_ext (d := d) e1) => i; rewrite es => li; rewrite /osqp_of key.
by move=> i li; rewrite /after es li key //; split=> //; exact: h.
Qed.

(* C166, third part: once problems are loaded, a solve with init answers for the loaded problems: whatever the matrices
   of the levels now are, every answer is the one OSQP gives for the old problem, and it stays loaded *)
Theorem C166_stale_partial (n : nat) best st d hs0 hs w :
  loaded st d hs0 w -> same_sizes d hs0 hs ->
  (forall i, (i < size hs)%N -> shaped n (nth d hs i)) -> prepared n d hs ->
  exists st' hs', [/\ solveSequentialS best st d hs true = Some (st', hs'),
    solveSequential (fun i _ _ => best (Some (w i))) hs true = Some hs' & loaded st' d hs w].
Proof.
move=> lo0 ss sh pr; have lo := loaded_same lo0 ss.
have [hs' [e es h]] := run_sizes best st sh pr (or_introl isT).
have key i : (0 < i < size hs)%N -> s_work (solveOSQP (st i) (osqp_problem (nth d hs' i)) true) = Some (w i).
  by move=> li; have [ew _] := lo i li; apply: solve_again ew.
exists (after st d hs' true), hs'; split=> //.
  move: e; rewrite /solveSequentialS; case e1: solveSequential => [hs1|] // -[_ e2]; rewrite e2 in e1.
  by apply: (sequential_ext (d := d) e1) => i; rewrite es => li; rewrite /osqp_of key.
move=> i li; have [_ pw] := lo i li; by rewrite /after es li key.
Qed.

(* C166, the same for solvefirst and the object of level 0 *)
Theorem C166_first_level_partial (n : nat) best st (l : level) hs : shaped n l -> weighted l ->
  [/\ st 0%N = fresh_solver R -> exists st' l',
        solvefirstS best st n (l :: hs) true = Some (st', l' :: hs) /\ solvefirst (ideal best) n (l :: hs) true = Some (l' :: hs)
        /\ s_work (st' 0%N) = Some (osqp_problem l') /\ problem_size (osqp_problem l') (n + l_nin l) (l_nin l),
      forall w, s_work (st 0%N) = Some w -> problem_size w (n + l_nin l) (l_nin l) -> exists st' l',
        solvefirstS best st n (l :: hs) false = Some (st', l' :: hs) /\ solvefirst (ideal best) n (l :: hs) false = Some (l' :: hs)
        /\ s_work (st' 0%N) = Some (osqp_problem l') /\ problem_size (osqp_problem l') (n + l_nin l) (l_nin l) &
      forall w, s_work (st 0%N) = Some w -> exists st' l',
        solvefirstS best st n (l :: hs) true = Some (st', l' :: hs) /\
        solvefirst (fun _ _ _ => best (Some w)) n (l :: hs) true = Some (l' :: hs) /\ s_work (st' 0%N) = Some w].
Proof.
move=> sh we; split=> [e0|w ew pw|w ew].
- have [l' [e [ps ext]]] := first_sizes (osqp_of best st) hs true sh we; rewrite /solvefirstS e.
  eexists; exists l'; split; first by [].
  by rewrite /= e0 (solve_fresh ps); split=> //; apply: ext; rewrite /osqp_of e0 (solve_fresh ps).
- have [l' [e [ps ext]]] := first_sizes (osqp_of best st) hs false sh we; rewrite /solvefirstS e.
  eexists; exists l'; split; first by [].
  by rewrite /= (solve_update ew pw ps); split=> //; apply: ext; rewrite /osqp_of (solve_update ew pw ps).
have [l' [e [ps ext]]] := first_sizes (osqp_of best st) hs true sh we; rewrite /solvefirstS e.
eexists; exists l'; split; first by [].
split; first by apply: ext; rewrite /osqp_of (solve_again _ ew).
exact: (solve_again _ ew).
Qed.

(* C166, fourth part: without init on a new object no problem is ever solved *)
Theorem C166_no_init_partial (n : nat) best d hs :
  (forall i, (i < size hs)%N -> shaped n (nth d hs i)) -> prepared n d hs -> all_ready d hs ->
  exists st' hs', [/\ solveSequentialS best fresh d hs false = Some (st', hs'),
    solveSequential (fun _ _ _ => best None) hs false = Some hs' & forall i, s_work (st' i) = None].
Proof.
move=> sh pr rd; have [hs' [e es h]] := run_sizes (init := false) best fresh sh pr (or_intror rd).
exists (after fresh d hs' false), hs'; split=> //; last by move=> i; rewrite /after; case: ifP.
move: e; rewrite /solveSequentialS; case e1: solveSequential => [hs1|] // -[_ e2]; rewrite e2 in e1.
by apply: (sequential_ext (d := d) e1) => i li.
Qed.

(* one variable: minimise (y + b)^2 *)
Definition W1 : dm R := dident R 1.
Definition lo : level := sl 0 1 0 0 0 (fun=> 0) false 0 0 W1 1 0 0.
Definition want (b : R) : level := sl 0 1 0 0 1 (fun=> b) false 0 0 W1 0 0 0.
(* a solver that is exact for 1/2 x^2 + g x *)
Definition exact1 (q : option (oqp R)) : nat -> R := if q is Some q then fun c => - ent (o_g q) c 0 else fun=> 0.

Lemma two_prep (l0 l1 : level) : l_neq l0 = 1%N -> l_B l0 = DM 1 1 (fun _ _ => 0) -> l_ns l0 = 1%N ->
  l_Z l0 = DM 1 1 (fun _ _ => 1) -> l_neq l1 = 1%N -> l_B l1 = DM 1 1 (fun _ _ => 1) -> l_ns l1 = 0%N ->
  l_Z l1 = DM 1 0 (fun _ _ => 1) -> prepared 1 lo [:: l0; l1].
Proof.
move=> a b c e f g h i; apply: sl_prepared => //; first by rewrite f.
by exists 1; [exact/eqP/oner_neq0|rewrite f].
Qed.

(* the problem of the second level *)
Lemma want_qp k0 b W' k H g A ub y v w x :
  qp_content 1 lo [:: lev0 lo k0] (lev0 lo k0) (lev1 lo (sl 0 1 0 0 1 (fun=> b) false 0 0 W' 0 0 0) H g A ub k y v w x) (OQP H g A ub) ->
  let L1 := lev1 lo (sl 0 1 0 0 1 (fun=> b) false 0 0 W' 0 0 0) H g A ub k y v w x in
  [/\ ent g 0 0 = b, forall z, oqp_feasible (osqp_problem L1) z &
      forall z, oqp_cost (osqp_problem L1) z = 1 / 2%:R * z 0%N ^+ 2 + b * z 0%N].
Proof.
move=> c L1; have eg : ent g 0 0 = b by rewrite (ov_g c) big_ord1 mulr0 add0r mul1r addr0.
split=> // [z|z]; first exact: (ov_feasible c).
rewrite (ov_sparse c); last by rewrite expr1n mulr1 addr0 normr1.
by rewrite big_ord1 expr1n !(mulr0, addr0, add0r, mulr1, mul1r).
Qed.

(* the minimum is at - b *)
Lemma quad_opt (q : oqp R) b z : (forall z, oqp_feasible q z) ->
  (forall z, oqp_cost q z = 1 / 2%:R * z 0%N ^+ 2 + b * z 0%N) -> (oqp_optimal q z <-> z 0%N = - b).
Proof.
move=> f c; have sq (t : R) : 1 / 2%:R * t ^+ 2 + b * t = 1 / 2%:R * (t + b) ^+ 2 - 1 / 2%:R * b ^+ 2 by field.
have h2 : 0 < 1 / 2%:R :> R by rewrite mul1r invr_gt0 ltr0n.
split=> [[_ /(_ (fun=> - b) (f _))]|e].
  rewrite !c !sq ler_add2r addNr expr0n mulr0 pmulr_rle0 // => h.
  have /eqP : (z 0%N + b) ^+ 2 = 0 by apply/le_anti; rewrite h sqr_ge0.
  by rewrite expf_eq0 /= addr_eq0 => /eqP.
split=> // y _; rewrite !c !sq e addNr expr0n mulr0 ler_add2r; exact: mulr_ge0 (ltW h2) (sqr_ge0 _).
Qed.

(* C166 refuted: a hierarchy of one variable is solved with init (the default), its second level is given another b_ by
   updateConstraintMatrix, and it is solved with init again.  The answer is the old one, although the solver is exact
   for the new problem, and although its optimum is another *)
Theorem C166_again_refuted : exists best d hs st1 hs1 l2 st2 hs2,
  [/\ solveSequentialS best fresh d hs true = Some (st1, hs1) /\ size hs1 = 2%N,
      updateConstraintMatrix 1 (nth d hs1 1) (dzero R 0 1) (dzero R 0 1) (DM 1 1 (fun _ _ => 1)) (DM 1 1 (fun _ _ => - 3%:R)) = Some l2,
      prepared 1 d [:: nth d hs1 0; l2] /\ solveSequentialS best st1 d [:: nth d hs1 0; l2] true = Some (st2, hs2),
      [/\ yv 1 (nth d hs1 1) = const_mx 2%:R & yv 1 (nth d hs2 1) = const_mx 2%:R] &
      let q := osqp_problem (nth d hs2 1) in oqp_optimal q (best (Some q)) /\ best (Some q) 0%N = 3%:R /\
        ~ oqp_optimal q (ans_of (nth d hs2 1))].
Proof.
have s0 : shaped 1 lo by exact: sl_shaped.
have s1 : shaped 1 (want (- 2%:R)) by exact: sl_shaped.
have p1 : prepared 1 lo [:: lo; want (- 2%:R)] by apply: two_prep.
have [k0 [k [H [g [A [ub [y [v [w [x [e1 ex qc ey _]]]]]]]]]]] := two_levels (osqp_of exact1 fresh) s0 s1 p1.
set L0 := lev0 _ _ in e1 qc; set L1 := lev1 _ _ _ _ _ _ _ _ _ _ _ in e1 ex qc.
have sh i : (i < size [:: lo; want (- 2%:R)])%N -> shaped 1 (nth lo [:: lo; want (- 2%:R)] i) by case: i => [|[|]].
have sL0 : shaped 1 L0.
  by have [_ h _] := run_level sh (Zs p1) (is_run lo e1 isT) (i := 0%N) isT; exact: h.
have sL1 : shaped 1 L1.
  by have [_ h _] := run_level sh (Zs p1) (is_run lo e1 isT) (i := 1%N) isT; exact: h.
have [eg fe ce] := want_qp qc.
have ps : problem_size (osqp_problem L1) 1 0 by case: (qc).
have wk : s_work (solveOSQP (fresh_solver R) (osqp_problem L1) true) = Some (osqp_problem L1) := solve_fresh ps.
have x0 : x 0%N = 2%:R by rewrite ex /osqp_of wk /= -[LHS]/(- ent g 0 0) eg opprK.
set l2 := setBb L1 (DM 1 1 (fun _ _ => 1)) (DM 1 1 (fun _ _ => - 3%:R)).
have s2 : shaped 1 l2.
  by case: sL1 => h1 h2 h3 h4 h5; split.
have p2 : prepared 1 lo [:: L0; l2] by apply: two_prep.
set st1 := after fresh lo [:: L0; L1] true.
have [k0' [k' [H' [g' [A' [ub' [y' [v' [w' [x' [e2 ex' qc' ey' _]]]]]]]]]]] := two_levels (osqp_of exact1 st1) sL0 s2 p2.
set M0 := lev0 _ _ in e2 qc'; set M1 := lev1 _ _ _ _ _ _ _ _ _ _ _ in e2 ex' qc'.
have [eg' fe' ce'] := @want_qp k0' (- 3%:R) W1 k' H' g' A' ub' y' v' w' x' qc'.
have wk' : s_work (solveOSQP (st1 1%N) (osqp_problem M1) true) = Some (osqp_problem L1).
  by apply: solve_again; exact: wk.
have x0' : x' 0%N = 2%:R by rewrite ex' /osqp_of wk' /= -[LHS]/(- ent g 0 0) eg opprK.
have b3 : exact1 (Some (osqp_problem M1)) 0%N = 3%:R by rewrite -[LHS]/(- ent g' 0 0) eg' opprK.
have o := quad_opt _ fe' ce'.
exists exact1, lo, [:: lo; want (- 2%:R)], st1, [:: L0; L1], l2, (after st1 lo [:: M0; M1] true), [:: M0; M1].
split=> //.
- by rewrite /solveSequentialS e1.
- by split=> //; rewrite /solveSequentialS e2.
- split; apply: scalar_eq.
    have -> : yv 1 (nth lo [:: L0; L1] 1) = mx_of 1 1 y by [].
    by rewrite ey !mxE big_ord1 !mxE mul1r add0r.
  have -> : yv 1 (nth lo [:: M0; M1] 1) = mx_of 1 1 y' by [].
  by rewrite ey' !mxE big_ord1 !mxE mul1r add0r.
split; first by apply/o; rewrite b3 opprK.
split=> // /o; rewrite opprK /ans_of /= x0' => /eqP; rewrite eqr_nat; by [].
Qed.

(* the hypotheses hold after the first solve, also with another b_ *)
Example C166_ex best : exists st1 L0 L1, let l2 := setBb L1 (DM 1 1 (fun _ _ => 1)) (DM 1 1 (fun _ _ => - 3%:R)) in
  [/\ solveSequentialS best fresh lo [:: lo; want (- 2%:R)] true = Some (st1, [:: L0; L1]),
      loaded st1 lo [:: lo; want (- 2%:R)] (fun i => osqp_problem (nth lo [:: L0; L1] i)),
      same_sizes lo [:: lo; want (- 2%:R)] [:: L0; l2],
      (forall i, (i < size [:: L0; l2])%N -> shaped 1 (nth lo [:: L0; l2] i)) /\ prepared 1 lo [:: L0; l2] &
      all_ready lo [:: L0; l2]].
Proof.
have s0 : shaped 1 lo by exact: sl_shaped.
have s1 : shaped 1 (want (- 2%:R)) by exact: sl_shaped.
have p1 : prepared 1 lo [:: lo; want (- 2%:R)] by apply: two_prep.
have sh i : (i < size [:: lo; want (- 2%:R)])%N -> shaped 1 (nth lo [:: lo; want (- 2%:R)] i) by case: i => [|[|]].
have [st1 [hs1 [e _ lo1]]] := C166_first_partial best sh p1.
have e' : solveSequential (osqp_of best fresh) [:: lo; want (- 2%:R)] true = Some hs1.
  by move: e; rewrite /solveSequentialS; case: solveSequential => // hs2 -[_ ->].
have [k0 [k [H [g [A [ub [y [v [w [x [e1 ex qc ey _]]]]]]]]]]] := two_levels (osqp_of best fresh) s0 s1 p1.
move: e1; rewrite e' => -[e1]; rewrite e1 in e e' lo1.
have [rd _ shp] := C72_solve_leaves_ready (init := true) sh p1 (or_introl isT) e'.
exists st1; eexists; eexists; split; first exact: e.
- exact: lo1.
- by split=> //; case=> [|[|]].
- split; last by apply: two_prep.
  case=> [_|[_|//]]; first exact: (shp 0%N isT).
  by have [h1 h2 h3 h4 h5] := shp 1%N isT; split.
by case=> [//|[_|//]]; exact: (rd 1%N isT).
Qed.

(* C167.  HQP has no copy constructor of its own: a copy of an HQP object has levels of its own and the osqp_solver_
   pointers of the original, i.e. the same st.  Partial: once loaded, solves without init of the original and of the
   copy do not disturb each other *)
Theorem C167_updates_partial (n : nat) best st d hs hsc w :
  loaded st d hs w -> same_sizes d hs hsc ->
  (forall i, (i < size hs)%N -> shaped n (nth d hs i)) -> prepared n d hs -> all_ready d hs ->
  (forall i, (i < size hsc)%N -> shaped n (nth d hsc i)) -> prepared n d hsc -> all_ready d hsc ->
  exists st' hs' st'' hsc', [/\ solveSequentialS best st d hs false = Some (st', hs'),
    solveSequential (ideal best) hs false = Some hs', solveSequentialS best st' d hsc false = Some (st'', hsc') &
    solveSequential (ideal best) hsc false = Some hsc'].
Proof.
move=> lo ss sh pr rd shc prc rdc.
have ssr : same_sizes d hs hs by split.
have [st' [hs' [e1 e2 lo']]] := C166_update_partial best lo ssr sh pr rd.
have [st'' [hsc' [e3 e4 _]]] := C166_update_partial best lo' ss shc prc rdc.
by exists st', hs', st'', hsc'; split.
Qed.

(* C167 refuted: of two copies of a new object the first is solved with init, then the other, whose second level wants
   y = 3, with init as well; it answers y = 2 like the first *)
Theorem C167_copy_refuted : exists best d hs hsc st1 hs1 st2 hs2,
  [/\ [/\ prepared 1 d hs, prepared 1 d hsc & same_sizes d hs hsc],
      solveSequentialS best fresh d hs true = Some (st1, hs1) /\ size hs1 = 2%N,
      solveSequentialS best st1 d hsc true = Some (st2, hs2),
      [/\ yv 1 (nth d hs1 1) = const_mx 2%:R & yv 1 (nth d hs2 1) = const_mx 2%:R] &
      exists st3 hs3, solveSequentialS best fresh d hsc true = Some (st3, hs3) /\
        yv 1 (nth d hs3 1) = const_mx 3%:R /\ oqp_optimal (osqp_problem (nth d hs3 1)) (ans_of (nth d hs3 1))].
Proof.
have s0 : shaped 1 lo by exact: sl_shaped.
have sw b : shaped 1 (want b) by exact: sl_shaped.
have pw b : prepared 1 lo [:: lo; want b] by apply: two_prep.
have fr b : exists hs1, [/\ solveSequentialS exact1 fresh lo [:: lo; want b] true = Some (after fresh lo hs1 true, hs1),
    size hs1 = 2%N, yv 1 (nth lo hs1 1) = const_mx (- b), oqp_optimal (osqp_problem (nth lo hs1 1)) (ans_of (nth lo hs1 1)) &
    s_work (after fresh lo hs1 true 1%N) = Some (osqp_problem (nth lo hs1 1)) /\
    exact1 (Some (osqp_problem (nth lo hs1 1))) 0%N = - b].
  have [k0 [k [H [g [A [ub [y [v [w [x [e1 ex qc ey _]]]]]]]]]]] := two_levels (osqp_of exact1 fresh) s0 (sw b) (pw b).
  set L0 := lev0 _ _ in e1 qc; set L1 := lev1 _ _ _ _ _ _ _ _ _ _ _ in e1 ex qc.
  have [eg fe ce] := want_qp qc.
  have ps : problem_size (osqp_problem L1) 1 0 by case: (qc).
  have wk : s_work (solveOSQP (fresh_solver R) (osqp_problem L1) true) = Some (osqp_problem L1) := solve_fresh ps.
  have x0 : x 0%N = - b by rewrite ex /osqp_of wk /= -[LHS]/(- ent g 0 0) eg.
  exists [:: L0; L1]; split=> //.
  - by rewrite /solveSequentialS e1.
  - have -> : yv 1 (nth lo [:: L0; L1] 1) = mx_of 1 1 y by [].
    by apply: scalar_eq; rewrite ey !mxE big_ord1 !mxE mul1r add0r.
  - by apply/(quad_opt _ fe ce); rewrite /ans_of /=.
  by split=> //; rewrite -[LHS]/(- ent g 0 0) eg.
have [hs1 [e1 z1 y1 _ [wk1 b1]]] := fr (- 2%:R).
have [hs3 [e3 z3 y3 o3 _]] := fr (- 3%:R).
set st1 := after _ _ _ _ in e1 wk1.
have [k0 [k [H [g [A [ub [y [v [w [x [e2 ex qc ey _]]]]]]]]]]] := two_levels (osqp_of exact1 st1) s0 (sw (- 3%:R)) (pw (- 3%:R)).
set M0 := lev0 _ _ in e2 qc; set M1 := lev1 _ _ _ _ _ _ _ _ _ _ _ in e2 ex qc.
have x0 : x 0%N = 2%:R by rewrite ex /osqp_of (solve_again _ wk1) b1 opprK.
exists exact1, lo, [:: lo; want (- 2%:R)], [:: lo; want (- 3%:R)], st1, hs1, (after st1 lo [:: M0; M1] true), [:: M0; M1].
split=> //.
- by split=> //; split=> //; case=> [|[|]].
- by rewrite /solveSequentialS e2.
- split; first by rewrite y1 opprK.
  have -> : yv 1 (nth lo [:: M0; M1] 1) = mx_of 1 1 y by [].
  by apply: scalar_eq; rewrite ey !mxE big_ord1 !mxE mul1r add0r.
by exists (after fresh lo hs3 true), hs3; split=> //; rewrite y3 opprK.
Qed.
End OSQProps.
Print Assumptions C166_first_partial.
Print Assumptions C166_update_partial.
Print Assumptions C166_stale_partial.
Print Assumptions C166_first_level_partial.
Print Assumptions C166_no_init_partial.
Print Assumptions C166_again_refuted.
Print Assumptions C167_updates_partial.
Print Assumptions C167_copy_refuted.
