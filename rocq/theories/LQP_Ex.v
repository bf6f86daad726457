(* A free-flying robot with one joint: the concrete instance of the LQP theorems. *)
From mathcomp Require Import all_ssreflect all_algebra.
From mathcomp Require Import zify.
From mathcomp.algebra_tactics Require Import ring.
From Verif Require Import LinAlg DMat DMatL Cone_Model Cone_Spec Cone_Props QP_Model QP_Spec HQP_Model HQP_Spec HQP_Proofs HQP_Thm HQP_Ex HQP_Props LQP_Model LQP_Spec LQP_Proofs LQP_Thm.
Set Implicit Arguments.
Unset Strict Implicit.
Unset Printing Implicit Defensive.
Import Order.TTheory GRing.Theory Num.Theory.
Local Open Scope ring_scope.

(* the converse of HQP_Thm.optimal *)
Section Conv.
Variable R : realFieldType.
Local Notation level := (level R).
Variable n : nat.
Variable osqp : nat -> bool -> oqp R -> (nat -> R).
Variables (d : level) (hs hs' : seq level) (init : bool).
Hypothesis sh : forall i, (i < size hs)%N -> shaped n (nth d hs i).
Hypothesis pr : prepared n d hs.
Hypothesis st : init \/ all_ready d hs.
Hypothesis e : solveSequential osqp hs init = Some hs'.
Local Notation lv i := (nth d hs' i).

Lemma optimal_conv i : (0 < i < size hs)%N -> nothing_dropped (l_qA (lv i)) -> nothing_dropped (l_qH (lv i)) ->
  (l_cost (lv i) -> (Hm n (lv i))^T = Hm n (lv i)) ->
  lec (Am n (lv i) *m yv n (lv i) + av (lv i)) (vv (lv i)) ->
  (forall k, (k < i)%N -> lec (Am n (lv k) *m yv n (lv i) + av (lv k)) (vv (lv k))) ->
  (forall (y : 'cV[R]_n) (v : 'cV[R]_(l_nin (lv i))),
    (forall k, (k < i)%N -> Bm n (lv k) *m y = Bm n (lv k) *m yv n (lv i.-1)) ->
    lec (Am n (lv i) *m y + av (lv i)) v ->
    (forall k, (k < i)%N -> lec (Am n (lv k) *m y + av (lv k)) (vv (lv k))) ->
    level_objective (lv i) (yv n (lv i)) (vv (lv i)) <= level_objective (lv i) y v) ->
  oqp_optimal (osqp_problem (lv i)) (ans_of (lv i)).
Proof.
move=> li ndA ndH sym hA hK mn.
have i0 := proj1 (andP li); have lt := proj2 (andP li).
have ct := content sh pr st e li.
have pr' := run_prepared sh (Zs pr) (is_run d e (leq_ltn_trans (leq0n _) lt)) pr.
have szE := sz d e lt.
have [|_ BZ _] := pr' i.-1; first by rewrite szE prednK // ltnW.
have FE x : oqp_feasible (osqp_problem (lv i)) x <->
   lec (Am n (lv i) *m (yv n (lv i.-1) + Zm n (lv i.-1) *m col_of (l_ns (lv i.-1)) x) + av (lv i))
       (col_of (l_nin (lv i)) (fun c => x (l_ns (lv i.-1) + c)%N)) /\
   forall k, (k < i)%N -> lec (Am n (lv k) *m (yv n (lv i.-1) + Zm n (lv i.-1) *m col_of (l_ns (lv i.-1)) x) + av (lv k)) (vv (lv k)).
  rewrite (feasible_exact x li ndA) (content_feasible ct).
  rewrite (size_above d e li); split=> -[h1 h2]; split=> // k lk.
    by have := h2 k lk; have [_ ->] := nth_above d e li lk.
  by have [_ ->] := nth_above d e li lk; apply: h2.
split; first by apply/FE; rewrite -(y_ans sh pr e li) -(v_ans sh pr e li).
move=> x /FE [f1 f2]; rewrite !(cost_exact _ li ndH).
rewrite -(@ler_pmul2l _ 2%:R) ?ltr0n // !(content_cost ct) //.
rewrite ler_add2r -(y_ans sh pr e li) -(v_ans sh pr e li); apply: mn => // k lk.
rewrite mulmxDr mulmxA BZ ?mul0mx ?addr0 //; by rewrite -ltnS prednK.
Qed.
End Conv.

Section Instance.
Variable R : rcfType.
Local Notation dm := (dm R).
Local Notation level := (level R).
Local Notation d0 := (initLevel R 0 0 0).
Local Notation answer := LQP_Spec.answer.

(* the joint's row: acceleration 6 *)
Definition J7 : dm := DM 1 7 (fun _ j => (j == 6%N)%:R).
(* unit inertia, no gravity, no contact; one task: joint acceleration 4; torque limit lim *)
Definition task7 : ltask R := LTK 1 J7 (DM 1 1 (fun _ _ => 4%:R)) false.
Definition rb7 (lim : R) : lrobot R :=
  LRB 7 1 0 0 (dident R 7) (dident R 7) (dzero R 7 1) (dzero R 0 7) [::] (DM 1 1 (fun _ _ => lim)) [:: task7]
      7 1 (dident R 7) (dident R 7) (dzero R 7 1) (dzero R 0 7) (dident R 7).

(* a null space function that returns the unit vectors where the example needs them *)
Definition is_top (M : dm) : bool :=
  [&& nr M == 6%N, nc M == 7%N & [forall i : 'I_6, forall j : 'I_7, ent M i j == (i == j :> nat)%:R]].
Definition f7 (M : dm) : dm :=
  if is_top M then DM 7 1 (fun i _ => (i == 6%N)%:R)
  else if (nr M == 0%N) && (nc M == 1%N) then DM 1 1 (fun _ _ => 1) else knull M.

Lemma f7_ok : null_space_ok f7.
Proof.
move=> M; rewrite /f7; case: ifP => [/and3P[/eqP r6 /eqP c7 /forallP h]|_]; last first.
  case: ifP => [/andP[/eqP r0 /eqP c1]|_]; last exact: knull_ok.
  rewrite /= c1; split=> //; split; first by apply/matrixP => i; exfalso; move: (ltn_ord i); rewrite [X in (_ < X)%N]r0.
  move=> x _; exists x; apply/matrixP => i j; rewrite mxE big_ord1 mxE mul1r !ord1; congr (x _ _).
have hE i j (li : (i < 6)%N) (lj : (j < 7)%N) : ent M i j = (i == j)%:R.
  by have /forallP/(_ (Ordinal lj))/eqP := h (Ordinal li).
rewrite /= c7; split=> //; rewrite r6; split.
  apply/matrixP => i j; rewrite !mxE big1 // => k _; rewrite !mxE hE // -natrM mulnb.
  by case: eqP => // <-; rewrite ltn_eqF.
move=> x hx; exists (\col_i x (inord 6) 0); apply/matrixP => i j; rewrite mxE big_ord1 !mxE ord1 [ent _ _ _]/=.
case: (eqVneq (i : nat) 6%N) => [e6|n6].
  by rewrite mul1r; congr (x _ _); apply: val_inj; rewrite /= e6 inordK. 
have l6 : (i < 6)%N by have := ltn_ord i; rewrite [X in (_ < X)%N]/= ltnS leq_eqVlt (negbTE n6).
have /matrixP/(_ (Ordinal l6) 0) := hx; rewrite !mxE (bigD1 i) //= big1; last first.
  move=> k ki; rewrite mxE hE //= ; have -> : ((i : nat) == k) = false by apply/eqP => ik; move/eqP: ki; apply; apply: val_inj.
  by rewrite mul0r.
by rewrite mxE hE // eqxx mul1r addr0 mul0r.
Qed.

Lemma rb7_ok lim : robot_ok (rb7 lim) 1.
Proof.
split=> //.
- by split=> //=; constructor.
- rewrite /inverse_ok; apply/matrixP => i j; rewrite !mxE (bigD1 i) //= big1 ?addr0 ?mxE.
    by rewrite /= eqxx mul1r.
  move=> k ki; rewrite !mxE /=; have -> : ((i : nat) == k) = false by (rewrite eq_sym in ki; apply: negbTE).
  exact: mul0r.
- by constructor=> //; constructor.
Qed.

(* unit vectors read off the entries of a matrix known through its rows *)
Definition dlt (j : nat) : nat -> R := fun k => (k == j)%:R.
Lemma rowdot_dlt (M : dm) r j : (j < nc M)%N -> rowdot M r (dlt j) = ent M r j.
Proof.
move=> lj; rewrite /rowdot (@sum_window _ j 1) ?addn1 // ?big_nat1 /dlt ?addn0 ?eqxx ?mulr1 //.
move=> k lk; rewrite ltnS -eqn_leq eq_sym => /negbTE ->; exact: mulr0.
Qed.
Lemma row_entries (M m : dm) r (g : (nat -> R) -> R) : (forall x, rowdot M r x + ent m r 0 = g x) ->
  forall j, (j < nc M)%N -> ent M r j = g (dlt j) - g (fun=> 0).
Proof.
move=> h j lj; rewrite -!h rowdot_dlt // opprD addrACA subrr addr0.
have -> : rowdot M r (fun=> 0) = 0 by rewrite /rowdot sum_nat0 // => *; rewrite mulr0.
by rewrite subr0.
Qed.

(* normalisation of unit rows *)
Lemma normalized_unit n (M m : dm) i j : (i < n)%N -> \sum_(0 <= k < nc M) ent M i k ^+ 2 = 1 ->
  ent (normalized n M m).1 i j = ent M i j /\ ent (normalized n M m).2 i j = ent m i j.
Proof. by move=> li e; rewrite /normalized /rownorm /= e sqrtr1 li ltr01 /= !divr1. Qed.

Lemma unit_row (M : dm) i k (s : R) : (k < nc M)%N -> s ^+ 2 = 1 -> (forall j, (j < nc M)%N -> ent M i j = s * (j == k)%:R) ->
  \sum_(0 <= j < nc M) ent M i j ^+ 2 = 1.
Proof.
move=> lk s1 h; rewrite (@sum_window _ k 1) ?addn1 // ?big_nat1 ?addn0.
  by rewrite h // eqxx mulr1.
by move=> j lj; rewrite ltnS -eqn_leq eq_sym => /negbTE e; rewrite h // e mulr0 expr0n.
Qed.

Lemma gen7 lim x i : (i < 7)%N -> genforce (dataLQP (rb7 lim)) x i = x i.
Proof.
move=> li; rewrite /genforce /= (@sum_window _ i 1) ?addn1 // ?big_nat1.
  by rewrite addn0 eqxx mul1r big_geq // !addr0.
by move=> j lj; rewrite ltnS -eqn_leq => /negbTE ->; rewrite mul0r.
Qed.

(* the inequality rows of the two first levels: e7 and -e7 *)
Definition two_rows (l : level) : Prop :=
  [/\ l_nin l = 2%N, dims (l_A l) 2 7 &
     forall j, (j < 7)%N -> ent (l_A l) 0 j = (j == 6%N)%:R /\ ent (l_A l) 1 j = - (j == 6%N)%:R].

(* a level with unit rows survives the normalisation *)
Lemma norm_rows (l : level) : l_nin l = 2%N -> dims (l_A l) 2 7 ->
  (forall j, (j < 7)%N -> ent (l_A l) 0 j = (j == 6%N)%:R /\ ent (l_A l) 1 j = - (j == 6%N)%:R) ->
  two_rows (normalizeConstraintMatrix l).
Proof.
move=> ni [rA cA] h; have u0 : \sum_(0 <= k < nc (l_A l)) ent (l_A l) 0 k ^+ 2 = 1.
  by apply: (@unit_row _ _ 6 1); rewrite ?cA ?expr1n // => j lj; rewrite mul1r; case: (h j lj).
have u1 : \sum_(0 <= k < nc (l_A l)) ent (l_A l) 1 k ^+ 2 = 1.
  by apply: (@unit_row _ _ 6 (-1)); rewrite ?cA ?sqrrN ?expr1n // => j lj; rewrite mulN1r; case: (h j lj).
rewrite /normalizeConstraintMatrix ni /=; split=> //= j lj.
have [<- <-] := h j lj.
have [e0 _] := @normalized_unit 2 (l_A l) (l_a l) 0 j isT u0.
by have [e1 _] := @normalized_unit 2 (l_A l) (l_a l) 1 j isT u1; split; [exact: e0|exact: e1].
Qed.

Lemma norm_B (l : level) : (forall i, (i < l_neq l)%N -> exists2 k, (k < nc (l_B l))%N &
    forall j, (j < nc (l_B l))%N -> ent (l_B l) i j = (j == k)%:R) ->
  let l' := normalizeConstraintMatrix l in
  [/\ nr (l_B l') = nr (l_B l), nc (l_B l') = nc (l_B l) &
    forall i j, (i < l_neq l)%N -> ent (l_B l') i j = ent (l_B l) i j].
Proof.
move=> h /=; rewrite /normalizeConstraintMatrix.
have E i j : (i < l_neq l)%N -> ent (normalized (l_neq l) (l_B l) (l_b l)).1 i j = ent (l_B l) i j.
  move=> li; have [k lk hk] := h i li.
  have u : \sum_(0 <= a < nc (l_B l)) ent (l_B l) i a ^+ 2 = 1.
    by apply: (@unit_row _ _ k 1); rewrite ?expr1n // => a la; rewrite mul1r; exact: hk.
  by have [-> _] := @normalized_unit _ _ (l_b l) i j li u.
by case: ifP => _ /=.
Qed.

Lemma lev0 lim : exists l, [/\ priority1 (dataLQP (rb7 lim)) (tlimLQP R 1) [::] = Some [:: l],
  two_rows l & is_top (l_B l)].
Proof.
have [_ ok _ _] := rb7_ok lim; set D := dataLQP _ in ok *.
have [B [b [eB [rB cB] [rb cb] hB]]] := base_rows_ok ok.
have [A [a [eA [rA cA] [ra ca] hA]]] := torque_rows_ok (fun=> 200%:R) ok.
have [y0 [ey [ry cy] hy]] := first_answer ok.
have BE i j : (i < 6)%N -> (j < 7)%N -> ent B i j = (i == j)%:R.
  move=> li lj; rewrite (@row_entries B b i (fun x => x i)) ?cB // ?subr0 //.
  by move=> x; rewrite hB // gen7 // (leq_trans li).
have AE j : (j < 7)%N -> ent A 0 j = (j == 6%N)%:R /\ ent A 1 j = - (j == 6%N)%:R.
  move=> lj; split.
    rewrite (@row_entries A a 0 (fun x => x 6%N - 200%:R)) ?cA // /dlt 1?eq_sym; first by ring.
    by move=> x; have [-> _] := hA x 0%N isT; rewrite /torque gen7.
  rewrite (@row_entries A a 1 (fun x => - x 6%N - 200%:R)) ?cA // /dlt 1?eq_sym; first by ring.
  by move=> x; have [_ ->] := hA x 0%N isT; rewrite /torque gen7.
rewrite /priority1 /tlimLQP [d_m D]/= eB eA ey.
rewrite /updAt /= /updateConstraintMatrix /= /sized rA cA ra ca rB cB rb cb /=.
set l1 := setBb _ _ _.
have t1 : two_rows (normalizeConstraintMatrix l1) by apply: norm_rows.
have [r1 c1 h1] : let l' := normalizeConstraintMatrix l1 in
  [/\ nr (l_B l') = nr (l_B l1), nc (l_B l') = nc (l_B l1) &
    forall i j, (i < l_neq l1)%N -> ent (l_B l') i j = ent (l_B l1) i j].
  apply: norm_B => i li /=; exists i; first by rewrite cB (leq_trans li).
  by move=> j; rewrite cB => lj; rewrite BE // eq_sym.
have [y [-> _]] : exists y, segw (l_y (normalizeConstraintMatrix l1)) 0 7 y0 = Some y /\ True.
  have [-> _ _ _] := norm_kept l1; rewrite /segw blockwE //=; by eexists.
eexists; split; [by []|by []|].
rewrite /is_top /= r1 c1 /= rB cB /=; apply/forallP => i; apply/forallP => j; apply/eqP.
by apply: etrans (h1 i j _) _ => //=; rewrite BE.
Qed.

Lemma lev1 lim H l0 : dims H 7 7 -> exists l, [/\ priority2 (dataLQP (rb7 lim)) (rb7 lim) H [:: l0] = Some [:: l0; l],
  two_rows l & nr (l_B l) = 0%N /\ nc (l_B l) = 7%N].
Proof.
case=> rH cH; have [_ ok _ _] := rb7_ok lim.
have [C [eC dC]] : exists C, getContactConstraintMatrix (q_cc (rb7 lim)) (q_cln (rb7 lim)) (q_cdof (rb7 lim)) = Some C /\
    dims C 0 0 by eexists.
have [A [a [eA [rA cA] [ra ca] hA]]] := contact_rows_ok ok dC.
have AE j : (j < 7)%N -> ent A 0 j = (j == 6%N)%:R /\ ent A 1 j = - (j == 6%N)%:R.
  move=> lj; split.
    rewrite (@row_entries A a 0 (fun x => x 6%N - 5%:R)) ?cA // /dlt 1?eq_sym; first by ring.
    by move=> x; have [_ /(_ 0%N isT) [-> _]] := hA x.
  rewrite (@row_entries A a 1 (fun x => - x 6%N - 5%:R)) ?cA // /dlt 1?eq_sym; first by ring.
  by move=> x; have [_ /(_ 0%N isT) [_ ->]] := hA x.
rewrite /priority2 eC /= eA /=.
rewrite /updAt /= /updateConstraintMatrix /= /sized rA cA ra ca /= /updateCostMatrix /sized rH cH /=.
set l1 := setCost _ _ _.
have t1 : two_rows (normalizeConstraintMatrix l1) by apply: norm_rows.
by eexists.
Qed.

Lemma lev2 lim H l0 l1 : dims H 7 7 -> exists l, [/\ tasks_loop (dataLQP (rb7 lim)) H 0 (q_ts (rb7 lim)) [:: l0; l1] = Some [:: l0; l1; l],
  dims (l_B l) 1 7 & forall j, ent (l_B l) 0 j = (j == 6%N)%:R].
Proof.
case=> rH cH; rewrite /= /task_level /=.
rewrite /updAt /= /updateConstraintMatrix /= /sized /= /updateCostMatrix /sized rH cH /=.
set l2 := setCost _ _ _.
have [r1 c1 h1] : let l' := normalizeConstraintMatrix l2 in
  [/\ nr (l_B l') = nr (l_B l2), nc (l_B l') = nc (l_B l2) &
    forall i j, (i < l_neq l2)%N -> ent (l_B l') i j = ent (l_B l2) i j].
  apply: norm_B => i li /=; exists 6%N => // j lj.
  by move: li; rewrite ltnS leqn0 => /eqP ->; rewrite /= lj subn0.
eexists; split; [by []|by split; [rewrite r1|rewrite c1]|].
move=> j; rewrite (h1 0%N j isT) /= subn0; case: ifP => //.
by rewrite add0n => /negbT; rewrite -leqNgt; case: eqP => // ->.
Qed.

Definition e7 : dm := DM 7 1 (fun i _ => (i == 6%N)%:R).

Lemma f7_top M : is_top M -> f7 M = e7. Proof. by rewrite /f7 => ->. Qed.

Lemma conf7 lim : exists l0 l1 l2, [/\ ConfigureLQP f7 (rb7 lim) [::] = Some [:: l0; l1; l2],
  two_rows l0, two_rows l1, l_ns l0 = 1%N /\ (forall i, (i < 7)%N -> ent (l_Z l0) i 0 = (i == 6%N)%:R) &
  [/\ l_ns l1 = 1%N, (forall i, (i < 7)%N -> ent (l_Z l1) i 0 = (i == 6%N)%:R) &
     dims (l_B l2) 1 7 /\ forall j, ent (l_B l2) 0 j = (j == 6%N)%:R]].
Proof.
have [_ ok inv _] := rb7_ok lim.
have [H [eH dH _]] := cost_h_ok ok (frob_pos ok inv).
have [l0 [e0 t0 top0]] := lev0 lim.
have [l1 [e1 t1 [r1 c1]]] := lev1 lim l0 dH.
have [l2 [e2 [r2 c2] b2]] := lev2 lim l0 l1 dH.
have step : ConfigureLQP f7 (rb7 lim) [::] = prepare f7 [:: l0; l1; l2].
  rewrite /ConfigureLQP; cbv zeta; rewrite [cost_h _ _]eH.
  transitivity (hs1 <- priority1 (dataLQP (rb7 lim)) (tlimLQP R 1) [::];;
    hs2 <- priority2 (dataLQP (rb7 lim)) (rb7 lim) H hs1;;
    hs3 <- tasks_loop (dataLQP (rb7 lim)) H 0 (q_ts (rb7 lim)) hs2;; prepare f7 hs3); first by [].
  by rewrite e0; transitivity (hs2 <- priority2 (dataLQP (rb7 lim)) (rb7 lim) H [:: l0];;
    hs3 <- tasks_loop (dataLQP (rb7 lim)) H 0 (q_ts (rb7 lim)) hs2;; prepare f7 hs3) => //; rewrite e1; transitivity (hs3 <- tasks_loop (dataLQP (rb7 lim)) H 0 (q_ts (rb7 lim)) [:: l0; l1];; prepare f7 hs3) => //; rewrite e2.
rewrite step /=.
rewrite (f7_top top0) /dmul c1 r1 /= {1 2}/f7 /is_top /= c2 r2 /=.
do 3 eexists; split; [by []|by []|by []|by []|].
by split=> // i li; rewrite /= big_nat1 mulr1.
Qed.
End Instance.
