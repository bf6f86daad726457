(* The concrete instance of the LQP theorems solved exactly. *)
From mathcomp Require Import all_ssreflect all_algebra.
From mathcomp Require Import zify.
From mathcomp.algebra_tactics Require Import ring.
From Verif Require Import LinAlg DMat DMatL Cone_Model Cone_Spec Cone_Props QP_Model QP_Spec HQP_Model HQP_Spec HQP_Proofs HQP_Thm HQP_Ex HQP_Props LQP_Model LQP_Spec LQP_Proofs LQP_Thm LQP_Props LQP_Ex.
Set Implicit Arguments.
Unset Strict Implicit.
Unset Printing Implicit Defensive.
Import Order.TTheory GRing.Theory Num.Theory.
Local Open Scope ring_scope.

Section Run.
Variable R : rcfType.
Local Notation dm := (dm R).
Local Notation level := (level R).
Local Notation d0 := (initLevel R 0 0 0).
Local Notation answer := LQP_Spec.answer.

Definition h7 : R := 5%:R / Num.sqrt 7%:R.
Definition t7 : R := 4%:R / (1 + h7).

Lemma frob7 lim : frob (q_A (rb7 (R := R) lim)) = Num.sqrt 7%:R.
Proof.
rewrite /frob /=; congr Num.sqrt.
rewrite (@sum_nat_eq _ _ _ (fun=> 1)); last first.
  move=> i li; rewrite (@sum_window _ i 1) ?addn1 // ?big_nat1.
    by rewrite addn0 eqxx expr1n.
  by move=> j lj; rewrite ltnS -eqn_leq => /negbTE ->; rewrite expr0n.
by rewrite big_const_nat iter_addr_0.
Qed.

Lemma h7_gt1 : 1 < h7.
Proof.
have s0 : 0 < Num.sqrt (7%:R : R) by rewrite sqrtr_gt0 ltr0n.
rewrite /h7 ltr_pdivl_mulr // mul1r -(@ltr_pexpn2r _ 2) ?nnegrE ?ler0n ?sqrtr_ge0 // sqr_sqrtr ?ler0n //.
by rewrite -natrX ltr_nat.
Qed.
Lemma h7_gt0 : 0 < h7. Proof. exact: lt_trans ltr01 h7_gt1. Qed.
Lemma h7_lt2 : h7 < 2%:R.
Proof.
have s0 : 0 < Num.sqrt (7%:R : R) by rewrite sqrtr_gt0 ltr0n.
rewrite /h7 ltr_pdivr_mulr // -(@ltr_pexpn2r _ 2) ?nnegrE ?ler0n ?mulr_ge0 ?sqrtr_ge0 ?ler0n // exprMn sqr_sqrtr ?ler0n //.
by rewrite -!natrX -natrM ltr_nat.
Qed.
Lemma t7_bounds : 1 < t7 /\ t7 < 4%:R.
Proof.
have h1 := h7_gt1; have h2 := h7_lt2; have p : 0 < 1 + h7 by rewrite addr_gt0 ?h7_gt0 ?ltr01.
rewrite /t7 ltr_pdivl_mulr // mul1r ltr_pdivr_mulr //; split.
  by apply: lt_trans (_ : 1 + 2%:R < _); [rewrite ltr_add2l|rewrite -(natrD _ 1 2) ltr_nat].
rewrite -{1}[4%:R]mulr1 ltr_pmul2l ?ltr0n // ltr_addl; exact: h7_gt0.
Qed.
(* (t - 4)^2 + h t^2 is least at t7 *)
Lemma t7_min (t : R) : (t7 - 4%:R) ^+ 2 + h7 * t7 ^+ 2 <= (t - 4%:R) ^+ 2 + h7 * t ^+ 2.
Proof.
have p : 1 + h7 != 0 by apply: lt0r_neq0; rewrite addr_gt0 ?h7_gt0 ?ltr01.
have e : (1 + h7) * t7 = 4%:R by rewrite /t7 mulrC divfK.
rewrite -subr_ge0.
have -> : (t - 4%:R) ^+ 2 + h7 * t ^+ 2 - ((t7 - 4%:R) ^+ 2 + h7 * t7 ^+ 2) =
   (1 + h7) * (t - t7) ^+ 2 + 2%:R * (t - t7) * ((1 + h7) * t7 - 4%:R) by ring.
rewrite e subrr mulr0 addr0 mulr_ge0 ?sqr_ge0 // addr_ge0 ?ler01 ?(ltW h7_gt0) //.
Qed.

(* the solver: 0 at level 1, t7 at level 2 *)
Definition osqp7 : nat -> bool -> oqp R -> nat -> R := fun l _ _ k => if (l == 2%N) && (k == 0%N) then t7 else 0.

Section One.
Variable lim : R.
Local Notation rb := (rb7 lim).

Lemma spd7 : inertia_spd (dataLQP rb).
Proof.
split=> [i j li lj|x [i [li ni]]]; first by rewrite /= eq_sym.
have qE : quad (dataLQP rb) x = \sum_(0 <= i < 7) x i ^+ 2.
  rewrite /quad /=; apply: sum_nat_eq => a la; rewrite (@sum_window _ a 1) ?addn1 // ?big_nat1.
    by rewrite addn0 eqxx mulr1 expr2.
  by move=> b lb; rewrite ltnS -eqn_leq => /negbTE ->; rewrite mulr0 mul0r.
rewrite qE sum_ord (bigD1 (Ordinal (li : (i < 7)%N))) //= ltr_paddr //.
  by apply: sumr_ge0 => *; apply: sqr_ge0.
by rewrite lt_def sqr_ge0 sqrf_eq0 andbT; apply/eqP.
Qed.

Lemma quad7 t : quad (dataLQP rb) (fun j => t * (j == 6%N)%:R) = t ^+ 2.
Proof.
rewrite /quad /= (@sum_window _ 6 1) // ?big_nat1; last first.
  move=> i li; rewrite ltnS -eqn_leq eq_sym => /negbTE n6; apply: sum_nat0 => j _; by rewrite n6 mulr0 !mul0r.
rewrite (@sum_window _ 6 1) // ?big_nat1; last first.
  by move=> i li; rewrite ltnS -eqn_leq eq_sym => /negbTE n6; rewrite n6 !mulr0.
by rewrite addn0 eqxx !mulr1 expr2.
Qed.

(* the entries of OSQP's matrices are 0, 1, -1 or at least 1 *)
Definition plain (x : R) : Prop := x = 0 \/ 1 <= `|x|.
Lemma plain_nd (M : dm) : (forall i j, (i < nr M)%N -> (j < nc M)%N -> plain (ent M i j)) -> nothing_dropped M.
Proof. by move=> h i j li lj s; case: (h i j li lj) => // /ge1_kept; rewrite s. Qed.

Lemma plain_content (d : level) above p l q : qp_content 7 d above p l q -> l_ns p = 1%N ->
  (forall i, (i < 7)%N -> ent (l_Z p) i 0 = (i == 6%N)%:R) ->
  (l_nin l = 0%N \/ two_rows l) -> (forall j, (j < size above)%N -> two_rows (nth d above j)) ->
  nothing_dropped (o_A q).
Proof.
move=> ct ns ZE tl ta.
have AZ (l' : level) (r : 'I_(l_nin l')) (c : 'I_(l_ns p)) : two_rows l' -> plain ((Am 7 l' *m mx_of 7 (l_ns p) (l_Z p)) r c).
  case=> ni [rA cA] hA; have c0 : (c : nat) = 0%N by have := ltn_ord c; rewrite [X in (_ < X)%N]ns ltnS leqn0 => /eqP.
  rewrite !mxE (bigD1 (inord 6)) //= big1; last first.
    move=> k nk; rewrite !mxE c0 ZE //; case: eqP => e6; last by rewrite mulr0.
    by case/eqP: nk; apply: val_inj; rewrite /= inordK.
  rewrite !mxE c0 ZE inordK // eqxx mulr1 addr0; right.
  have := ltn_ord r; rewrite [X in (_ < X)%N]ni; have [h0 h1] := hA 6%N isT.
  by case: (r : nat) => [|[|]] // _; rewrite ?h0 ?h1 eqxx ?normrN normr1.
apply: plain_nd => a b; have [rA cA] := qc_A ct; rewrite rA cA ns => la lb.
case: (ltnP a (l_nin l)) => lal.
  have [o1 o2 _] := qc_own ct (Ordinal lal); case: (ltnP b (l_ns p)) => lbp.
    have := o1 (Ordinal lbp); rewrite /= => ->; apply: AZ.
    by case: tl => // ni; exfalso; move: (lal); rewrite [X in (_ < X)%N]ni.
  have lb' : (b - l_ns p < l_nin l)%N by rewrite ns; lia.
  have := o2 (Ordinal lb'); rewrite /= subnKC // => ->; case: eqP => _.
    by right; rewrite normrN normr1.
  by left; rewrite oppr0.
have lab : (a - l_nin l < rows_of above)%N by lia.
have [j lj [r e]] := row_of_level d lab; have [i1 i2 _] := qc_inh ct lj r.
have eA : (l_nin l + rows_of (take j above) + r)%N = a by rewrite -addnA -e subnKC.
rewrite eA in i1 i2; case: (ltnP b (l_ns p)) => lbp.
  have := i1 (Ordinal lbp); rewrite /= => ->; apply: AZ; exact: ta.
have lb' : (b - l_ns p < l_nin l)%N by rewrite ns; lia.
by have := i2 (Ordinal lb'); rewrite /= subnKC // => ->; left.
Qed.

Lemma mulZ k (Z : dm) (x : nat -> R) (j : 'I_7) : (mx_of 7 k Z *m col_of k x) j 0 = \sum_(0 <= c < k) ent Z j c * x c.
Proof. by rewrite mxE sum_ord; apply: eq_bigr => c _; rewrite !mxE. Qed.

Lemma yvE (l : level) (j : 'I_7) : yv 7 l j 0 = answer l j. Proof. by rewrite mxE. Qed.

Lemma quad_ext x y : (forall j, (j < 7)%N -> x j = y j) -> quad (dataLQP rb) x = quad (dataLQP rb) y.
Proof. by move=> h; apply: sum_nat_eq => i li; apply: sum_nat_eq => j lj; rewrite !h. Qed.

(* the block of OSQP's quadratic cost *)
Lemma plain_H (d : level) above p l q : qp_content 7 d above p l q -> l_ns p = 1%N ->
  (forall i, (i < 7)%N -> ent (l_Z p) i 0 = (i == 6%N)%:R) -> l_cost l -> ent (l_H l) 6 6 = h7 ->
  nothing_dropped (o_H q).
Proof.
move=> ct ns ZE cost HE; apply: plain_nd => a b; have [rH cH] := qc_H ct; rewrite rH cH => la lb.
have := qc_Hm ct => /matrixP/(_ (Ordinal la) (Ordinal lb)); rewrite mxE [X in ent _ X]/= [X in ent _ _ X]/= => ->.
case: (split_ordP (Ordinal la)) => a' ->; case: (split_ordP (Ordinal lb)) => b' ->;
  rewrite ?block_mxEul ?block_mxEur ?block_mxEdl ?block_mxEdr ?mxE; try by left.
  have z (c : 'I_(l_ns p)) : (c : nat) = 0%N by have := ltn_ord c; rewrite [X in (_ < X)%N]ns ltnS leqn0 => /eqP.
  have ab : b' = a' by apply: val_inj; rewrite /= !z.
  rewrite cost ab.
  have E : ((mx_of 7 (l_ns p) (l_Z p))^T *m Hm 7 l *m mx_of 7 (l_ns p) (l_Z p)) a' a' = h7.
    rewrite mxE (bigD1 (inord 6)) //= big1 ?addr0; last first.
      move=> k nk; rewrite [mx_of _ _ _ _ _]mxE z ZE //; case: eqP => e6; last by rewrite mulr0.
      by case/eqP: nk; apply: val_inj; rewrite /= inordK.
    rewrite [mx_of _ _ _ _ _]mxE z ZE ?inordK // eqxx mulr1 mxE (bigD1 (inord 6)) //= big1 ?addr0; last first.
      move=> k nk; rewrite [X in X * _]mxE [X in X * _]mxE z ZE //; case: eqP => e6; last by rewrite mul0r.
      by case/eqP: nk; apply: val_inj; rewrite /= inordK.
    by rewrite [X in X * _]mxE [X in X * _]mxE z ZE ?inordK // eqxx mul1r mxE inordK.
  have g : h7 <= (\sum_j (Bm 7 l *m mx_of 7 (l_ns p) (l_Z p))^T a' j * (Bm 7 l *m mx_of 7 (l_ns p) (l_Z p)) j a') + h7.
    rewrite ler_addr; apply: sumr_ge0 => j _; rewrite [X in X * _]mxE -expr2; exact: sqr_ge0.
  have g1 : 1 <= h7 by apply: ltW; apply: h7_gt1.
  right; rewrite E ger0_norm; first exact: le_trans g.
  by apply: le_trans g; apply: le_trans g1; apply: ler01.
by case: eqP => _; [right; rewrite normr1|left].
Qed.

(* the whole run *)
Lemma run7 : exists hs hs', [/\ ConfigureLQP (@f7 R) rb [::] = Some hs,
  call osqp7 hs true hs' /\ (forall i, (0 < i < size hs')%N -> oqp_feasible (osqp_problem (nth d0 hs' i)) (ans_of (nth d0 hs' i))),
  exactly_solved hs' 1, exactly_solved hs' 2 &
  [/\ forall j, (j < 7)%N -> answer (nth d0 hs' 1) j = 0, forall j, (j < 7)%N -> answer (nth d0 hs' 2) j = t7 * (j == 6%N)%:R & size hs' = 3%N]].
Proof.
have rok := rb7_ok lim; have fok := @f7_ok R.
have [l0 [l1 [l2 [e t0 t1 [ns0 z0] [ns1 z1 [[rB2 cB2] b2]]]]]] := conf7 lim.
set hs := [:: l0; l1; l2] in e.
have [[hs' e'] _] := C98_defined osqp7 fok rok e.
have ca : call osqp7 hs true hs' by exists hs; split=> //; left.
have [hs1 [C [H [cf ms cone [e1 st sh1 pr1 sz1] [sz sh sd [[y0 v1 v0] sd1] res]]]]] := call_facts fok rok e ca.
have [sh0 pr0] : (forall i, (i < size hs)%N -> shaped 7 (nth d0 hs i)) /\ prepared 7 d0 hs.
  by split; [apply: (cf_shaped cf)|apply: (cf_prepared cf)].
have c1 := content sh0 pr0 (or_introl isT) e' (isT : (0 < 1 < size hs)%N).
have c2 := content sh0 pr0 (or_introl isT) e' (isT : (0 < 2 < size hs)%N).
have rn := is_run d0 e' (isT : (0 < size hs)%N).
have K i (li : (i < 3)%N) : kept (nth d0 hs i) (nth d0 hs' i) by have [] := run_level sh0 (Zs pr0) rn (li : (i < size hs)%N).
have [_ [ey0 [ev0 _]]] := run_kept0 rn.
have [sd0' [Z0 n0]] := K 0%N isT; have [sd1' [Z1 n1]] := K 1%N isT; have [sd2' [Z2 n2]] := K 2%N isT.
rewrite /= in Z0 n0 Z1 n1 Z2 n2 ey0 ev0; rewrite ns0 in n0; rewrite ns1 in n1.
have A1 k : ans_of (nth d0 hs' 1) k = 0.
  by have [_ _ _ h _ _ _] := from sh0 pr0 e' (isT : (0 < 1 < size hs)%N); rewrite /ans_of h /= /HQP_Proofs.answer (size_above d0 e').
have A2 k : ans_of (nth d0 hs' 2) k = if k == 0%N then t7 else 0.
  by have [_ _ _ h _ _ _] := from sh0 pr0 e' (isT : (0 < 2 < size hs)%N); rewrite /ans_of h /= /HQP_Proofs.answer (size_above d0 e').
have Y0 j : (j < 7)%N -> answer (nth d0 hs' 0) j = 0.
  move=> lj; have := cf_y0 cf lj; rewrite /answer ey0 /= => ->; case: ifP => // _.
  by rewrite /rowdot sum_nat0 ?oppr0 // => *; rewrite mulr0.
have Y1 j : (j < 7)%N -> answer (nth d0 hs' 1) j = 0.
  move=> lj; have := y_ans sh0 pr0 e' (isT : (0 < 1 < size hs)%N) => /matrixP/(_ (Ordinal lj) 0).
  rewrite [(_ + _ : 'cV_7) _ 0]mxE mulZ !yvE /= => h.
  rewrite h Y0 // add0r sum_nat0 // => c _; by rewrite A1 mulr0.
have Y2 j : (j < 7)%N -> answer (nth d0 hs' 2) j = t7 * (j == 6%N)%:R.
  move=> lj; have := y_ans sh0 pr0 e' (isT : (0 < 2 < size hs)%N) => /matrixP/(_ (Ordinal lj) 0).
  rewrite [(_ + _ : 'cV_7) _ 0]mxE mulZ !yvE /= => h.
  by rewrite h Y1 // add0r n1 big_nat1 A2 /= Z1 z1 // mulrC.
have tw l l' : same_data l l' -> two_rows l -> two_rows l'.
  by case=> [en _ eA _ _]; rewrite /two_rows en eA.
have szt : size hs' = 3%N by rewrite sz.
have ndA1 : nothing_dropped (l_qA (nth d0 hs' 1)).
  apply: (plain_content c1) => //; [by move=> j lj; rewrite Z0 z0|by right; apply: tw sd1' _|].
  rewrite (size_above d0 e') //; case=> // _.
  by have [_ ->] := nth_above d0 e' (isT : (0 < 1 < size hs)%N) (isT : (0 < 1)%N); apply: tw sd0' _.
have ndA2 : nothing_dropped (l_qA (nth d0 hs' 2)).
  have [ni2 _ _ _ _] := cf_task cf (erefl : nth None [seq Some p | p <- [seq (t, k_J t) | t <- q_ts rb]] 0 = Some (task7 R, J7 R)).
  apply: (plain_content c2) => //; [by move=> j lj; rewrite Z1 z1|by left; have [-> _ _ _ _] := sd2'|].
  rewrite (size_above d0 e') // => j lj; have [_ ->] := nth_above d0 e' (isT : (0 < 2 < size hs)%N) lj.
  by case: j lj => [|[|]] // _; [apply: tw sd0' _|apply: tw sd1' _].
have H66 : ent H 6 6 = h7.
  rewrite ms frob7 /=.
  by rewrite [X in X = _]mulrC mul1r.
have [cost1 H1] : l_cost (nth d0 hs' 1) /\ l_H (nth d0 hs' 1) = H.
  by have [_ _ _ _ [_ _ -> -> _]] := sd1'; apply: cf_cost1 cf.
have [ni2 ne2 mq2 cost2 H2] := cf_task cf (erefl : nth None [seq Some p | p <- [seq (t, k_J t) | t <- q_ts rb]] 0 = Some (task7 R, J7 R)).
have [cost2' H2'] : l_cost (nth d0 hs' 2) /\ l_H (nth d0 hs' 2) = H.
  by have [_ _ _ _ [_ _ -> -> _]] := sd2'.
have ndH1 : nothing_dropped (l_qH (nth d0 hs' 1)).
  by apply: (plain_H c1) => //; [move=> j lj; rewrite Z0 z0|rewrite H1].
have ndH2 : nothing_dropped (l_qH (nth d0 hs' 2)).
  by apply: (plain_H c2) => //; [move=> j lj; rewrite Z1 z1|rewrite H2'].
have symH := cost_sym (erefl : q_nv rb = (6 + 1)%N) ms spd7.
have vv0 : vv (nth d0 hs' 0) = 0.
  by apply/matrixP => a b; rewrite !mxE ord1 v0 (cf_v0 cf).
have vv1 : vv (nth d0 hs' 1) = 0.
  by rewrite (v_ans sh0 pr0 e') //; apply/matrixP => a b; rewrite !mxE A1.
have mi0 := mi_same sd0' (cf_in0 cf); have mi1 := mi_same sd1' (cf_in1 cf).
have mq0 := mq_same sd0' (cf_eq0 cf); have mq1 := mq_same sd1' (cf_eq1 cf).
have S0 := sh 0%N isT; have S1 := sh 1%N isT; have S2 := sh 2%N isT.
have tq x r : torque (dataLQP rb) x r = genforce (dataLQP rb) x (6 + r) by [].
have ans1 : oqp_optimal (osqp_problem (nth d0 hs' 1)) (ans_of (nth d0 hs' 1)).
  apply: (optimal_conv sh0 pr0 (or_introl isT) e') => //.
  - by move=> _; rewrite /Hm H1; exact: symH.
  - rewrite vv1; apply/(means_ineqP _ S1 mi1); split.
      by apply/(cone (answer (nth d0 hs' 1))) => ? ?.
    by case=> // _; rewrite Y1 // normr0 ler0n.
  - case=> // _; rewrite vv0; apply/(means_ineqP _ S0 mi0); case=> // _.
    by rewrite tq gen7 // Y1 // normr0 ler0n.
  - move=> y v _ _ _; rewrite /level_objective cost1 vv1 sqnorm0 addr0.
    have -> : Bm 7 (nth d0 hs' 1) *m yv 7 (nth d0 hs' 1) + bv (nth d0 hs' 1) = 0.
      by apply/(means_eqP _ S1 mq1) => r; rewrite ltn0.
    rewrite sqnorm0 add0r /Hm H1.
    rewrite (cost_quad (erefl : q_nv rb = (6 + 1)%N) ms (x := answer (nth d0 hs' 1))); last by move=> k _; rewrite yvE.
    rewrite quad0 ?mulr0; last by move=> k lk; rewrite Y1.
    rewrite (cost_quad (erefl : q_nv rb = (6 + 1)%N) ms (x := fun i => ent (of_mx y) i 0)); last by move=> k _; rewrite ent0.
    by rewrite !addr_ge0 ?sqnorm_ge0 // mulr_ge0 ?quad_ge0 ?divr_ge0 ?ler0n ?sqrtr_ge0 //; apply: spd7.
have vv0' : forall k, (k < 2)%N -> vv (nth d0 hs' k) = 0 by case=> [|[|]].
have mq2' := mq_same sd2' mq2.
have neE : l_neq (nth d0 hs' 2) = 1%N by have [_ -> _ _ _] := sd2'.
have b2E : ent (l_b (nth d0 hs' 2)) 0 0 = - 4%:R.
  have := proj2 (mq2' (fun j => 4%:R * (j == 6%N)%:R)); rewrite neE => /(_ _ 0%N isT) h.
  have {}h : rowdot (l_B (nth d0 hs' 2)) 0 (fun j => 4%:R * (j == 6%N)%:R) + ent (l_b (nth d0 hs' 2)) 0 0 = 0.
    apply: h => -[] // _; rewrite /accel /= (@sum_window _ 6 1) // ?big_nat1 ?addn0 ?eqxx ?mul1r ?mulr1 //.
    by move=> j lj; rewrite ltnS -eqn_leq eq_sym => /negbTE ->; rewrite mul0r.
  apply/eqP; rewrite -addr_eq0 addrC -h; apply/eqP; congr (_ + _).
  have [_ _ _ _ [-> _ _ _ _]] := sd2'; rewrite /rowdot /= cB2 (@sum_window _ 6 1) // ?big_nat1 ?b2 ?addn0 ?eqxx ?mul1r ?mulr1 //.
  by move=> j lj; rewrite ltnS -eqn_leq eq_sym => /negbTE n6; rewrite n6 !mulr0.
(* the objective at t on the joint *)
have obj (l : level) t v : (forall j, (j < 7)%N -> answer l j = t * (j == 6%N)%:R) ->
    level_objective (nth d0 hs' 2) (yv 7 l) v = (t - 4%:R) ^+ 2 + h7 * t ^+ 2.
  move=> hx; rewrite /level_objective cost2' /Hm H2'.
  rewrite (cost_quad (erefl : q_nv rb = (6 + 1)%N) ms (x := answer l)); last by move=> k _; rewrite yvE.
  rewrite (quad_ext hx) quad7 frob7; congr (_ + _).
  have -> : sqnorm v = 0.
    rewrite /sqnorm big1 // => -[k lk]; exfalso; move: (lk); have [-> _ _ _ _] := sd2'; by rewrite ni2.
  rewrite addr0 /sqnorm.
  have -> : \sum_i (Bm 7 (nth d0 hs' 2) *m yv 7 l + bv (nth d0 hs' 2)) i 0 ^+ 2 =
     \sum_(0 <= i < l_neq (nth d0 hs' 2)) (rowdot (l_B (nth d0 hs' 2)) i (answer l) + ent (l_b (nth d0 hs' 2)) i 0) ^+ 2.
    by rewrite sum_ord; apply: eq_bigr => i _; rewrite (eq_row l i S2).
  rewrite neE big_nat1 b2E; congr ((_ - _) ^+ 2).
  have [_ _ _ _ [-> _ _ _ _]] := sd2'; rewrite /rowdot /= cB2 (@sum_window _ 6 1) // ?big_nat1 ?b2 ?addn0 ?eqxx ?mul1r.
    by rewrite hx // eqxx mulr1.
  by move=> j lj; rewrite ltnS -eqn_leq eq_sym => /negbTE n6; rewrite b2 n6 mul0r.
have [t1' t4] := t7_bounds.
have tp : 0 < t7 by apply: lt_trans ltr01 _.
have ans2 : oqp_optimal (osqp_problem (nth d0 hs' 2)) (ans_of (nth d0 hs' 2)).
  apply: (optimal_conv sh0 pr0 (or_introl isT) e') => //.
  - by move=> _; rewrite /Hm H2'; exact: symH.
  - by case=> k lk; exfalso; move: (lk); have [-> _ _ _ _] := sd2'; rewrite ni2.
  - case=> [|[|]] // _; rewrite vv0' //.
      apply/(means_ineqP _ S0 mi0); case=> // _.
      rewrite tq gen7 // Y2 // eqxx mulr1 gtr0_norm //; apply: ltW; apply: lt_trans t4 _; by rewrite ltr_nat.
    apply/(means_ineqP _ S1 mi1); split; first by apply/(cone (answer (nth d0 hs' 2))) => ? ?.
    by case=> // _; rewrite Y2 // eqxx mulr1 gtr0_norm //; apply: ltW; apply: lt_trans t4 _; rewrite ltr_nat.
  move=> y v hy _ _; rewrite (obj _ _ _ Y2).
  pose l' := setAns d0 (of_mx y) (l_v d0) (l_w d0) (l_ans d0).
  have yl : yv 7 l' = y by rewrite /yv mx_of_mx.
  have bd : base_dynamics (dataLQP rb) (answer l').
    apply/(means_eqP l' S0 mq0); rewrite yl hy //; apply/(means_eqP _ S0 mq0) => r r6.
    by rewrite gen7 ?Y1 // (leq_trans r6).
  rewrite -yl (obj l' (answer l' 6)); first exact: t7_min.
  move=> j lj; case: (eqVneq j 6%N) => [->|n6]; first by rewrite mulr1.
  have j6 : (j < 6)%N by move: lj; rewrite ltnS leq_eqVlt (negbTE n6).
  by have := bd j j6; rewrite gen7 // mulr0.
exists hs, hs'; split=> //.
by split=> // i; rewrite szt; case: i => [|[|[|i]]] // _; [case: ans1|case: ans2].
Qed.
End One.
End Run.
