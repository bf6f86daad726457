(* Configuring again, and a concrete robot: six non-contact joints with unit inertia that move the
   six coordinates of their group directly. *)
From mathcomp Require Import all_ssreflect all_algebra.
From mathcomp Require Import zify.
From mathcomp.algebra_tactics Require Import ring.
From Verif Require Import LinAlg DMat DMatL Geo_Model Geo_Spec Geo_Proofs Cone_Model Cone_Spec QP_Model QP_Spec HQP_Model HQP_Spec HQP_Proofs HQP_Thm HQP_Ex HQP_Props HQP_First LQP_Model LQP_Spec LQP_Proofs LQP_Thm LQP_Ex LQP_Props LQP_Props2 Jacc_Model Jacc_Spec Jacc_Proofs Jacc_NC LNC_Model LNC_Spec LNC_Proofs LNC_Thm LNC_Props.
Set Implicit Arguments.
Unset Strict Implicit.
Unset Printing Implicit Defensive.
Import Order.TTheory GRing.Theory Num.Theory.
Local Open Scope ring_scope.

Section Again.
Variable R : rcfType.
Local Notation dm := (dm R).
Local Notation level := (level R).
Local Notation d0 := (initLevel R 0 0 0).

Lemma upd_both n (l : level) (A a B b H : dm) : shaped n l -> dims A (l_nin l) n -> dims a (l_nin l) 1 -> dims B (l_neq l) n -> dims b (l_neq l) 1 ->
  dims H n n ->
  exists l1, [/\ (l1 <- updateConstraintMatrix (lvars l) l A a B b ;; updateCostMatrix (lvars l) l1 H (dzero R n 1)) = Some l1, shaped n l1 &
    l_nin l1 = l_nin l /\ l_neq l1 = l_neq l].
Proof.
move=> sh dA da dB db [rH cH]; have [l1 [-> s1 nn _]] := upd_again sh dA da dB db.
have [[_ cn] _ _ _ _] := sh; rewrite /updateCostMatrix /sized /lvars cn rH cH !eqxx /=.
by eexists; split=> //; case: s1 => ? ? ? _ ?; split.
Qed.

(* C127: configuring a configured hierarchy again is defined *)
Theorem C127_again_defined (f : dm -> dm) (rb : nrobot R) q t xl x0 r hs : null_space_ok f -> nc_sized rb q -> second_task rb t xl x0 ->
  nc_conf rb q t r hs -> exists hs2, ConfigureLQP_R_NC f rb q hs = Some hs2.
Proof.
move=> fok sz st cf; have [[p dA] [rG cG] [rI cI] [pq dq] [i [j [li lj ne]]]] := sz.
have np : (0 < n_nc rb)%N by apply: leq_ltn_trans li.
have Np := norm_pos li lj ne.
have [g6 [b6 [eg eb [rg cg] db [gE _]]]] := seg6 dq.
rewrite /ConfigureLQP_R_NC eg eb (corner_ok dA) /scaled norm_corner (gt_eqF Np) /=.
set H := DM (n_nc rb) (n_nc rb) _; set n := n_nc rb in np dA rG cG rI cI H *.
have dH : dims H n n by [].
have sz2 := nf_size cf.
have sh k : (k < size hs)%N -> shaped n (nth d0 hs k) by rewrite sz2; apply: (nf_shaped cf).
have lt k : (k < 2)%N -> (k < size hs)%N by rewrite sz2.
(* level 0 *)
rewrite /nc_level0 /segw -/n blockwE //= ?rg ?cg //= blockwE //= ?rg ?cg //.
rewrite (corner_ok dA) -/n /dsub /dadd /= rG cG !eqxx /=.
set M := DM n n (nc_inertia rb); set u := DM n 1 (fun i j => _ + _); set w := DM n 1 (fun i j => _ - _).
have [A [a [-> dA2 da2 hA]]] := @two_blocks_ok R n (dzero R (2 * n) n) (dzero R (2 * n) 1) M u w
  (conj erefl erefl) (conj erefl erefl) (conj erefl erefl) (conj erefl erefl) (conj erefl erefl).
set B := DM 6 n _; set b := DM 6 1 _.
have [n0 m0] := nf_n cf (isT : (0 < 2)%N); have [n1 m1] := nf_n cf (isT : (1 < 2)%N).
have [dA' da'] : dims A (l_nin (nth d0 hs 0)) n /\ dims a (l_nin (nth d0 hs 0)) 1 by rewrite n0.
have [dB' db'] : dims B (l_neq (nth d0 hs 0)) n /\ dims b (l_neq (nth d0 hs 0)) 1 by rewrite m0.
have [u1 [e1 s1 [k1 k2]]] := upd_both (sh _ (lt 0%N isT)) dA' da' dB' db' dH.
have [h1 [eh1 sz1 sh1 nn1]] := updAt_shaped (g := fun l => l1 <- updateConstraintMatrix (lvars l) l A a B b ;; updateCostMatrix (lvars l) l1 H (dzero R n 1)) (2 * n) 6 sh (lt 0%N isT) e1 s1 k1 k2.
rewrite eh1 /=.
(* level 1 *)
have [[t0 [ts ets]] [id [ids [eids exl]]] ex0 df [pJ [rJ cJ]]] := st.
have [dd [ed ddd _]] := dsub_mx df db.
have [fl [ef [rf cfl] _]] := dmul_mx (dims_of (jJa (xl - x0))) ddd.
have ea1 : at_ (n_ts rb) 1 = Some t by rewrite ets.
have er : nc_reference rb t b6 = Some fl by rewrite /nc_reference eids /= exl ex0 ed.
rewrite /nc_level1 ea1 er /= /rightCols -/n cJ leq_addl /dblock rJ cJ leqnn subnK ?leq_addl // leqnn /=.
rewrite /segw blockwE //= blockwE //=.
have [A2 [a2 [-> dA3 da3 _]]] := @two_blocks_ok R n A a (dident R n) (DM n 1 (fun _ _ => - 5%:R)) (DM n 1 (fun _ _ => - 5%:R))
  dA2 da2 (conj erefl erefl) (conj erefl erefl) (conj erefl erefl).
set B2 := DM 6 n _; set b2 := DM 6 1 _.
have lt1 : (1 < size h1)%N by rewrite sz1 sz2.
have [n1' m1'] := nn1 1%N (lt 1%N isT); rewrite n1 in n1'; rewrite m1 in m1'.
have [dA2' da2'] : dims A2 (l_nin (nth d0 h1 1)) n /\ dims a2 (l_nin (nth d0 h1 1)) 1 by rewrite n1'.
have [dB2' db2'] : dims B2 (l_neq (nth d0 h1 1)) n /\ dims b2 (l_neq (nth d0 h1 1)) 1 by rewrite m1'.
have [u2 [e2 s2 [k3 k4]]] := upd_both (sh1 _ lt1) dA2' da2' dB2' db2' dH.
have [h2 [eh2 szh2 sh2 _]] := updAt_shaped (g := fun l => l1 <- updateConstraintMatrix (lvars l) l A2 a2 B2 b2 ;; updateCostMatrix (lvars l) l1 H (dzero R n 1)) (2 * n) 6 sh1 lt1 e2 s2 k3 k4.
rewrite eh2 /=.
have ne2 : h2 <> [::] by move=> h; move: szh2; rewrite h.
by have [hs2 [P _ _ _]] := C29_null_space_bases fok ne2 sh2; exists hs2.
Qed.
End Again.

Section Instance.
Variable R : rcfType.
Local Notation dm := (dm R).
Local Notation level := (level R).
Local Notation d0 := (initLevel R 0 0 0).
Local Notation answer := LQP_Spec.answer.

(* the link of the task is 1 above the base link; desired: turn about x with acceleration 1 *)
Definition up : 'cV[R]_3 := \col_i (i == 2%:R)%:R.
Definition turn6 : dm := DM 6 1 (fun i _ => (i == 3%N)%:R).
Definition task6 (J : dm) (f : dm) : ntask R := NTK [:: 1%N] J f.
Definition rb6 (ts : seq (ntask R)) (lim : R) : nrobot R :=
  NRB 6 (dident R 6) (dzero R 6 1) (dident R 6) [:: 0; up] ts (DM 6 1 (fun _ _ => lim)).
Definition hand : ntask R := task6 (dident R 6) turn6.
(* the reduced model: base at rest, first coordinate of the group a *)
Definition q12 (a : R) : dm := DM 12 1 (fun i _ => if i == 6%N then a else 0).

Lemma eye6 (x : nat -> R) k : (k < 6)%N -> \sum_(0 <= j < 6) (k == j)%:R * x j = x k.
Proof.
move=> lk; rewrite (@sum_window _ k 1) ?addn1 // ?big_nat1.
  by rewrite addn0 eqxx mul1r.
by move=> j lj; rewrite ltnS -eqn_leq => /negbTE ->; rewrite mul0r.
Qed.
Lemma rate6 ts lim x k : (k < 6)%N -> nc_rate (rb6 ts lim) x k = x k.
Proof. exact: eye6. Qed.
Lemma torque6 ts lim x k : (k < 6)%N -> nc_torque (rb6 ts lim) x k = x k.
Proof.
move=> lk; rewrite /nc_torque /nc_inertia /= addr0 -[RHS](eye6 x lk); apply: sum_nat_eq => j lj.
by rewrite /= !subnn !add0n.
Qed.
Lemma energy6 ts lim x : nc_energy (rb6 ts lim) x = \sum_(0 <= i < 6) x i ^+ 2.
Proof.
rewrite /nc_energy; apply: sum_nat_eq => i li /=.
transitivity (\sum_(0 <= j < 6) x i * ((i == j)%:R * x j)); last by rewrite -mulr_sumr eye6 // expr2.
by apply: sum_nat_eq => j lj; rewrite /nc_inertia /= !subnn !add0n mulrA.
Qed.
Lemma sized6 ts lim a : nc_sized (rb6 ts lim) (q12 a).
Proof.
split=> //; [by exists 0%N|by exists 6%N|exists 0%N, 0%N; split=> //].
by rewrite /nc_inertia /=; apply/eqP; rewrite oner_eq0.
Qed.
Lemma second6 t0 ts lim f J : dims f 6 1 -> dims J 6 6 -> second_task (rb6 (t0 :: task6 J f :: ts) lim) (task6 J f) up 0.
Proof. by move=> df dJ; split=> //; [exists t0, ts|exists 1%N, [::]|exists 0%N]. Qed.
Lemma spd6 ts lim : nc_spd (rb6 ts lim).
Proof.
split=> [i j li lj|x [i [li ne]]].
  by rewrite /nc_inertia /= !subnn !add0n eq_sym.
rewrite energy6 sum_ord (bigD1 (Ordinal li)) //= ltr_spaddl //; last by apply: sumr_ge0 => *; apply: sqr_ge0.
by rewrite exprn_even_gt0 //=; apply/eqP.
Qed.
Lemma holds6 ts lim : nc_holds (rb6 ts lim).
Proof. by move=> k lk; rewrite /= normr0 ler0n. Qed.
Lemma norm6 ts lim : nc_norm (rb6 ts lim) = Num.sqrt 6%:R.
Proof.
rewrite /nc_norm; congr (Num.sqrt _); transitivity (\sum_(0 <= i < 6) (1 : R)); last first.
  by rewrite big_const_nat /= addr0; ring.
apply: sum_nat_eq => i li.
rewrite -[RHS](eye6 (fun=> 1) li); apply: sum_nat_eq => j lj.
by rewrite /nc_inertia /= !subnn !add0n mulr1 expr2 -natrM mulnb andbb.
Qed.
Definition h6 : R := 5%:R / Num.sqrt 6%:R.
Lemma h6_pos : 0 < h6.
Proof. by rewrite divr_gt0 ?sqrtr_gt0 ?ltr0n. Qed.
Lemma norm6_pos ts lim : 0 < nc_norm (rb6 ts lim).
Proof. by rewrite norm6 sqrtr_gt0 ltr0n. Qed.
Lemma wanted6 a k : (k < 6)%N -> rate_wanted (q12 a) k = if k == 0%N then a else 0.
Proof. by rewrite /rate_wanted /=; case: k => [|k] //. Qed.

(* the objective of level 0 *)
Lemma objective6 ts lim a x v : nc_objective (rb6 ts lim) (q12 a) x v =
  \sum_(0 <= k < 6) ((x k - (if k == 0%N then a else 0)) ^+ 2 + h6 * x k ^+ 2) + \sum_(0 <= k < 12) v k ^+ 2.
Proof.
rewrite /nc_objective energy6 norm6 -/h6 mulr_sumr addrAC -big_split /=; congr (_ + _).
by apply: sum_nat_eq => k lk; rewrite rate6 // wanted6.
Qed.

(* wanted: a = 400 + 300 h.  The best compromise: 300 instead, and an excess of 100 *)
Definition a6 : R := 400%:R + 300%:R * h6.
Definition x6 (k : nat) : R := if k == 0%N then 300%:R else 0.
Definition v6 (k : nat) : R := if k == 0%N then 100%:R else 0.
Lemma excess6 ts lim : nc_excess (rb6 ts lim) x6 v6.
Proof.
move=> k lk; rewrite torque6 // /x6 /v6; have -> : ((n_nc (rb6 ts lim) + k)%N == 0%N) = false by [].
case: eqP => _; rewrite -?natrD ?ler_nat ?addr0 ?oppr0 ?ler0n //; split=> //.
by rewrite (@le_trans _ _ 0) ?oppr_le0 ?ler0n.
Qed.
Lemma least6 ts lim y w : nc_excess (rb6 ts lim) y w -> nc_objective (rb6 ts lim) (q12 a6) x6 v6 <= nc_objective (rb6 ts lim) (q12 a6) y w.
Proof.
move=> ex; have [e0 _] := ex 0%N isT; rewrite torque6 // in e0.
rewrite !objective6 [X in _ <= X + _]big_nat_recl // [X in X + _ <= _]big_nat_recl // [X in _ <= _ + X]big_nat_recl // [X in _ + X <= _]big_nat_recl //.
rewrite /x6 /v6 /=; set s1 := \sum_(0 <= i < 5) _; set s2 := \sum_(0 <= i < 11) _.
have -> : s1 = 0 by rewrite /s1 sum_nat0 // => *; rewrite subrr expr0n mulr0 addr0.
have -> : s2 = 0 by rewrite /s2 sum_nat0 // => *; rewrite expr0n.
set t1 := \sum_(0 <= i < 5) _; set t2 := \sum_(0 <= i < 11) _.
have p1 : 0 <= t1 by apply: sumr_ge0 => *; rewrite addr_ge0 ?sqr_ge0 // mulr_ge0 ?sqr_ge0 // ltW // h6_pos.
have p2 : 0 <= t2 by apply: sumr_ge0 => *; rewrite sqr_ge0.
rewrite !addr0 -subr_ge0 /a6; move: (y 0%N) (w 0%N) e0 p1 p2 => z u e0 p1 p2.
have -> : (z - (400%:R + 300%:R * h6)) ^+ 2 + h6 * z ^+ 2 + t1 + (u ^+ 2 + t2) - ((300%:R - (400%:R + 300%:R * h6)) ^+ 2 + h6 * 300%:R ^+ 2 + 100%:R ^+ 2) =
  (1 + h6) * (z - 300%:R) ^+ 2 + (u - 100%:R) ^+ 2 + 200%:R * ((200%:R + u) - z) + t1 + t2 by ring.
by rewrite !addr_ge0 ?sqr_ge0 // mulr_ge0 ?sqr_ge0 ?ler0n ?subr_ge0 // addr_ge0 ?ler01 // ltW // h6_pos.
Qed.

(* a solver that gives a certain answer at level 0, and anything at level 1 *)
Definition osqpG (x v : nat -> R) (o1 : bool -> oqp R -> nat -> R) (i : nat) (init : bool) (p : oqp R) (k : nat) : R :=
  if i is 0%N then (if (k < 6)%N then x k else v (k - 6)%N) else o1 init p k.
Definition osqp6 := osqpG x6 v6.

Lemma small1 (e : R) : 1 <= `|e| -> (`|e| <= sparse_tol R) = false.
Proof. by move=> h; rewrite leNgt (lt_le_trans (tol_lt1 R) h). Qed.

Section Solve.
Variables (ts : seq (ntask R)) (lim a : R) (t : ntask R) (r : 'cV[R]_3) (l0 l1 : level).
Hypothesis cf : nc_conf (rb6 ts lim) (q12 a) t r [:: l0; l1].
Let sh : shaped 6 l0 := nf_shaped cf (isT : (0 < 2)%N).
Let nn : l_nin l0 = 12%N /\ l_neq l0 = 6%N := nf_n cf (isT : (0 < 2)%N).

Lemma entB k j : (k < 6)%N -> (j < 6)%N -> ent (l_B l0) k j = (k == j)%:R.
Proof.
move=> lk lj; have [[_ cB] _ _ _ _] := sh.
have h : forall x, rowdot (l_B l0) k x + ent (l_b l0) k 0 = nc_rate (rb6 ts lim) x k - rate_wanted (q12 a) k.
  by move=> x; apply: (nf_rows cf).
rewrite (row_entries h) ?cB //= !rate6 // opprB addrA subrK /dlt subr0; by [].
Qed.
Lemma entH i j : (i < 6)%N -> (j < 6)%N -> ent (l_H l0) i j = h6 * (i == j)%:R.
Proof.
move=> li lj; have [_ _ hh] := nf_cost cf (isT : (0 < 2)%N); rewrite hh // norm6 /nc_inertia /= !subnn !add0n /h6.
by rewrite mulrC mulrCA [RHS]mulrC.
Qed.
Lemma entA k j : (k < 6)%N -> (j < 6)%N -> ent (l_A l0) k j = (k == j)%:R /\ ent (l_A l0) (6 + k) j = - (k == j)%:R.
Proof.
move=> lk lj; have [n12 _] := nn; have [_ _ hA _ _] := sh; have [|[_ cA] _ _] := hA; first by rewrite n12.
have h1 : forall x, rowdot (l_A l0) k x + ent (l_a l0) k 0 = nc_torque (rb6 ts lim) x k - 200%:R.
  by move=> x; have [] := nf_ineqs cf x (lk : (k < n_nc (rb6 ts lim))%N).
have h2 : forall x, rowdot (l_A l0) (6 + k) x + ent (l_a l0) (6 + k)%N 0 = - nc_torque (rb6 ts lim) x k - 200%:R.
  by move=> x; have [] := nf_ineqs cf x (lk : (k < n_nc (rb6 ts lim))%N).
rewrite (row_entries h1) ?cA // (row_entries h2) ?cA // !torque6 // /dlt; split; ring.
Qed.

Lemma first_fields (osqp : nat -> bool -> oqp R -> nat -> R) (l' : level) init q : solvefirst osqp 6 [:: l0; l1] init = Some [:: l'; l1] ->
  firstQP 6 l0 = Some q -> l_qA l' = o_A q /\ l_qH l' = o_H q.
Proof.
move=> e eq; move: e; rewrite /solvefirst eq.
set w := vec _ _; by case: (seg w 0 6) => [y|] //; case: (tail w _) => [v|] // [<-].
Qed.

Lemma dropped6 (osqp : nat -> bool -> oqp R -> nat -> R) (l' : level) init : solvefirst osqp 6 [:: l0; l1] init = Some [:: l'; l1] ->
  nothing_dropped (l_qA l') /\ nothing_dropped (l_qH l').
Proof.
move=> e; have [q [VA [Va [WB [Wb [eq qc [mA ma] [mB mb]]]]]]] := firstQP_ok sh (weighted0 cf).
have [-> ->] := first_fields e eq; have [n12 n6] := nn.
have hB k j : ((k : 'I_(l_neq l0)) : nat) = k -> Bm 6 (setBb (setAa l0 VA Va) WB Wb) k j = ((k : nat) == j)%:R.
  move=> _; rewrite mB; have /= [_ eW] := nf_weights cf (isT : (0 < 2)%N).
  have -> : Wm l0 = 1%:M by rewrite /Wm eW -n6 mx_ident.
  rewrite mul1mx mxE entB //; have := ltn_ord k; by rewrite [X in (_ < X)%N]n6.
split=> i j.
  have [-> ->] := qc_A qc; rewrite /rows_of /= add0n => li lj.
  have [o1 o2 _] := qc_own qc (Ordinal li).
  case: (ltnP j 6) => j6.
    have -> := o1 (Ordinal j6); rewrite /= mx_ident mulmx1 mA.
    have eV : l_V l0 = dident R (l_nin l0) by have [-> _] := nf_weights cf (isT : (0 < 2)%N); rewrite n12.
    have -> : Vm l0 = 1%:M by rewrite /Vm eV mx_ident.
    rewrite mul1mx mxE /=; have li2 : (i < 12)%N by rewrite -n12.
    case: (ltnP i 6) => i6.
      have [-> _] := entA i6 j6; case: eqP => _ //; by rewrite small1 // normr1.
    have i6' : (i - 6 < 6)%N by lia.
    have [_] := entA i6' j6; rewrite subnKC // => ->; case: eqP => _; rewrite ?oppr0 // small1 // normrN normr1 //.
  have lj' : (j - 6 < l_nin l0)%N by rewrite n12 in lj *; lia.
  have := o2 (Ordinal lj'); rewrite /= subnKC // => ->; case: eqP => _; rewrite ?oppr0 // small1 // normrN normr1 //.
have [rH cH] := qc_H qc; rewrite rH cH => li lj.
have /matrixP/(_ (Ordinal li) (Ordinal lj)) := qc_Hm qc; rewrite mxE [X in ent _ X _]/= [X in ent _ _ X]/= => ->.
case: (split_ordP (Ordinal li)) => i' ei; case: (split_ordP (Ordinal lj)) => j' ej.
- rewrite ei ej block_mxEul /TT /= mx_ident mulmx1.
  have -> : l_cost l0 by have [] := nf_cost cf (isT : (0 < 2)%N).
  rewrite trmx1 mul1mx mulmx1 mxE [Hm _ _ _ _]mxE /= entH // mxE.
  have -> : \sum_k ((Bm 6 (setBb (setAa l0 VA Va) WB Wb))^T i' k * Bm 6 (setBb (setAa l0 VA Va) WB Wb) k j') = ((i' : nat) == j')%:R.
    rewrite (eq_bigr (fun k : 'I_(l_neq l0) => ((i' : nat) == k)%:R * ((k : nat) == j')%:R)); last first.
      by move=> k _; rewrite mxE !hB // eq_sym.
    rewrite -(@sum_ord _ _ (fun k => ((i' : nat) == k)%:R * (k == j')%:R)) n6.
    by rewrite eye6.
  have hp := h6_pos; have p1 : 0 <= 1 + h6 by rewrite addr_ge0 ?ler01 // ltW.
  case: eqP => _; rewrite ?mulr0 ?addr0 // mulr1 small1 // ger0_norm // ler_addl; exact: ltW.
- by rewrite ei ej block_mxEur mxE.
- by rewrite ei ej block_mxEdl mxE.
rewrite ei ej block_mxEdr mxE; case: eqP => _ //; by rewrite small1 // normr1.
Qed.
End Solve.

(* one call with this solver *)
Lemma solveG (x v : nat -> R) (o1 : bool -> oqp R -> nat -> R) ts lim a t r hs : nc_conf (rb6 ts lim) (q12 a) t r hs ->
  nc_excess (rb6 ts lim) x v ->
  (forall y w, nc_excess (rb6 ts lim) y w -> nc_objective (rb6 ts lim) (q12 a) x v <= nc_objective (rb6 ts lim) (q12 a) y w) ->
  exists hs', [/\ CalcControlTorqueLQP_R_NC (osqpG x v o1) 6 hs true = Some hs', exactly_solved hs' 0,
    (forall k, (k < 6)%N -> answer (nth d0 hs' 0) k = x k) /\ (forall k, (k < 12)%N -> slack (nth d0 hs' 0) k = v k) &
    forall k, (k < 6)%N -> final hs' k = x k].
Proof.
move=> cf fea lst; have [l0 [l1 [h [hE e _ [l0' ef [cf' _ e2 eh sz]] rt]]]] := call_ok (osqpG x v o1) cf (or_introl (isT : is_true true)).
subst hs; exists h.
have sh0 : shaped 6 l0 := nf_shaped cf (isT : (0 < 2)%N).
have we := weighted0 cf; have [ni ne] := nf_n cf (isT : (0 < 2)%N); rewrite /= in ni ne.
have [l2 [e3 _ an _ [ey ev _]]] := first_problem (osqpG x v o1) [:: l1] true sh0 we.
have {e3} E2 : l2 = l0' by move: e3; rewrite [n_nc _]/= in ef; rewrite ef => -[].
rewrite {}E2 in an ey ev.
have yE : yv 6 l0' = col_of 6 x.
  by rewrite ey; apply/matrixP => i j; rewrite !mxE an /= ltn_ord.
have vE : mx_of (l_nin l0) 1 (l_v l0') = col_of (l_nin l0) v.
  rewrite ev; apply/matrixP => i j; rewrite !mxE.
  by rewrite (an (6 + i)%N) /osqpG (ltnNge (6 + i)) leq_addr addKn.
have [ndA ndH] := dropped6 cf ef.
have opt : oqp_optimal (osqp_problem l0') (ans_of l0').
  apply: (first_optimal_conv sh0 we ef ndA ndH).
  - by move=> _; apply: (symH cf); apply: spd6.
  - rewrite yE vE (Vid cf); apply/(excess0 cf); exact: fea.
  move=> y w; rewrite (Vid cf) => h0.
  have yc : y = col_of 6 (fun k => if insub k is Some i then y i 0 else 0).
    by apply/matrixP => i j; rewrite mxE valK ord1.
  have vc : w = col_of (l_nin l0) (fun k => if insub k is Some i then w i 0 else 0).
    by apply/matrixP => i j; rewrite mxE valK ord1.
  rewrite yE vE !(wobj0 cf) yc vc !(obj0 cf); apply: lst; apply/(excess0 cf); by rewrite -yc -vc.
have xE k : (k < 6)%N -> answer (nth d0 h 0) k = x k.
  by move=> lk; rewrite eh; have /matrixP/(_ (Ordinal lk) 0) := yE; rewrite !mxE.
split=> //.
- by rewrite /exactly_solved eh.
- split=> // k lk0; have lk : (k < l_nin l0)%N by [rewrite ni]; rewrite eh; have /matrixP/(_ (Ordinal lk) 0) := vE; by rewrite !mxE.
by move=> k lk; have := rt k lk; rewrite !rate6 // => ->; exact: xE.
Qed.
Lemma solve6 (o1 : bool -> oqp R -> nat -> R) ts lim t r hs : nc_conf (rb6 ts lim) (q12 a6) t r hs ->
  exists hs', [/\ CalcControlTorqueLQP_R_NC (osqp6 o1) 6 hs true = Some hs', exactly_solved hs' 0 &
    forall k, (k < 6)%N -> final hs' k = x6 k].
Proof.
by move=> cf; have [hs' [? ? _ ?]] := solveG o1 cf (@excess6 ts lim) (@least6 ts lim); exists hs'.
Qed.

(* nothing wanted: the solver answers 0, at both levels *)
Definition still : nat -> R := fun=> 0.
Definition osqp0 := osqpG still still (fun _ _ => still).
Lemma solve0 ts lim t r hs : nc_conf (rb6 ts lim) (q12 0) t r hs ->
  exists hs', [/\ CalcControlTorqueLQP_R_NC osqp0 6 hs true = Some hs', exactly_solved hs' 0,
    nothing_dropped (l_qA (nth d0 hs' 1)) & oqp_feasible (osqp_problem (nth d0 hs' 1)) (ans_of (nth d0 hs' 1))].
Proof.
move=> cf.
have ex0 : nc_excess (rb6 ts lim) still still.
  by move=> k lk; rewrite torque6 // /still addr0 oppr0 ler0n.
have ls y w : nc_excess (rb6 ts lim) y w -> nc_objective (rb6 ts lim) (q12 0) still still <= nc_objective (rb6 ts lim) (q12 0) y w.
  move=> _; rewrite !objective6 /still; have hp := ltW h6_pos.
  rewrite [X in X <= _](_ : _ = 0); last first.
    by rewrite !sum_nat0 ?addr0 // => *; rewrite ?if_same ?subrr expr0n ?mulr0 ?addr0.
  apply: addr_ge0; apply: sumr_ge0 => k _; last exact: sqr_ge0.
  by apply: addr_ge0; [exact: sqr_ge0|apply: mulr_ge0 => //; exact: sqr_ge0].
have [h' [e ex [xa va] fin]] := solveG (fun _ _ => still) cf ex0 ls; exists h'.
have [l0 [l1 [h [hE e' [cf2 _] [l0' ef [cf' st' e2 eh sz]] rt]]]] := call_ok osqp0 cf (or_introl (isT : is_true true)).
move: e'; rewrite e => -[E]; rewrite -{h}E in cf2 e2 eh sz rt.
have szl : size [:: l0'; l1] = 2%N by [].
have sh i : (i < size [:: l0'; l1])%N -> shaped 6 (nth d0 [:: l0'; l1] i) by rewrite szl; apply: (nf_shaped cf').
have pr := nf_prepared cf'.
have ct := content sh pr st' e2 (isT : (0 < 1 < size [:: l0'; l1])%N).
have [|_ BZ _] := nf_prepared cf2 (i := 0%N); first by rewrite sz.
case: h' sz ex {e fin rt} eh xa va e2 cf2 ct BZ => [|a [|b []]] // _ ex eh xa va e2 cf2 ct BZ; rewrite /= in ct eh xa va BZ *.
have {BZ} Z0 : Zm 6 a = 0.
  apply/matrixP => i j; have := BZ 0%N isT; have [na ne] := nf_n cf2 (isT : (0 < 2)%N); rewrite /= in na ne.
  have li : (i < l_neq a)%N by rewrite ne.
  move/matrixP/(_ (Ordinal li) j); rewrite mxE (bigD1 i) //= big1 ?addr0.
    by rewrite mxE /= (entB cf2) // eqxx mul1r => ->; rewrite !mxE.
  move=> k ki; rewrite [Bm _ _ _ _]mxE /= (entB cf2) //; have -> : ((i : nat) == k) = false by (rewrite eq_sym in ki; apply: negbTE).
  by rewrite mul0r.
have nd : nothing_dropped (l_qA b).
  move=> i j; have [rA cA] := qc_A ct; rewrite /= in rA cA; rewrite rA cA /rows_of /= addn0 => li lj.
  case: (ltnP i (l_nin b)) => lb1.
    have [o1 o2 _] := qc_own ct (Ordinal lb1); rewrite /= in o1 o2.
    case: (ltnP j (l_ns a)) => lja.
      by have := o1 (Ordinal lja); rewrite -/(Zm 6 a) Z0 mulmx0 mxE /= => ->.
    have ljb : (j - l_ns a < l_nin b)%N by lia.
    have := o2 (Ordinal ljb); rewrite /= subnKC // => ->; case: eqP => _; rewrite ?oppr0 // small1 // normrN normr1 //.
  have lia' : (i - l_nin b < l_nin a)%N by lia.
  have [o1 o2 _] := qc_inh ct (isT : (0 < size [:: a])%N) (Ordinal lia').
  rewrite /= /rows_of /= addn0 subnKC // in o1 o2.
  case: (ltnP j (l_ns a)) => lja.
    by have := o1 (Ordinal lja); rewrite -/(Zm 6 a) Z0 mulmx0 mxE /= => ->.
  have ljb : (j - l_ns a < l_nin b)%N by lia.
  by have := o2 (Ordinal ljb); rewrite /= subnKC // => ->.
have lb : (0 < 1 < size [:: l0'; l1])%N by [].
split=> //; apply: (proj2 (@feasible_exact R d0 [:: l0'; l1] [:: a; b] 1 (ans_of b) lb nd)); apply/(content_feasible ct).
have yE z : yv 6 a + Zm 6 a *m z = yv 6 a by rewrite Z0 mul0mx addr0.
rewrite /= yE; split=> [|[|k] //= _].
  have -> : col_of (l_nin b) (fun c => ans_of b (l_ns a + c)%N) = 0.
    apply/matrixP => i j; rewrite !mxE.
    have [q0 _ _ an _ _ _] := from sh pr e2 lb; by rewrite /ans_of /= an.
  apply/(means_ineqP a (nf_shaped cf2 (isT : (1 < 2)%N)) (nf_in1 cf2)) => k lk.
  by rewrite xa // normr0 ler0n.
have yc : yv 6 a = col_of 6 still by apply/matrixP => i j; rewrite !mxE ord1; exact: (xa i (ltn_ord i)).
rewrite yc; have -> : vv a = col_of (l_nin a) still.
  have [na _] := nf_n cf2 (isT : (0 < 2)%N); rewrite /= in na.
  apply/matrixP => i j; rewrite !mxE ord1; apply: (va i); have := ltn_ord i; by rewrite [X in (_ < X)%N]na.
by apply/(excess0 cf2).
Qed.
End Instance.
