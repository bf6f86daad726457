(* A concrete null-space function and small hierarchies used by the examples and refutations. *)
From mathcomp Require Import all_ssreflect all_algebra.
From mathcomp Require Import zify.
From mathcomp.algebra_tactics Require Import ring.
From Verif Require Import LinAlg DMat DMatL Cone_Model QP_Model QP_Spec HQP_Model HQP_Spec HQP_Proofs HQP_Thm.
Set Implicit Arguments.
Unset Strict Implicit.
Unset Printing Implicit Defensive.
Import Order.TTheory GRing.Theory Num.Theory.
Local Open Scope ring_scope.

Section Ex.
Variable R : realFieldType.
Local Notation dm := (dm R).
Local Notation level := (level R).

(* a basis of the kernel, by Gaussian elimination *)
Definition knull (M : dm) : dm := of_mx (row_base (kermx (mx_of (nr M) (nc M) M)^T))^T.

Lemma knull_ok : null_space_ok knull.
Proof.
move=> M; split=> //; rewrite /knull mx_of_mx; set A := mx_of _ _ M.
split=> [|x Ax].
  apply: trmx_inj; rewrite [LHS]trmx_mul trmxK trmx0; apply/sub_kermxP.
  by rewrite eq_row_base.
have : (x^T <= row_base (kermx A^T))%MS.
  by rewrite eq_row_base; apply/sub_kermxP; rewrite -trmx_mul Ax trmx0.
by case/submxP=> D /(congr1 trmx); rewrite trmxK [RHS]trmx_mul => ->; exists D^T.
Qed.

Lemma knull_nc (M : dm) : nc (knull M) = (nc M - \rank (mx_of (nr M) (nc M) M))%N.
Proof. by rewrite /= mxrank_ker mxrank_tr. Qed.

(* a level over one variable with constant matrices: A_ = A (nin rows), B_ = B and b_ = b
   (neq rows) *)
Definition sl (nin neq : nat) (A a B : R) (b : nat -> R) (cost : bool) (H g : R) (W : dm)
    (ns : nat) (y v : R) : level :=
  LV nin neq (DM nin 1 (fun _ _ => A)) (DM nin 1 (fun _ _ => a)) (dident R nin)
     (DM neq 1 (fun _ _ => B)) (DM neq 1 (fun i _ => b i)) W cost
     (DM 1 1 (fun _ _ => H)) (DM 1 1 (fun _ _ => g))
     (DM 1 ns (fun _ _ => 1)) ns (DM 1 1 (fun _ _ => y)) (DM nin 1 (fun _ _ => v)) (dzero R neq 1)
     (dzero R 0 0) (dzero R 0 1) (dzero R 0 0) (dzero R 0 1) 0 0 (dzero R 0 1).

Lemma sl_shaped nin neq A a B b cost H g W ns y v : shaped 1 (sl nin neq A a B b cost H g W ns y v).
Proof. by []. Qed.

(* level 0 without equality content, level 1 with B <> 0: the null spaces have size 1 and 0 *)
Lemma sl_prepared (d l0 l1 : level) : l_neq l0 = 1%N -> l_B l0 = DM 1 1 (fun _ _ => 0) -> l_ns l0 = 1%N ->
  l_Z l0 = DM 1 1 (fun _ _ => 1) -> (0 < l_neq l1)%N ->
  (exists2 B, B <> 0 & l_B l1 = DM (l_neq l1) 1 (fun _ _ => B)) ->
  l_ns l1 = 0%N -> l_Z l1 = DM 1 0 (fun _ _ => 1) -> prepared 1 d [:: l0; l1].
Proof.
move=> e1 e2 e3 e4 p1 [B nB e5] e6 e7 [|[|i]] //= _.
  split=> [|[|k] // _|x _].
  - by rewrite e3 e4.
  - rewrite /Bm e2; apply/matrixP => i j; rewrite !mxE big1 // => k _; by rewrite !mxE mul0r.
  rewrite /Zm e4 e3; exists x; apply/matrixP => i j; by rewrite !mxE big_ord1 !mxE mul1r !ord1.
split=> [|k _|x hx].
- by rewrite e6 e7.
- by rewrite /Zm e6; apply/matrixP => i [].
have x0 : x = 0.
  have := hx 1%N isT; rewrite /Bm /= e5 => /matrixP /(_ (Ordinal p1) 0).
  rewrite !mxE big_ord1 !mxE => /eqP; rewrite mulf_eq0 (negbTE (introN eqP nB)) /= => /eqP e.
  by apply/matrixP => i j; rewrite !ord1 e mxE.
by exists 0; rewrite x0 mulmx0.
Qed.

Lemma scalar_eq (x y : 'cV[R]_1) : x 0 0 = y 0 0 -> x = y.
Proof. by move=> e; apply/matrixP => i j; rewrite !ord1. Qed.

Lemma eps_dropped : `|(10%:R ^+ 18)^-1 : R| <= sparse_tol R.
Proof.
have p k : 0 < 10%:R ^+ k :> R by rewrite exprn_gt0 ?ltr0n.
have h : 0 <= (10%:R ^+ 18)^-1 :> R by rewrite invr_ge0 ltW.
rewrite (ger0_norm h) /sparse_tol lef_pinv ?posrE //.
by rewrite [_ ^+ 18]exprS ler_pmull // ler1n.
Qed.

Lemma one_kept : ~~ (`|1 : R| <= sparse_tol R).
Proof. by rewrite normr1 -ltNge tol_lt1. Qed.
Lemma ge1_kept (x : R) : 1 <= `|x| -> ~~ (`|x| <= sparse_tol R).
Proof. by move=> h; rewrite -ltNge (lt_le_trans (tol_lt1 R)). Qed.

(* a hierarchy of two levels, the second solved from scratch *)
Definition lev0 (l0 : level) (k : nat) : level := setQP l0 (l_qH l0) (l_qg l0) (l_qA l0) (l_qub l0) (l_nv l0) k.
Definition lev1 (l0 l1 : level) H g A ub (k : nat) y v w (x : nat -> R) : level :=
  setAns (setQP l1 H g A ub (l_ns l0 + l_nin l1) k) y v w (vec (l_ns l0 + l_nin l1) x).

Lemma two_levels n osqp (d l0 l1 : level) : shaped n l0 -> shaped n l1 -> prepared n d [:: l0; l1] ->
  exists k0 k H g A ub y v w x,
  let L0 := lev0 l0 k0 in let L1 := lev1 l0 l1 H g A ub k y v w x in
  [/\ solveSequential osqp [:: l0; l1] true = Some [:: L0; L1],
      x = osqp 1%N true (osqp_problem L1),
      qp_content n d [:: L0] L0 L1 (OQP H g A ub),
      mx_of n 1 y = yv n l0 + Zm n l0 *m col_of (l_ns l0) x &
      mx_of (l_nin l1) 1 v = col_of (l_nin l1) (fun c => x (l_ns l0 + c)%N)].
Proof.
move=> s0 s1 pr.
have sh i : (i < size [:: l0; l1])%N -> shaped n (nth d [:: l0; l1] i) by case: i => [|[|]].
have dZ i : (i < size [:: l0; l1])%N -> dims (l_Z (nth d [:: l0; l1] i)) n (l_ns (nth d [:: l0; l1] i)).
  by move=> /pr[].
have [|||hs' [e _]] := @solveSequential_ok R n osqp d true [:: l0; l1]; [by []|by move=> i li; split; [apply: sh|apply: dZ]|by left|].
have r := is_run d e isT; have sz := run_size r; have f := run_first r.
have li : (0 < 1 < size [:: l0; l1])%N by [].
have c := content sh pr (or_introl isT) e li.
have sf := from sh pr e li.
have ey := y_ans sh pr e li; have ev := v_ans sh pr e li.
move: sz; case: hs' e r f c sf ey ev => [|L0 [|L1 []]] //= e r f c sf ey ev _.
case: sf => q _ eL ea _ _ _; rewrite /= in eL ea.
have a0 : l_ans L1 = vec (l_ns l0 + l_nin l1) (osqp 1%N true (osqp_problem L1)) by rewrite ea f.
have b0 : l_ns L0 = l_ns l0 by rewrite f.
exists (l_ncon L0), (l_ncon L1), (l_qH L1), (l_qg L1), (l_qA L1), (l_qub L1), (l_y L1), (l_v L1), (l_w L1),
  (osqp 1%N true (osqp_problem L1)).
have e0 : lev0 l0 (l_ncon L0) = L0 by rewrite /lev0 [RHS]f.
have e1 : lev1 l0 l1 (l_qH L1) (l_qg L1) (l_qA L1) (l_qub L1) (l_ncon L1) (l_y L1) (l_v L1) (l_w L1)
  (osqp 1%N true (osqp_problem L1)) = L1.
  rewrite /lev1 -a0; rewrite eL /=; by rewrite b0.
rewrite e0 e1 /=; split=> //.
- by move: ey; rewrite /yv /Zm f /= /ans_of a0.
by move: ev; rewrite /vv /ans_of a0 b0 (_ : l_nin L1 = l_nin l1) // eL.
Qed.

(* the problem of a level without inequalities of its own, under a level with null space R^1 *)
Section OneVar.
Variables (d : level) (nin0 : nat) (A0 a0 y0 v0 : R) (W0 W : dm) (m : nat) (B : R) (b : nat -> R) (cost : bool)
  (Hc gc : R) (k0 k : nat) (H g A ub y v w : dm) (x : nat -> R).
Local Notation l0 := (sl nin0 1 A0 a0 0 (fun=> 0) false 0 0 W0 1 y0 v0).
Local Notation l1 := (sl 0 m 0 0 B b cost Hc gc W 0 0 0).
Local Notation L0 := (lev0 l0 k0).
Local Notation L1 := (lev1 l0 l1 H g A ub k y v w x).
Hypothesis c : qp_content 1 d [:: L0] L0 L1 (OQP H g A ub).
Let h : R := m%:R * B ^+ 2 + (if cost then Hc else 0).
Let gam : R := (\sum_(i < m) B * (B * y0 + b i)) + (if cost then Hc * y0 else 0).

Lemma ov_H : ent H 0 0 = h.
Proof.
have := qc_Hm c => /matrixP /(_ (lshift 0 0) (lshift 0 0)); rewrite block_mxEul !mxE /= => ->.
rewrite (eq_bigr (fun=> B ^+ 2)); last by move=> i _; rewrite !mxE !big_ord1 !mxE !mulr1 expr2.
rewrite sumr_const card_ord -mulr_natl /h; congr (_ + _).
case: (cost); last by rewrite mxE.
by rewrite !mxE big_ord1 !mxE big_ord1 !mxE mulr1 mul1r.
Qed.

Lemma ov_g : ent g 0 0 = gam.
Proof.
have := qc_gm c => /matrixP /(_ (lshift 0 0) 0); rewrite col_mxEu !mxE /= => ->.
congr (_ + _).
  apply: eq_bigr => i _; rewrite !mxE !big_ord1 !mxE /= mulr1; by [].
case: (cost); last by rewrite mxE.
by rewrite !mxE big_ord1 !mxE big_ord1 !mxE mul1r.
Qed.

Lemma ov_cost (M : dm) z : oqp_cost (OQP H g M ub) z = 1 / 2%:R * h * z 0%N ^+ 2 + gam * z 0%N.
Proof.
have [rH cH] := qc_H c; have [rg _] := qc_g c; rewrite /= in rH cH rg.
rewrite /oqp_cost /= rH cH rg /= !big_nat1 ov_H ov_g -!mulrA; congr (_ * _ + _).
by congr (_ * _); rewrite mulrCA expr2.
Qed.

Lemma ov_sparse z : 1 <= `|h| -> oqp_cost (osqp_problem L1) z = 1 / 2%:R * h * z 0%N ^+ 2 + gam * z 0%N.
Proof.
move=> h1; rewrite -(ov_cost A); have [rH cH] := qc_H c; rewrite /= in rH cH.
rewrite /oqp_cost /= rH cH /= !big_nat1 ov_H (negbTE (ge1_kept h1)); by [].
Qed.

(* the minimum of the cost *)
Lemma ov_opt z : 0 < h -> 1 <= `|h| -> h * z 0%N = - gam -> forall z', oqp_cost (osqp_problem L1) z <= oqp_cost (osqp_problem L1) z'.
Proof.
move=> hp h1 e z'; rewrite !ov_sparse //.
have -> : gam = - (h * z 0%N) by rewrite e opprK.
rewrite -subr_ge0.
have rc (p q t : R) : 1 / 2%:R * p * t ^+ 2 + - (p * q) * t - (1 / 2%:R * p * q ^+ 2 + - (p * q) * q) =
   1 / 2%:R * p * (t - q) ^+ 2 by field.
by rewrite rc; apply: mulr_ge0; [apply: mulr_ge0; [rewrite mul1r invr_ge0 ler0n|exact: ltW]|apply: sqr_ge0].
Qed.

Lemma ov_opt2 hv gv z : m%:R * B ^+ 2 + (if cost then Hc else 0) = hv ->
  (\sum_(i < m) B * (B * y0 + b i)) + (if cost then Hc * y0 else 0) = gv ->
  1 <= hv -> hv * z 0%N = - gv -> forall z', oqp_cost (osqp_problem L1) z <= oqp_cost (osqp_problem L1) z'.
Proof.
move=> eh eg h1 e; have hp : 0 < hv := lt_le_trans ltr01 h1; apply: ov_opt; rewrite /h /gam ?eh ?eg //.
by rewrite gtr0_norm.
Qed.

(* without inequality rows above, everything is feasible *)
Lemma ov_feasible z : nin0 = 0%N -> oqp_feasible (osqp_problem L1) z.
Proof. by move=> n0 i /=; have [-> _] := qc_A c; rewrite /= n0. Qed.
End OneVar.

(* the matrices of the levels above, entrywise *)
Lemma l0_B nin0 A0 a0 y0 v0 W0 k0 (y : 'cV[R]_1) :
  Bm 1 (lev0 (sl nin0 1 A0 a0 0 (fun=> 0) false 0 0 W0 1 y0 v0) k0) *m y = 0.
Proof. by apply/matrixP => i j; rewrite !mxE big_ord1 !mxE mul0r. Qed.

Lemma l1_res l0 m B b cost Hc gc W H g A ub k y v w x (z : 'cV[R]_1) i :
  (Bm 1 (lev1 l0 (sl 0 m 0 0 B b cost Hc gc W 0 0 0) H g A ub k y v w x) *m z
   + bv (lev1 l0 (sl 0 m 0 0 B b cost Hc gc W 0 0 0) H g A ub k y v w x)) i 0 = B * z 0 0 + b i.
Proof. by rewrite !mxE big_ord1 !mxE. Qed.

Lemma l1_objective l0 m B b cost Hc gc W H g A ub k y v w x (z : 'cV[R]_1) t :
  level_objective (lev1 l0 (sl 0 m 0 0 B b cost Hc gc W 0 0 0) H g A ub k y v w x) z t =
  \sum_(i < m) (B * z 0 0 + b i) ^+ 2 + (if cost then Hc * z 0 0 ^+ 2 else 0).
Proof.
rewrite /level_objective {2}/sqnorm big_ord0 addr0; congr (_ + _).
  by apply: eq_bigr => i _; rewrite l1_res.
rewrite /=; case: (cost) => //; rewrite !mxE big_ord1 !mxE big_ord1 !mxE /=; ring.
Qed.
End Ex.
