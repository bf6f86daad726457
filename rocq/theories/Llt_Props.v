(* C160, C161: the inverse of the inertia matrix by Cholesky factorisation *)
From mathcomp Require Import all_ssreflect all_algebra.
From mathcomp Require Import zify.
From Verif Require Import LinAlg Llt_Model Llt_Spec Llt_Proofs.
Set Implicit Arguments.
Unset Strict Implicit.
Unset Printing Implicit Defensive.
Import Order.TTheory GRing.Theory Num.Theory.
Local Open Scope ring_scope.

Section C.
Variable R : rcfType.

(* C160: for every positive definite matrix of any size the factorisation succeeds and the result is its inverse *)
Theorem C160_inverse n (A : 'M[R]_n) : posdef A ->
  exists X, [/\ set_A_inv A = Some X, A *m X = 1%:M, X *m A = 1%:M, posdef X & (llt A).2].
Proof.
move=> pA; have ok := llt_succ pA; have u := posdef_unit pA; exists (invmx A).
split; [|exact: mulmxV|exact: mulVmx|exact: posdef_inv|exact: ok].
rewrite /set_A_inv /solve_identity LLt_sym //; last by case: pA.
by case: forallP => // -[] i; have [_ _ h] := llt_ok ok; rewrite gt_eqF ?h.
Qed.

(* C160: so it is for every robot whose links all have mass and rotational inertia *)
Lemma quad_sum n (ls : seq (link R n)) x : quad (inertia_of ls) x = \sum_(l <- ls) quad l.1 (l.2 *m x).
Proof.
rewrite /quad /inertia_of; elim: ls => [|l ls IH]; first by rewrite !big_nil mulmx0 mul0mx /sc mxE.
rewrite !big_cons -IH mulmxDr mulmxDl /sc mxE; congr (_ + _); by rewrite trmx_mul !mulmxA.
Qed.
Lemma sum_sym n (ls : seq (link R n)) : (forall l, l \in ls -> symmetric l.1) -> symmetric (inertia_of ls).
Proof.
move=> h; rewrite /symmetric /inertia_of raddf_sum /= big_seq [RHS]big_seq; apply: eq_bigr => l /h e.
by rewrite !trmx_mul trmxK e mulmxA.
Qed.
Lemma inertia_posdef n (ls : seq (link R n)) : all_massive ls -> no_idle_motion ls -> posdef (inertia_of ls).
Proof.
move=> am ni; split; first by apply: sum_sym => l /am[].
move=> x /ni[l hl nl]; rewrite quad_sum (big_rem l) //=; apply: ltr_paddr; last by case: (am l hl) => _; apply.
by rewrite big_seq; apply: sumr_ge0 => k /mem_rem /am /posdef_psd [_]; apply.
Qed.
Theorem C160_robot n (ls : seq (link R n)) : all_massive ls -> no_idle_motion ls ->
  exists X, [/\ set_A_inv (inertia_of ls) = Some X, inertia_of ls *m X = 1%:M & X *m inertia_of ls = 1%:M].
Proof. by move=> am ni; have [X [h1 h2 h3 _ _]] := C160_inverse (inertia_posdef am ni); exists X. Qed.

(* C160: only the lower triangle is read *)
Lemma col_lower n (A B : 'M[R]_n) k : matrixL A = matrixL B ->
  match llt_col A k, llt_col B k with
  | Some A', Some B' => matrixL A' = matrixL B'
  | None, None => True
  | _, _ => False
  end.
Proof.
move=> e; have E (i j : 'I_n) : (j <= i)%N -> A i j = B i j.
  by move=> ji; have := congr1 (fun M : 'M_n => M i j) e; rewrite !mxE ji.
have Sk (i : 'I_n) : (k <= i)%N -> \sum_(l < n | (l < k)%N) A i l * A k l = \sum_(l < n | (l < k)%N) B i l * B k l.
  by move=> ki; apply: eq_bigr => l lk; rewrite !E //; lia.
rewrite /llt_col (E k k) // Sk //; case: ifP => // _; apply/matrixP => i j; rewrite !mxE; case: ifP => // ji.
case: eqP => [ej|_]; last by rewrite E.
by subst j; case: eqP => // _; rewrite Sk // E.
Qed.
Lemma loop_lower n ks (A B : 'M[R]_n) : matrixL A = matrixL B ->
  matrixL (llt_loop ks A).1 = matrixL (llt_loop ks B).1 /\ (llt_loop ks A).2 = (llt_loop ks B).2.
Proof.
elim: ks A B => [|k ks IH] A B e //=; have := col_lower k e.
by case: (llt_col A k) (llt_col B k) => [A'|] [B'|] // e'; apply: IH.
Qed.
Theorem C160_lower_triangle n (A B : 'M[R]_n) : (forall i j : 'I_n, (j <= i)%N -> A i j = B i j) ->
  set_A_inv A = set_A_inv B.
Proof.
move=> e; have eL : matrixL A = matrixL B by apply/matrixP => i j; rewrite !mxE; case: ifP => // h; rewrite e.
have [h _] := loop_lower (enum 'I_n) eL; rewrite /set_A_inv /solve_identity /llt h.
have -> // : [forall i, (llt_loop (enum 'I_n) A).1 i i != 0] = [forall i, (llt_loop (enum 'I_n) B).1 i i != 0].
apply: eq_forallb => i; have := congr1 (fun M : 'M_n => M i i) h; by rewrite !mxE leqnn => ->.
Qed.

(* C161: for a symmetric matrix the result is the inverse exactly when the matrix is positive definite *)
Theorem C161_only_posdef_partial n (A : 'M[R]_n) : symmetric A ->
  (posdef A <-> exists X, set_A_inv A = Some X /\ A *m X = 1%:M) /\ ((llt A).2 <-> posdef A).
Proof.
move=> sA; split; split.
- by move=> /C160_inverse [X [h1 h2 _ _ _]]; exists X.
- case=> X []; rewrite /set_A_inv /solve_identity; case: forallP => // h [<-] e.
  have u := matrixL_unit h; have pL := LLt_posdef u; have := posdef_inv pL; move: (invmx _) e => Y e pY.
  have -> : A = invmx Y by rewrite -[LHS]mulmx1 -(mulmxV (posdef_unit pY)) mulmxA e mul1mx.
  exact: posdef_inv.
- move=> ok; rewrite -(LLt_sym sA ok); apply/LLt_posdef/matrixL_unit => i.
  by have [_ _ h] := llt_ok ok; rewrite gt_eqF ?h.
- exact: llt_succ.
Qed.
(* C161: whatever the matrix was, the result looks like the inverse of an inertia matrix *)
Theorem C161_always_posdef_partial n (A X : 'M[R]_n) : set_A_inv A = Some X -> posdef X.
Proof.
rewrite /set_A_inv /solve_identity; case: forallP => // h [<-].
exact: posdef_inv (LLt_posdef (matrixL_unit h)).
Qed.

(* C161: if the coordinates have a motion that moves no mass, the factorisation fails, and whatever numbers come out do not
   invert the inertia matrix *)
Theorem C161_massless_partial n (ls : seq (link R n)) x : none_negative ls -> massless_motion ls x ->
  (llt (inertia_of ls)).2 = false /\ forall X, set_A_inv (inertia_of ls) = Some X -> inertia_of ls *m X <> 1%:M.
Proof.
move=> nn [nx hx]; have s : symmetric (inertia_of ls) by apply: sum_sym => l /nn[].
have np : ~ posdef (inertia_of ls).
  case=> _ /(_ x nx); rewrite quad_sum big_seq big1 ?ltxx // => l hl.
  by rewrite quadE hx // /dot mulmx0 /sc mxE.
have [[_ h1] [h2 _]] := C161_only_posdef_partial s; split; first by apply/negbTE/negP => /h2.
by move=> X hX e; apply: np; apply: h1; exists X.
Qed.

(* 2x2 *)
Definition m2 (a b c : R) : 'M[R]_2 := \matrix_(i, j) if i == j then (if i == 0 then a else c) else b.
Lemma enum2 : enum 'I_2 = [:: 0; 1].
Proof. by apply: (inj_map val_inj); rewrite val_enum_ord. Qed.
Lemma ord2 (i : 'I_2) : i = 0 \/ i = 1.
Proof. by case: i => -[|[|//]] h; [left|right]; apply: val_inj. Qed.
Lemma llt2 b c : c - b * b <= 0 -> llt (m2 1 b c) = (m2 1 b c, false).
Proof.
move=> h; rewrite /llt enum2 /=.
have -> : llt_col (m2 1 b c) 0 = Some (m2 1 b c).
  rewrite /llt_col !big_pred0 // mxE eqxx /= subr0 ler10; congr Some; apply/matrixP => i j; rewrite !mxE.
  by case: (ord2 i) => ->; case: (ord2 j) => ->; rewrite /= ?sqrtr1 // big_pred0 // subr0 divr1.
rewrite /llt_col (big_pred1 0) => [|l]; last by case: (ord2 l) => ->.
by rewrite !mxE /= h.
Qed.
Lemma set2 b c : c != 0 -> c - b * b <= 0 -> exists X, set_A_inv (m2 1 b c) = Some X.
Proof.
move=> nc h; rewrite /set_A_inv llt2 //= /solve_identity; case: forallP => [_|[] i]; first by eexists.
by rewrite mxE eqxx; case: ifP => _; rewrite ?oner_eq0.
Qed.
Lemma sym2 a b c : symmetric (m2 a b c).
Proof. by apply/matrixP => i j; rewrite !mxE eq_sym; case: eqP => // ->. Qed.

(* C161: an invertible inertia matrix with a negative mass: the code gives a matrix that is not the inverse, and reports nothing *)
Theorem C161_indefinite_refuted : exists A X : 'M[R]_2,
  [/\ symmetric A, A \in unitmx, set_A_inv A = Some X & A *m X <> 1%:M].
Proof.
have n1 : (-1 : R) != 0 by rewrite oppr_eq0 oner_eq0.
have le : (-1 : R) - 0 * 0 <= 0 by rewrite mulr0 subr0 oppr_le0 ler01.
have [X hX] := set2 n1 le; exists (m2 1 0 (-1)), X; have s := sym2 1 0 (-1); split => //.
  rewrite unitmxE (expand_det_row _ 0) !big_ord_recl big_ord0 !mxE /= mul0r !addr0 /cofactor det_mx11 !mxE /=.
  by rewrite ?mulr1 ?mul1r ?expr0 ?mul1r unitfE.
move=> e; have [[_ h] [_ _]] := C161_only_posdef_partial s.
have /h [_ p] : exists X, set_A_inv (m2 1 0 (-1)) = Some X /\ m2 1 0 (-1) *m X = 1%:M by exists X.
have := p (\col_i if i == 1 then 1 else 0); rewrite /quad /sc !mxE !big_ord_recl big_ord0 !mxE !big_ord_recl !big_ord0 !mxE /=.
rewrite !mul0r !mulr0 !add0r !addr0 !mul1r !mulr1 oppr_gt0 ltr10 => h'.
suff /h' : (\col_(i < 2) (if i == 1 then 1 else 0) : 'cV[R]_2) != 0 by [].
by apply/eqP => /matrixP /(_ 1 0); rewrite !mxE /= => /eqP; rewrite oner_eq0.
Qed.
(* C161: a singular inertia matrix, as a massless link gives: the code gives a positive definite "inverse" *)
Theorem C161_singular_refuted : exists A X : 'M[R]_2,
  [/\ symmetric A, A \notin unitmx, set_A_inv A = Some X & posdef X].
Proof.
have [X hX] := @set2 1 1 (oner_neq0 R) (ltac:(by rewrite mulr1 subrr)).
exists (m2 1 1 1), X; split=> //; [exact: sym2| |exact: C161_always_posdef_partial hX].
rewrite unitmxE unitfE negbK; apply/eqP; apply: (@determinant_alternate _ _ _ 0 1) => // j.
by rewrite !mxE; case: ifP => _; case: ifP.
Qed.

(* Examples *)
Definition L2 : 'M[R]_2 := \matrix_(i, j) if i == j then (if i == 0 then 2%:R else 3%:R) else if i == 0 then 0 else 1.
Example C160_inverse_ex : posdef (L2 *m L2^T) /\ (L2 *m L2^T) 0 1 = 2%:R.
Proof.
split; last by rewrite !mxE !big_ord_recl big_ord0 !mxE /= mulr1 mul0r !addr0.
apply: LLt_posdef; rewrite unitmxE (expand_det_row _ 0) !big_ord_recl big_ord0 !mxE /= mul0r !addr0 /cofactor det_mx11 !mxE /=.
by rewrite expr0 mul1r unitfE mulf_neq0 ?pnatr_eq0.
Qed.
(* an asymmetric matrix is read as the symmetric one with its lower triangle *)
Example C160_lower_triangle_ex (x : R) : set_A_inv (\matrix_(i < 2, j < 2) if (i < j)%N then x else (L2 *m L2^T) i j) =
  Some (invmx (L2 *m L2^T)).
Proof.
rewrite (@C160_lower_triangle _ _ (L2 *m L2^T)) => [|i j h]; last by rewrite mxE ltnNge h.
have [p _] := C160_inverse_ex; have [X [-> h _ _ _]] := C160_inverse p; congr Some.
by rewrite -[LHS]mul1mx -(mulVmx (posdef_unit p)) -mulmxA h mulmx1.
Qed.
(* two links in line, one coordinate each; with mass, and with a massless second link *)
Definition Jl (i : 'I_2) : 'M[R]_(6, 2) := \matrix_(a, b) ((a == 0) && (b <= i)%N)%:R.
Lemma Jl0 i (x : 'cV[R]_2) : Jl i *m x = \col_a if a == 0 then x 0 0 + (if i == 0 then 0 else x 1 0) else 0.
Proof.
apply/matrixP => a b; rewrite (ord1 b) !mxE !big_ord_recl big_ord0 !mxE addr0; case: (a =P 0) => _ /=.
  by case: (ord2 i) => ->; rewrite /= !mul1r ?mul0r //; congr (_ + x _ _); apply: val_inj.
by rewrite !mul0r addr0.
Qed.
Lemma posdef1 : posdef (1%:M : 'M[R]_6).
Proof. by split; [exact: trmx1|move=> x nx; rewrite quadE mul1mx; exact: dot_gt0]. Qed.
Example C160_robot_ex : all_massive [:: (1%:M, Jl 0); (1%:M, Jl 1)] /\ no_idle_motion [:: (1%:M, Jl 0); (1%:M : 'M[R]_6, Jl 1)].
Proof.
split=> [l|x nx]; first by rewrite !inE => /orP[]/eqP->; exact: posdef1.
case: (x 0 0 =P 0) => [e0|n0]; last first.
  exists (1%:M, Jl 0); first by rewrite !inE eqxx.
  rewrite Jl0 eqxx addr0; apply/eqP => /matrixP /(_ 0 0); rewrite !mxE eqxx; exact: n0.
exists (1%:M, Jl 1); first by rewrite !inE eqxx orbT.
rewrite Jl0 e0 add0r; apply: contra nx => /eqP /matrixP /(_ 0 0); rewrite !mxE /= => e1.
by apply/eqP/matrixP => i j; rewrite (ord1 j) mxE; case: (ord2 i) => ->.
Qed.
Example C161_massless_ex : none_negative [:: (1%:M, Jl 0); (0, Jl 1)] /\
  massless_motion [:: (1%:M : 'M[R]_6, Jl 0); (0, Jl 1)] (\col_i (i == 1)%:R).
Proof.
split=> [l|].
  rewrite !inE => /orP[]/eqP->; first by apply: posdef_psd; exact: posdef1.
  by split; [exact: trmx0|move=> x; rewrite quadE mul0mx /dot mulmx0 /sc mxE].
split; first by apply/eqP => /matrixP /(_ 1 0); rewrite !mxE /= => /eqP; rewrite oner_eq0.
move=> l; rewrite !inE => /orP[]/eqP-> /=; last by rewrite mul0mx.
by rewrite mul1mx Jl0; apply/matrixP => a b; rewrite !mxE /= addr0; case: ifP.
Qed.
Example C161_zero_ex : set_A_inv (0 : 'M[R]_2) = None /\ (llt (0 : 'M[R]_2)).2 = false.
Proof.
have e : llt (0 : 'M[R]_2) = (0, false) by rewrite /llt enum2 /= /llt_col big_pred0 // mxE subr0 lexx.
by rewrite /set_A_inv e /solve_identity; split=> //; case: forallP => // /(_ 0); rewrite mxE eqxx.
Qed.
End C.

Print Assumptions C160_inverse.
Print Assumptions C160_robot.
Print Assumptions C160_lower_triangle.
Print Assumptions C161_only_posdef_partial.
Print Assumptions C161_always_posdef_partial.
Print Assumptions C161_massless_partial.
Print Assumptions C161_indefinite_refuted.
Print Assumptions C161_singular_refuted.
