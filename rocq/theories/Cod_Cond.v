(* When the rank decision of Cod is right: a condition on the matrix alone *)
From mathcomp Require Import all_ssreflect all_algebra all_fingroup.
From mathcomp Require Import zify.
From mathcomp.algebra_tactics Require Import ring.
From Verif Require Import LinAlg DMat DMatL Cod_Model Cod_Spec Cod_Proofs.
Set Implicit Arguments.
Unset Strict Implicit.
Unset Printing Implicit Defensive.
Import Order.TTheory GRing.Theory Num.Theory.
Local Open Scope ring_scope.

Section E.
Variable R : realFieldType.

Lemma pidS m n r (S : 'M[R]_(m, n)) (i : 'I_r) (j : 'I_n) (hi : (i < m)%N) :
  ((pid_mx r : 'M_(r, m)) *m S) i j = S (Ordinal hi) j.
Proof.
rewrite !mxE (bigD1 (Ordinal hi)) //= !mxE /= eqxx ltn_ord mul1r big1 ?addr0 // => k nk; rewrite !mxE.
case: eqP => e; rewrite ?mul0r //; case/eqP: nk; exact: val_inj.
Qed.
Lemma Spid m n r (S : 'M[R]_(m, n)) (i : 'I_m) (j : 'I_r) (hj : (j < n)%N) :
  (S *m (pid_mx r : 'M_(n, r))) i j = S i (Ordinal hj).
Proof.
rewrite !mxE (bigD1 (Ordinal hj)) //= !mxE /= eqxx ltn_ord mulr1 big1 ?addr0 // => k nk; rewrite !mxE.
case: eqP => e; rewrite ?mulr0 //; case/eqP: nk; exact: val_inj.
Qed.
Definition lead m n r (S : 'M[R]_(m, n)) : 'M[R]_r := (pid_mx r : 'M_(r, m)) *m S *m (pid_mx r : 'M_(n, r)).
Lemma lead_unit m n r (S : 'M[R]_(m, n)) : (r <= m)%N -> (r <= n)%N ->
  (forall (i : 'I_m) (j : 'I_n), (j < i)%N -> S i j = 0) ->
  (forall (i : 'I_m) (j : 'I_n), (i < r)%N -> j = i :> nat -> S i j != 0) -> lead r S \in unitmx.
Proof.
move=> rm rn tri dia.
have bm (i : 'I_r) : (i < m)%N by apply: leq_trans (ltn_ord i) rm.
have bn (i : 'I_r) : (i < n)%N by apply: leq_trans (ltn_ord i) rn.
have LE i j : lead r S i j = S (Ordinal (bm i)) (Ordinal (bn j)) by rewrite /lead (Spid _ _ (bn j)) (pidS _ _ (bm i)).
rewrite unitmxE -det_tr det_trig; last by apply/is_trig_mxP => i j h; rewrite mxE LE tri.
by rewrite unitfE; apply/prodf_neq0 => i _; rewrite mxE LE dia /=.
Qed.

Lemma dotZl n (x y : 'cV[R]_n) a : dot (a *: x) y = a * dot x y.
Proof. by rewrite !dotE mulr_sumr; apply: eq_bigr => i _; rewrite mxE mulrA. Qed.
Lemma dot_subsq n (x y : 'cV[R]_n) a : dot (x - a *: y) (x - a *: y) = dot x x - (a * dot x y + a * dot x y) + a ^+ 2 * dot y y.
Proof.
rewrite !dotE !mulr_sumr -big_split -sumrB -big_split; apply: eq_bigr => i _ /=; rewrite !mxE; move: (x i 0) (y i 0) => u v; ring.
Qed.
Lemma dot_tr m n (B : 'M[R]_(m, n)) x y : dot (B *m x) y = dot x (B^T *m y).
Proof. by rewrite /dot trmx_mul mulmxA. Qed.

(* on the range of B, B^T stretches as much as B *)
Lemma range_stretch m n (B : 'M[R]_(m, n)) s : 0 <= s -> (forall x, s * dot x x <= dot (B *m x) (B *m x)) ->
  forall x, s * dot (B *m x) (B *m x) <= dot (B^T *m (B *m x)) (B^T *m (B *m x)).
Proof.
move=> s0 h x; set y := B *m x; set g := B^T *m y.
have e : dot g x = dot y y by rewrite dotC /g -dot_tr.
have := dot_ge0 (g - s *: x); rewrite dot_subsq e => k.
have l : s ^+ 2 * dot x x <= s * dot y y by rewrite expr2 -mulrA; apply: ler_wpmul2l (h x).
rewrite -subr_ge0; apply: le_trans k _; rewrite -subr_ge0.
move: (dot g g) (dot y y) (dot x x) l => u v w l.
have -> : u - s * v - (u - (s * v + s * v) + s ^+ 2 * w) = s * v - s ^+ 2 * w by ring.
by rewrite subr_ge0.
Qed.

Section Q.
Variables (m n : nat) (A : 'M[R]_(m, n)) (q : qr R m n).
Hypothesis qok : qr_ok A q.
Let S := q_R q.
Let Q := q_Q q.
Let P := q_P q.

Lemma clear0' : clear_rank 0 q.
Proof. by move=> i h; rewrite mul0r lt_neqAle eq_sym h normr_ge0. Qed.
Lemma lead0 : lead (numrank 0 q) S \in unitmx.
Proof.
have [_ _ _ [tri _]] := qok; have [rm rn] := @rank_le _ 0 _ _ q; apply: lead_unit => // i j h e.
by have := above qok h; rewrite (pivot_in _ e) -normr_gt0 mul0r.
Qed.
Lemma S_pid : S = (pid_mx (numrank 0 q) : 'M_(m, numrank 0 q)) *m ((pid_mx (numrank 0 q) : 'M_(numrank 0 q, m)) *m S).
Proof.
have [hm _] := @rank_le _ 0 _ _ q; have d0 := clear_dropped qok (lexx 0) clear0'; rewrite /dropped in d0.
rewrite mulmxA -[LHS]mul1mx -(pid_J _ hm) mulmxDl -[X in _ + X = _]mulmxA [X in _ + X = _]d0 addr0 //.
Qed.
Lemma rankS : \rank S = \rank A.
Proof.
have [oQ oP e _] := qok.
have -> : S = Q^T *m A *m P by rewrite -mulmxA e mulmxA oQ mul1mx.
have uQ : Q \in unitmx by case/mulmx1_unit: oQ.
have uP : P \in unitmx by case/mulmx1_unit: (perm_orth oP).
by rewrite mxrankMfree ?row_free_unit // -mxrank_tr trmx_mul trmxK mxrankMfree ?mxrank_tr // row_free_unit.
Qed.
Lemma numrank0 : numrank 0 q = \rank A.
Proof.
rewrite -rankS; apply/eqP; rewrite eqn_leq; apply/andP; split.
  rewrite -{1}(mxrank_unit lead0) /lead; apply: leq_trans (mxrankM_maxl _ _) (mxrankM_maxr _ _).
rewrite {1}S_pid; apply: leq_trans (mxrankM_maxl _ _) (rank_leq_col _).
Qed.

(* the rank-th diagonal entry is large if A = B C with well conditioned B and C *)
Lemma last_pivot r (B : 'M[R]_(m, r)) (C : 'M[R]_(r, n)) sB sC : A = B *m C -> 0 <= sB -> 0 <= sC ->
  (forall x, sB * dot x x <= dot (B *m x) (B *m x)) -> (forall y, sC * dot y y <= dot (C^T *m y) (C^T *m y)) ->
  \rank A = r -> forall k, r = k.+1 -> sB * sC <= n%:R * pivot q k ^+ 2.
Proof.
move=> eA b0 c0 hB hC rk k ek.
have [oQ oP e [tri pv]] := qok; have [rm rn] := @rank_le _ 0 _ _ q; rewrite numrank0 rk ek in rm rn.
pose km := Ordinal rm; pose kn := Ordinal rn.
pose d : 'cV[R]_m := delta_mx km 0.
have dd : dot d d = 1 by rewrite dotE (bigD1 km) //= !mxE !eqxx mul1r big1 ?addr0 // => i /negbTE ni; rewrite mxE ni mul0r.
have [x ex] : exists x, S *m x = d.
  have kr : (k < numrank 0 q)%N by rewrite numrank0 rk ek.
  exists ((pid_mx (numrank 0 q) : 'M_(n, numrank 0 q)) *m (invmx (lead (numrank 0 q) S) *m delta_mx (Ordinal kr) 0)).
  rewrite [in X in X *m _]S_pid !mulmxA -(mulmxA (pid_mx _) (pid_mx _)) -(mulmxA (pid_mx _) (_ *m S)) -/(lead _ S).
  rewrite mulmxK ?lead0 //.
  apply/matrixP => i j; rewrite (ord1 j) !mxE (bigD1 (Ordinal kr)) //= !mxE /= eqxx big1 ?addr0.
    by rewrite andbT mulr1 andbT -(inj_eq val_inj i km) /=; case: (i =P k :> nat) => // ->; rewrite kr.
  by move=> l /negbTE nl; rewrite [delta_mx _ _ _ _]mxE nl mulr0.
have oPo := perm_orth oP.
pose y := Q *m d.
have yB : y = B *m (C *m (P *m x)) by rewrite /y -ex mulmxA -e !mulmxA -eA.
have yy : dot y y = 1 by rewrite /y dot_tr mulmxA oQ mul1mx.
have lo : sB * sC <= dot (A^T *m y) (A^T *m y).
  rewrite {1 2}eA trmx_mul -!mulmxA mulrC; apply: le_trans (hC _); rewrite ler_wpmul2l //.
  by have := range_stretch b0 hB (C *m (P *m x)); rewrite /= -yB yy mulr1.
have eAt : A^T *m y = P *m (S^T *m d).
  have -> : A = Q *m S *m P^T by rewrite -e -mulmxA orth_r ?mulmx1.
  by rewrite /y !trmx_mul trmxK -!mulmxA (mulmxA Q^T) oQ mul1mx.
have -> : n%:R * pivot q k ^+ 2 = \sum_(j < n) pivot q k ^+ 2 by rewrite sumr_const card_ord mulr_natl.
apply: le_trans lo _; rewrite eAt dot_tr mulmxA oPo mul1mx dotE; apply: ler_sum => j _.
have -> : (S^T *m d) j 0 = S km j.
  rewrite !mxE (bigD1 km) //= !mxE !eqxx mulr1 big1 ?addr0 // => i /negbTE ni; by rewrite [d _ _]mxE ni mulr0.
rewrite -expr2 (@pivot_in _ _ _ q km kn) // real_normK ?num_real //.
case: (ltnP j km) => hj; first by rewrite /S (tri _ _ hj) expr0n sqr_ge0.
apply: le_trans (pv km kn j erefl hj); rewrite (bigD1 km) //= ler_paddr // sumr_ge0 // => l _; exact: sqr_ge0.
Qed.

Lemma cond_clear t r (B : 'M[R]_(m, r)) (C : 'M[R]_(r, n)) sB sC : A = B *m C -> 0 <= t -> 0 < sB -> 0 < sC ->
  (forall x, sB * dot x x <= dot (B *m x) (B *m x)) -> (forall y, sC * dot y y <= dot (C^T *m y) (C^T *m y)) ->
  (forall j, t ^+ 2 * (n%:R * colsq A j) < sB * sC) -> clear_rank t q.
Proof.
move=> eA t0 b0 c0 hB hC ht i ni; have qq := qok; have [_ _ _ pv] := qq.
have fB : row_free B^T.
  apply/row_freeP; exists (B *m invmx (B^T *m B)); rewrite mulmxA mulmxV //.
  rewrite -row_free_unit -kermx_eq0; apply/eqP/row_matrixP => k; rewrite row0.
  have : row k (kermx (B^T *m B)) *m (B^T *m B) = 0 by rewrite -row_mul mulmx_ker row0.
  move: (row k _) => v hv; apply: trmx_inj; rewrite trmx0; apply: dot_eq0; apply/eqP; rewrite eq_le dot_ge0 andbT.
  have := hB v^T; rewrite dot_tr mulmxA (_ : B^T *m B *m v^T = 0).
    by rewrite {2}/dot mulmx0 /sc mxE pmulr_rle0.
  by apply: trmx_inj; rewrite !trmx_mul !trmxK trmx0.
have fC : row_free C.
  apply/row_freeP; exists (C^T *m invmx (C *m C^T)); rewrite mulmxA mulmxV //.
  rewrite -row_free_unit -kermx_eq0; apply/eqP/row_matrixP => k; rewrite row0.
  have : row k (kermx (C *m C^T)) *m (C *m C^T) = 0 by rewrite -row_mul mulmx_ker row0.
  move: (row k _) => v hv; apply: trmx_inj; rewrite trmx0; apply: dot_eq0; apply/eqP; rewrite eq_le dot_ge0 andbT.
  have := hC v^T; rewrite dot_tr trmxK mulmxA (_ : C *m C^T *m v^T = 0).
    by rewrite {2}/dot mulmx0 /sc mxE pmulr_rle0.
  by apply: trmx_inj; rewrite !trmx_mul !trmxK trmx0.
have rk : \rank A = r by rewrite eA mxrankMfree // -mxrank_tr; apply/eqP.
have ir : (i < r)%N.
  rewrite ltnNge; apply/negP => ri; move: ni; rewrite -numrank0 in rk; rewrite -rk in ri.
  have := below qok (lexx 0) ri; rewrite mul0r => h /eqP; apply; apply/eqP; rewrite eq_le h; exact: normr_ge0.
have [rm rn] : (r <= m)%N /\ (r <= n)%N by have := @rank_le _ 0 _ _ q; rewrite numrank0 rk.
have np : (0 < n)%N by lia. have mp : (0 < m)%N by lia.
have kr : r = r.-1.+1 by lia.
have lo := last_pivot eA (ltW b0) (ltW c0) hB hC rk kr.
have [j0 ej] := pivot0_col qok (Ordinal mp) (Ordinal np).
have p1 : t * pivot q 0 < pivot q r.-1.
  rewrite -(@ltr_pexpn2r _ 2) ?nnegrE ?mulr_ge0 ?normr_ge0 // exprMn ej.
  rewrite -(@ltr_pmul2l _ n%:R) ?ltr0n //; apply: lt_le_trans lo; rewrite mulrCA; exact: ht.
rewrite maxpivotE //; apply: lt_le_trans p1 _; apply: pivot_mono => //; lia.
Qed.
End Q.
End E.
