(* Proofs for Cod *)
From mathcomp Require Import all_ssreflect all_algebra all_fingroup.
From mathcomp Require Import zify.
From Verif Require Import LinAlg DMat DMatL Cone_Model QP_Model HQP_Model Cod_Model Cod_Spec.
Set Implicit Arguments.
Unset Strict Implicit.
Unset Printing Implicit Defensive.
Import Order.TTheory GRing.Theory Num.Theory.
Local Open Scope ring_scope.

Section P.
Variable R : realFieldType.

Lemma count_prefix (p : pred nat) N : (forall i j, (i <= j)%N -> p j -> p i) ->
  forall i, (i < N)%N -> p i = (i < count p (iota 0 N))%N.
Proof.
move=> h; elim: N => // N IH i.
have -> : iota 0 N.+1 = iota 0 N ++ [:: N] by rewrite -addn1 iotaD.
rewrite count_cat /= addn0; case e: (p N) => /=; last first.
  rewrite addn0 ltnS leq_eqVlt => /orP[/eqP->|/IH //].
  by rewrite e; apply/esym/negbTE; rewrite -leqNgt -{2}(size_iota 0 N) count_size.
rewrite ltnS => le; rewrite (h _ _ le e); apply/esym.
have -> : count p (iota 0 N) = N; last by rewrite addn1 ltnS.
rewrite -{2}(size_iota 0 N); apply/eqP; rewrite -all_count; apply/allP => j; rewrite mem_iota add0n => /andP[_ lj].
exact: h (ltnW lj) e.
Qed.

Lemma orth_r n (Q : 'M[R]_n) : orthogonal Q -> Q *m Q^T = 1%:M.
Proof. by move=> h; apply: mulmx1C. Qed.
Lemma perm_orth n (P : 'M[R]_n) : is_perm_mx P -> orthogonal P.
Proof. by case/is_perm_mxP => s ->; rewrite /orthogonal tr_perm_mx -perm_mxM mulVg perm_mx1. Qed.

(* the injection of the last n - r coordinates *)
Definition Jx n r : 'M[R]_(n, n - r) := \matrix_(i, j) (i == (r + j)%N :> nat)%:R.
Lemma pidTJ n r : (r <= n)%N -> (pid_mx r : 'M[R]_(r, n)) *m Jx n r = 0.
Proof.
move=> h; apply/matrixP => i j; rewrite !mxE big1 // => k _; rewrite !mxE.
case: eqP => e; rewrite ?mul0r //=; case: (k =P (r + j)%N :> nat) => e2; rewrite ?mulr0 //.
by case: ltnP; rewrite ?mul0r // => hi; lia.
Qed.
Lemma JTJ n r : (Jx n r)^T *m Jx n r = 1%:M.
Proof.
apply/matrixP => i j; rewrite !mxE.
have hi : (r + i < n)%N by have := ltn_ord i; lia.
rewrite (bigD1 (Ordinal hi)) //= !mxE eqxx mul1r big1 ?addr0 ?eqn_add2l // => k.
rewrite !mxE => /eqP nk; case: eqP => e; rewrite ?mul0r //.
by case: nk; apply: val_inj.
Qed.
Lemma pid_J n r : (r <= n)%N -> (pid_mx r : 'M[R]_(n, r)) *m (pid_mx r : 'M_(r, n)) + Jx n r *m (Jx n r)^T = 1%:M.
Proof.
move=> h; rewrite pid_mx_id //; apply/matrixP => i j; rewrite !mxE.
case: (ltnP i r) => hi.
  rewrite andbT big1 ?addr0 // => k _; rewrite !mxE; case: eqP => e; rewrite ?mul0r //; lia.
rewrite andbF add0r; have hk : (i - r < n - r)%N by have := ltn_ord i; lia.
rewrite (bigD1 (Ordinal hk)) //= !mxE subnKC // eqxx mul1r big1 ?addr0 1?eq_sym // => k /eqP nk.
rewrite !mxE; case: eqP => e; rewrite ?mul0r //; case: nk; apply: val_inj => /=; lia.
Qed.
Lemma pidJT n r : (r <= n)%N -> (Jx n r)^T *m (pid_mx r : 'M[R]_(n, r)) = 0.
Proof. by move=> h; apply: trmx_inj; rewrite trmx_mul trmxK tr_pid_mx pidTJ // trmx0. Qed.

Lemma block_rows n r (X : 'M[R]_n) (h : (r <= n)%N) : exists V, dblock (of_mx X) r 0 (n - r) n = Some V /\
  dims V (n - r) n /\ mx_of (n - r) n V = (Jx n r)^T *m X.
Proof.
rewrite /dblock /= subnKC // add0n !leqnn /=; eexists; split; [reflexivity|split=> //].
apply/matrixP => i j; rewrite !mxE /= add0n.
have hi : (r + i < n)%N by have := ltn_ord i; lia.
rewrite insubT /= insubT ?ltn_ord //= => hj; rewrite (bigD1 (Ordinal hi)) //= !mxE eqxx mul1r big1.
  by rewrite addr0; congr (X _ _); apply: val_inj.
move=> k /eqP nk; rewrite !mxE; case: eqP => e; rewrite ?mul0r //; case: nk; exact: val_inj.
Qed.
Lemma block_cols n r (X : 'M[R]_n) (h : (r <= n)%N) : exists V, dblock (of_mx X) 0 r n (n - r) = Some V /\
  dims V n (n - r) /\ mx_of n (n - r) V = X *m Jx n r.
Proof.
rewrite /dblock /= subnKC // add0n !leqnn /=; eexists; split; [reflexivity|split=> //].
apply/matrixP => i j; rewrite !mxE /= add0n.
have hj : (r + j < n)%N by have := ltn_ord j; lia.
rewrite insubT ?ltn_ord //= => hi; rewrite insubT /= (bigD1 (Ordinal hj)) //= !mxE eqxx mulr1 big1.
  by rewrite addr0; congr (X _ _); apply: val_inj.
move=> k /eqP nk; rewrite !mxE; case: eqP => e; rewrite ?mulr0 //; case: nk; exact: val_inj.
Qed.

(* ---------------------------------------------------------------- pivots *)
Lemma pivot_out m n (q : qr R m n) i : (minn m n <= i)%N -> pivot q i = 0.
Proof.
rewrite /pivot /= => h; case: insubP => [i' _ ei|_]; last by rewrite normr0.
case: insubP => [j' _ ej|_]; last by rewrite normr0.
by have := ltn_ord i'; have := ltn_ord j'; rewrite ei ej; lia.
Qed.
Lemma pivot_in m n (q : qr R m n) (i : 'I_m) (j : 'I_n) : j = i :> nat -> pivot q i = `|q_R q i j|.
Proof. by move=> e; rewrite /pivot -[in X in ent _ _ X]e of_mxE. Qed.
Lemma pivot_mono m n (q : qr R m n) : pivoted (q_R q) -> forall i j, (i <= j)%N -> pivot q j <= pivot q i.
Proof.
move=> [_ h] i j le; case: (ltnP j (minn m n)) => [lj|/pivot_out -> //]; last exact: normr_ge0.
have [im [jm [i_n jn]]] : (i < m)%N /\ (j < m)%N /\ (i < n)%N /\ (j < n)%N by lia.
rewrite (@pivot_in _ _ q (Ordinal jm) (Ordinal jn)) // (@pivot_in _ _ q (Ordinal im) (Ordinal i_n)) //.
have := h (Ordinal im) (Ordinal i_n) (Ordinal jn) erefl le.
rewrite (bigD1 (Ordinal jm)) //= => hs.
rewrite -(@ler_pexpn2r _ 2) ?nnegrE ?normr_ge0 // !real_normK ?num_real //; apply: le_trans hs.
by rewrite ler_addl sumr_ge0 // => k _; rewrite sqr_ge0.
Qed.
Lemma maxpivot_ge0 m n (q : qr R m n) : 0 <= maxpivot q.
Proof. by rewrite /maxpivot; elim: (iota _ _) => //= x s IH; rewrite le_maxr IH orbT. Qed.
Lemma maxpivotE m n (q : qr R m n) : pivoted (q_R q) -> maxpivot q = pivot q 0.
Proof.
move=> h; rewrite /maxpivot; case: (posnP (minn m n)) => [e|pos]; first by rewrite e /= pivot_out // e.
apply/eqP; rewrite eq_le; apply/andP; split.
  elim: (iota _ _) => /= [|x s IH]; first exact: normr_ge0.
  by rewrite le_maxl IH pivot_mono.
by case: (minn m n) pos => // N _ /=; rewrite le_maxr lexx.
Qed.

Section One.
Variables (thr : R) (m n : nat) (A : 'M[R]_(m, n)) (q : qr R m n).
Hypothesis qok : qr_ok A q.
Let r := numrank thr q.

Lemma rank_le : (r <= m)%N /\ (r <= n)%N.
Proof.
have h : (r <= minn m n)%N by rewrite /r /numrank -{2}(size_iota 0 (minn m n)) count_size.
by split; lia.
Qed.
Lemma above i : (i < r)%N -> thr * maxpivot q < pivot q i.
Proof.
move=> h; have hN : (i < minn m n)%N by have [? ?] := rank_le; lia.
have := @count_prefix (fun i => thr * maxpivot q < pivot q i) _ _ i hN; rewrite -/(numrank thr q) -/r h => -> //.
by move=> a b le /lt_le_trans; apply; case: qok => _ _ _ p; apply: pivot_mono.
Qed.
Lemma below i : 0 <= thr -> (r <= i)%N -> pivot q i <= thr * maxpivot q.
Proof.
move=> thr0; case: (ltnP i (minn m n)) => [hN|/pivot_out -> _]; last by rewrite mulr_ge0 ?maxpivot_ge0.
rewrite leqNgt leNgt; have := @count_prefix (fun i => thr * maxpivot q < pivot q i) _ _ i hN; rewrite -/(numrank thr q) -/r => -> //.
by move=> a b le /lt_le_trans; apply; case: qok => _ _ _ p; apply: pivot_mono.
Qed.

Lemma colsq_dot k (M : 'M[R]_(m, n)) : colsq M k = dot (col k M) (col k M).
Proof. by rewrite /colsq dotE; apply: eq_bigr => i _; rewrite !mxE expr2. Qed.
(* the columns of R are as long as those of A, in another order *)
Lemma colsq_qr : exists s : 'S_n, forall j, colsq (q_R q) j = colsq A (s j).
Proof.
case: qok => oQ /is_perm_mxP[s es] e _; exists (s^-1)%g => j.
have -> : colsq A ((s^-1)%g j) = colsq (A *m q_P q) j.
  by apply: eq_bigr => i _; congr (_ ^+ 2); rewrite es -{2}[s]invgK -col_permE !mxE.
rewrite e !colsq_dot (_ : col j (q_Q q *m q_R q) = q_Q q *m col j (q_R q)); last by rewrite !colE mulmxA.
by rewrite /dot trmx_mul mulmxA -(mulmxA _ _ (q_Q q)) oQ mulmx1.
Qed.
Lemma pivot0_ge (i : 'I_m) j : colsq A j <= pivot q 0 ^+ 2.
Proof.
have [s hs] := colsq_qr; have -> : colsq A j = colsq (q_R q) ((s^-1)%g j) by rewrite hs permKV.
case: qok => _ _ _ [_ pvt]; have mp : (0 < m)%N by apply: leq_ltn_trans (ltn_ord i).
have np : (0 < n)%N by apply: leq_ltn_trans (ltn_ord j).
rewrite (@pivot_in _ _ q (Ordinal mp) (Ordinal np)) // real_normK ?num_real //.
exact: (pvt (Ordinal mp) (Ordinal np) ((s^-1)%g j) erefl isT).
Qed.
Lemma pivot0_col (i : 'I_m) (j : 'I_n) : exists j', pivot q 0 ^+ 2 = colsq A j'.
Proof.
have [s hs] := colsq_qr; have mp : (0 < m)%N by apply: leq_ltn_trans (ltn_ord i).
have np : (0 < n)%N by apply: leq_ltn_trans (ltn_ord j).
exists (s (Ordinal np)); rewrite -hs; case: qok => _ _ _ [tri _].
rewrite (@pivot_in _ _ q (Ordinal mp) (Ordinal np)) // real_normK ?num_real //.
rewrite /colsq (bigD1 (Ordinal mp)) //= big1 ?addr0 // => k nk; rewrite tri ?expr0n //=.
by case: k nk => -[|k].
Qed.

(* what Eigen drops: the rows of R past the rank *)
Definition dropped : 'M[R]_(m, n) := Jx m r *m ((Jx m r)^T *m q_R q).

Lemma droppedE i j : dropped i j = if (r <= i)%N then q_R q i j else 0.
Proof.
have [hm _] := rank_le.
have -> : dropped = q_R q - (pid_mx r : 'M_(m, r)) *m (pid_mx r : 'M_(r, m)) *m q_R q.
  by rewrite /dropped mulmxA -{2}(mul1mx (q_R q)) -mulmxBl; congr (_ *m _); rewrite -(pid_J hm) addrC addKr.
rewrite pid_mx_id // !mxE (bigD1 i) //= big1 => [|k nk].
  by rewrite !mxE eqxx addr0; case: (ltnP i r) => _ /=; rewrite ?mul1r ?mul0r ?subrr ?subr0.
by rewrite !mxE (negbTE (_ : i != k :> nat)) ?mul0r // eq_sym.
Qed.

(* every dropped column is short *)
Lemma dropped_col j : 0 <= thr -> colsq dropped j <= (thr * pivot q 0) ^+ 2.
Proof.
move=> thr0; case: qok => _ _ _ pv; have [tri pvt] := pv; rewrite -(maxpivotE pv).
have pos : 0 <= (thr * maxpivot q) ^+ 2 by rewrite sqr_ge0.
have [hm hn] := rank_le.
rewrite /colsq; case: (ltnP r (minn m n)) => hr; last first.
  rewrite big1 // => i _; rewrite droppedE; case: leqP => // hi; last by rewrite expr0n.
  by rewrite tri ?expr0n //; have := ltn_ord i; have := ltn_ord j; lia.
have [rm rn] : (r < m)%N /\ (r < n)%N by lia.
have bp : q_R q (Ordinal rm) (Ordinal rn) ^+ 2 <= (thr * maxpivot q) ^+ 2.
  rewrite -[X in X <= _]real_normK ?num_real // ler_pexpn2r ?nnegrE ?mulr_ge0 ?maxpivot_ge0 //.
  by rewrite -(@pivot_in _ _ q (Ordinal rm) (Ordinal rn)) // below.
case: (ltnP j r) => hj.
  rewrite big1 // => i _; rewrite droppedE; case: leqP => hi; last by rewrite expr0n.
  by rewrite tri ?expr0n //; lia.
apply: le_trans bp; apply: le_trans (pvt (Ordinal rm) (Ordinal rn) j erefl hj).
rewrite [X in _ <= X]big_mkcond /=; apply: ler_sum => i _; rewrite droppedE; by case: leqP => _; rewrite ?expr0n.
Qed.

Lemma clear_dropped : 0 <= thr -> clear_rank thr q -> dropped = 0.
Proof.
move=> thr0 cl; case: qok => _ _ _ [tri pvt]; have [hm hn] := rank_le.
case: (ltnP r (minn m n)) => hr; last first.
  apply/matrixP => i j; rewrite droppedE mxE; case: leqP => // hi.
  by rewrite tri //; have := ltn_ord i; have := ltn_ord j; lia.
have z : pivot q r = 0.
  apply/eqP; apply: contraT => /cl; by rewrite ltNge below.
have [rm rn] : (r < m)%N /\ (r < n)%N by lia.
have zz : q_R q (Ordinal rm) (Ordinal rn) = 0.
  by move: z; rewrite (@pivot_in _ _ q (Ordinal rm) (Ordinal rn)) // => /normr0_eq0.
apply/matrixP => i j; rewrite droppedE mxE; case: leqP => // hi.
case: (ltnP j i) => hj; first exact: tri.
have := pvt (Ordinal rm) (Ordinal rn) j erefl (leq_trans hi hj).
rewrite zz expr0n /= (bigD1 i) //= => le0; apply/eqP; rewrite -sqrf_eq0 eq_le sqr_ge0 andbT.
by apply: le_trans le0; rewrite ler_addl sumr_ge0 // => k _; rewrite sqr_ge0.
Qed.

Variable (T : 'M[R]_r) (Z : 'M[R]_n).
Hypothesis rok : rz_ok (q_R q) (T, Z).
Local Notation Q := (q_Q q).
Local Notation P := (q_P q).
Let c := @Cod _ m n r Q T Z P.

(* the matrix Eigen works with *)
Definition kept : 'M[R]_(m, n) := Q *m (pid_mx r *m T *m pid_mx r) *m Z *m P^T.

Lemma splitA : A = kept + Q *m dropped *m P^T.
Proof.
case: qok => oQ oP e _; case: rok => _ _ er; rewrite /= in er.
have [hm hn] := rank_le.
have -> : A = Q *m q_R q *m P^T by rewrite -e -mulmxA orth_r ?mulmx1 //; apply: perm_orth.
rewrite /kept -mulmxDl; congr (_ *m _); rewrite -(mulmxA Q) -mulmxDr; congr (_ *m _).
by rewrite -!mulmxA (mulmxA T) -er /dropped !mulmxA -mulmxDl pid_J // mul1mx.
Qed.

Let F : 'M[R]_(r, n) := (pid_mx r : 'M_(r, n)) *m Z *m P^T.
Let C : 'M[R]_(m, r) := Q *m (pid_mx r : 'M_(m, r)) *m T.
Lemma keptE : kept = C *m F. Proof. by rewrite /kept /C /F !mulmxA. Qed.
Lemma FFt : F *m F^T = 1%:M.
Proof.
case: qok => _ oP _ _; case: rok => _ oZ _; have [hm hn] := rank_le.
rewrite /F !trmx_mul trmxK !mulmxA -(mulmxA _ P^T) (perm_orth oP) mulmx1 -(mulmxA _ Z) (orth_r oZ) mulmx1.
by rewrite tr_pid_mx pid_mx_id // pid_mx_1.
Qed.
Let Ci : 'M[R]_(r, m) := invmx T *m (pid_mx r : 'M_(r, m)) *m Q^T.
Lemma CiC : Ci *m C = 1%:M.
Proof.
case: qok => oQ _ _ _; case: rok => uT _ _; have [hm hn] := rank_le; rewrite /= in uT.
rewrite /Ci /C !mulmxA -(mulmxA _ Q^T) oQ mulmx1 -(mulmxA (invmx T)) pid_mx_id // pid_mx_1 mulmx1.
by rewrite mulVmx.
Qed.
Lemma pinvE : pseudoInverse c = F^T *m Ci.
Proof. by rewrite /pseudoInverse /F /Ci /= !trmx_mul trmxK tr_pid_mx !mulmxA. Qed.

Lemma pinv_kept : is_mpinv kept (pseudoInverse c).
Proof.
case: qok => oQ _ _ _; case: rok => uT _ _; have [hm hn] := rank_le; rewrite /= in uT.
rewrite pinvE keptE.
have e1 : C *m F *m (F^T *m Ci) = C *m Ci by rewrite -mulmxA (mulmxA F) FFt mul1mx.
have e2 : F^T *m Ci *m (C *m F) = F^T *m F by rewrite -mulmxA (mulmxA Ci) CiC mul1mx.
have e3 : C *m Ci = Q *m (pid_mx r : 'M_(m, r)) *m (Q *m (pid_mx r : 'M_(m, r)))^T.
  rewrite /C /Ci trmx_mul tr_pid_mx !mulmxA -(mulmxA _ T) mulmxV // mulmx1 //.
split; rewrite ?e1 ?e2.
- by rewrite -mulmxA (mulmxA Ci) CiC mul1mx.
- by rewrite mulmxA -(mulmxA F^T) FFt mulmx1.
- by rewrite e3 trmx_mul trmxK.
- by rewrite trmx_mul trmxK.
Qed.

Lemma colsq_dropped j : exists j', colsq (A - kept) j = colsq dropped j'.
Proof.
case: qok => oQ oP _ _; have -> : A - kept = Q *m dropped *m P^T by rewrite {1}splitA addrC addKr.
case/is_perm_mxP: oP => s ->; rewrite tr_perm_mx; exists (s j).
rewrite !colsq_dot; have -> : col j (Q *m dropped *m perm_mx s^-1) = Q *m col (s j) dropped.
  rewrite -col_permE; apply/matrixP => i k; rewrite !mxE; by apply: eq_bigr => l _; rewrite !mxE.
by rewrite /dot trmx_mul mulmxA -(mulmxA _ Q^T) oQ mulmx1.
Qed.

Lemma kept_rank : \rank kept = r.
Proof.
rewrite keptE mxrankMfree; last by apply/row_freeP; exists F^T; exact: FFt.
apply/eqP; rewrite eqn_leq rank_leq_col /=; rewrite -{1}(mxrank1 R r) -CiC; exact: mxrankM_maxr.
Qed.

Lemma left_kept : left_null kept ((Jx m r)^T *m Q^T).
Proof.
case: qok => oQ _ _ _; have [hm hn] := rank_le; split.
- by rewrite keptE /C !mulmxA -(mulmxA _ Q^T) oQ mulmx1 pidJT // !mul0mx.
- by rewrite trmx_mul !trmxK mulmxA -(mulmxA _ Q^T) oQ mulmx1 JTJ.
move=> y ey; have yC : y *m C = 0 by rewrite -[C]mulmx1 -FFt (mulmxA C) -keptE mulmxA ey mul0mx.
have yQ : y *m Q *m (pid_mx r : 'M_(m, r)) = 0.
  case: rok => uT _ _; rewrite /= in uT; move/(congr1 (fun X => X *m invmx T)): yC.
  by rewrite mul0mx /C !mulmxA -(mulmxA _ T) mulmxV // mulmx1.
exists (y *m Q *m Jx m r); rewrite -{1}[y]mulmx1 -(orth_r oQ) !mulmxA; congr (_ *m _).
by rewrite -{1}[y *m Q]mulmx1 -(pid_J hm) mulmxDr !mulmxA yQ mul0mx add0r.
Qed.

Lemma ker_kept : kernel kept (P *m (Z^T *m Jx n r)).
Proof.
case: qok => _ /perm_orth oP _ _; case: rok => _ oZ _; rewrite /= in oZ; have [hm hn] := rank_le; split.
- by rewrite keptE /F !mulmxA -(mulmxA _ P^T) oP mulmx1 -(mulmxA _ Z) orth_r // mulmx1 -(mulmxA C) pidTJ // mulmx0.
- rewrite !trmx_mul !trmxK !mulmxA -(mulmxA _ P^T) oP mulmx1 -(mulmxA _ Z) orth_r // mulmx1; exact: JTJ.
move=> x ex; have Fx : F *m x = 0 by rewrite -[F]mul1mx -CiC -(mulmxA Ci C) -keptE -mulmxA ex mulmx0.
exists ((Jx n r)^T *m (Z *m (P^T *m x))).
rewrite -{1}[x]mul1mx -(orth_r oP) -!mulmxA; congr (_ *m _).
rewrite -{1}[P^T *m x]mul1mx -oZ -!mulmxA; congr (_ *m _).
rewrite -{1}[Z *m _]mul1mx -(pid_J hn) mulmxDl -!mulmxA.
by rewrite (mulmxA Z) (mulmxA (pid_mx r : 'M_(r, n))) (mulmxA _ Z) -/F Fx mulmx0 add0r.
Qed.
End One.
End P.
