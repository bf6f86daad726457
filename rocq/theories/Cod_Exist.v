(* Over a real closed field every matrix has the decompositions Cod_Spec asks of Eigen *)
From mathcomp Require Import all_ssreflect all_algebra all_fingroup.
From mathcomp Require Import zify.
From mathcomp.algebra_tactics Require Import ring.
From Verif Require Import LinAlg DMat DMatL Cod_Model Cod_Spec Cod_Proofs Cod_Cond.
Set Implicit Arguments.
Unset Strict Implicit.
Unset Printing Implicit Defensive.
Import Order.TTheory GRing.Theory Num.Theory.
Local Open Scope ring_scope.

Section E.
Variable R : rcfType.

(* reflection of v onto a multiple of e *)
Lemma householder n (v e : 'cV[R]_n) : dot e e = 1 -> exists H : 'M[R]_n, [/\ H^T = H, H *m H = 1%:M &
  H *m v = Num.sqrt (dot v v) *: e].
Proof.
move=> e1; set a := Num.sqrt _; have a2 : a * a = dot v v by rewrite -expr2 sqr_sqrtr // dot_ge0.
pose w := v - a *: e; have [w0|nw] := eqVneq w 0.
  exists 1%:M; rewrite trmx1 !mul1mx; split=> //; apply/eqP; by rewrite -subr_eq0 -/w w0.
have wp := dot_gt0 nw; have wn : dot w w != 0 by rewrite gt_eqF.
pose b := 2%:R / dot w w; exists (1%:M - b *: (w *m w^T)).
have sw : w^T *m w = (dot w w)%:M by rewrite [LHS]mx11_scalar.
have hw : (1%:M - b *: (w *m w^T)) *m w = - w.
  rewrite mulmxBl mul1mx -scalemxAl -mulmxA sw mul_mx_scalar scalerA mulfVK // scaler_nat mulr2n opprD addrA subrr sub0r //.
split.
- by rewrite linearB linearZ /= trmx1 trmx_mul trmxK.
- rewrite mulmxBr mulmx1 -scalemxAr mulmxA hw mulNmx scalerN opprK; by rewrite subrK.
have wv : dot w v + dot w v = dot w w.
  have dvw : dot v w = dot w v by rewrite dotC.
  have -> : dot w w = dot w v - a * dot w e.
    by rewrite {2}/w /dot mulmxBr -scalemxAr scB scZ.
  have d1 : dot w v = dot v v - a * dot e v by rewrite /dot /w trB trZ mulmxBl -scalemxAl scB scZ.
  have d2 : dot w e = dot v e - a by rewrite /dot /w trB trZ mulmxBl -scalemxAl scB scZ -/(dot e e) e1 mulr1.
  by rewrite d2 d1 (dotC e v) mulrBr a2; ring.
rewrite mulmxBl mul1mx -scalemxAl -mulmxA [w^T *m v]mx11_scalar -/(sc (w^T *m v)) -/(dot w v) mul_mx_scalar scalerA.
have -> : b * dot w v = 1.
  by rewrite /b mulrAC mulr_natl mulr2n wv divff.
by rewrite scale1r /w opprB addrC subrK.
Qed.

Lemma colsqE m n (A : 'M[R]_(m, n)) k : colsq A k = dot (col k A) (col k A).
Proof. by rewrite /colsq dotE; apply: eq_bigr => i _; rewrite !mxE expr2. Qed.
Lemma colsq_orth m n (Q : 'M[R]_m) (A : 'M[R]_(m, n)) k : orthogonal Q -> colsq (Q *m A) k = colsq A k.
Proof.
move=> o; rewrite !colsqE (_ : col k (Q *m A) = Q *m col k A); last by rewrite !colE mulmxA.
by rewrite /dot trmx_mul mulmxA -(mulmxA _ _ Q) o mulmx1.
Qed.
Lemma colsq_perm m n (A : 'M[R]_(m, n)) (P : 'M[R]_n) k : is_perm_mx P -> exists k', colsq (A *m P) k = colsq A k'.
Proof.
case/is_perm_mxP => s ->; exists ((s^-1)%g k).
by apply: eq_bigr => i _; congr (_ ^+ 2); rewrite -{1}[s]invgK -col_permE !mxE.
Qed.

Lemma qr_exists m n (A : 'M[R]_(m, n)) : exists q, qr_ok A q.
Proof.
elim: m n A => [|m IH] n A.
  exists (QR 1%:M A 1%:M); split=> /=; rewrite ?mul1mx ?mulmx1 ?is_perm_mx1 //; first by rewrite /orthogonal trmx1 mul1mx.
  by split=> -[].
case: n A => [|n] A.
  exists (QR 1%:M A 1%:M); split=> /=; rewrite ?mul1mx ?mulmx1 ?is_perm_mx1 //; first by rewrite /orthogonal trmx1 mul1mx.
  by split=> [i []|i k []].
have [j0 hj] : exists j0, forall j, colsq A j <= colsq A j0.
  by case: (@Order.TotalTheory.arg_maxP _ _ _ (0 : 'I_n.+1) xpredT (colsq A) isT) => j0 _ h; exists j0 => j; apply: h.
pose s := tperm (0 : 'I_n.+1) j0; pose A1 : 'M[R]_(1 + m, 1 + n) := A *m perm_mx s.
pose e : 'cV[R]_(1 + m) := delta_mx 0 0.
have e1 : dot e e = 1 by rewrite dotE (bigD1 0) //= !mxE !eqxx mul1r big1 ?addr0 // => i /negbTE ni; rewrite mxE ni mul0r.
have [H [Hs HH Hv]] := householder (col 0 A1) e1.
have oH : orthogonal H by rewrite /orthogonal Hs.
set a := Num.sqrt _ in Hv.
have a2 : a ^+ 2 = colsq A j0.
  rewrite /a sqr_sqrtr ?dot_ge0 // -colsqE; apply: eq_bigr => i _; congr (_ ^+ 2).
  by rewrite /A1 -[s]invgK -col_permE !mxE /s tpermV tpermL.
have bl : H *m A1 = block_mx a%:M (ursubmx (H *m A1)) 0 (drsubmx (H *m A1)).
  rewrite -{1}[H *m A1]submxK; congr block_mx; apply/matrixP => i j; rewrite !mxE.
    have := congr1 (fun M : 'cV_(1 + m) => M (lshift m i) 0) Hv; rewrite !mxE => hh.
    rewrite !ord1 eqxx mulr1n; move: hh; rewrite !ord1 (_ : lshift m 0 = 0) ?eqxx ?mulr1; last exact: val_inj.
    move=> hh; rewrite -[RHS]hh; apply: eq_bigr => k _; rewrite [col _ _ _ _]mxE; congr (_ * A1 _ _).
    by apply: val_inj.
  have := congr1 (fun M : 'cV_(1 + m) => M (rshift 1 i) 0) Hv; rewrite !mxE => hh.
  move: hh; rewrite (_ : (rshift 1 i == 0) = false) ?mulr0; last by [].
  move=> hh; rewrite -[RHS]hh; apply: eq_bigr => k _; rewrite [col _ _ _ _]mxE; congr (_ * A1 _ _).
  by apply: val_inj; rewrite /= ord1.
set b := ursubmx _ in bl; set B := drsubmx _ in bl.
have [[Q' S' P'] [oQ pP eB [tri pv]]] := IH _ B; rewrite /= in oQ pP eB tri pv.
pose Q : 'M[R]_(1 + m) := H *m block_mx 1%:M 0 0 Q'.
pose P : 'M[R]_(1 + n) := (perm_mx s : 'M[R]_(1 + n)) *m block_mx 1%:M 0 0 P'.
pose S : 'M[R]_(1 + m, 1 + n) := block_mx a%:M (b *m P') 0 S'.
have oQ2 : orthogonal Q.
  rewrite /orthogonal /Q trmx_mul Hs -!mulmxA (mulmxA H) HH mul1mx tr_block_mx trmx1 !trmx0 mulmx_block.
  by rewrite !mulmx0 !mul0mx !addr0 !add0r mul1mx oQ -scalar_mx_block.
have pP2 : is_perm_mx P.
  case/is_perm_mxP: pP => s' es; rewrite /P es.
  have -> : block_mx 1%:M 0 0 (perm_mx s') = perm_mx (lift0_perm s') :> 'M[R]_(1 + n) by rewrite -lift0_mx_perm.
  by rewrite -perm_mxM perm_mx_is_perm.
have eAP : (A : 'M_(1 + m, 1 + n)) *m P = Q *m S.
  rewrite /P mulmxA -/A1 -[A1]mul1mx -HH -(mulmxA H) bl -mulmxA mulmx_block !mulmx0 !mul0mx !addr0 !add0r mulmx1 eB.
  by rewrite /Q /S -mulmxA mulmx_block !mulmx0 !mul0mx !addr0 !add0r !mul1mx.
exists (QR Q S P); split=> //=; split.
  move=> i j; case: (@split_ordP 1 m i) => i' ->; case: (@split_ordP 1 n j) => j' -> /=; rewrite ?ord1 //.
    by rewrite (@block_mxEdl _ _ _ _ _ a%:M (b *m P') 0 S') mxE.
  by rewrite (@block_mxEdr _ _ _ _ _ a%:M (b *m P') 0 S'); apply: tri.
move=> i k j; case: (@split_ordP 1 m i) => i' ->; case: (@split_ordP 1 n k) => k' -> //=; rewrite ?ord1 //= => ek.
  move=> _; rewrite (@block_mxEul _ _ _ _ _ a%:M (b *m P') 0 S') mxE eqxx mulr1n a2 -/S.
  apply: le_trans (_ : colsq S j <= _); last first.
    rewrite -(colsq_orth _ _ oQ2) -eAP; by have [j' ->] := colsq_perm A j pP2.
  by rewrite /colsq; rewrite le_eqVlt; apply/orP; left; apply/eqP/eq_bigl => l; rewrite leq0n.
case: (@split_ordP 1 n j) => j' -> //= lj; rewrite ?ord1 // in lj *.
rewrite (@block_mxEdr _ _ _ _ _ a%:M (b *m P') 0 S').
have ek' : k' = i' :> nat by lia. have lj' : (i' <= j')%N by lia.
apply: le_trans (pv i' k' j' ek' lj').
rewrite big_mkcond (@big_split_ord _ _ _ 1 m) /= big1 ?add0r; last by move=> l _; rewrite ord1.
rewrite [X in _ <= X]big_mkcond /=; apply: ler_sum => l _.
by rewrite (@block_mxEdr _ _ _ _ _ a%:M (b *m P') 0 S') leq_add2l.
Qed.

Lemma rz_exists m n r (S : 'M[R]_(m, n)) : (r <= m)%N -> (r <= n)%N ->
  (forall (i : 'I_m) (j : 'I_n), (j < i)%N -> S i j = 0) ->
  (forall (i : 'I_m) (j : 'I_n), (i < r)%N -> j = i :> nat -> S i j != 0) -> exists TZ, @rz_ok _ m n r S TZ.
Proof.
move=> rm rn tri dia; pose S1 := (pid_mx r : 'M_(r, m)) *m S.
have uL : lead r S \in unitmx by apply: lead_unit.
have [[Q U P] [oQ pP e [triU _]]] := qr_exists S1^T; rewrite /= in oQ pP e triU.
have eS : S1 = P *m (U^T *m (pid_mx r : 'M_(n, r))) *m (pid_mx r : 'M_(r, n)) *m Q^T.
  have -> : P *m (U^T *m (pid_mx r : 'M_(n, r))) *m (pid_mx r : 'M_(r, n)) = P *m U^T.
    rewrite -!mulmxA; congr (_ *m _); rewrite pid_mx_id //.
    apply/matrixP => i j; rewrite mxE (bigD1 j) //= !mxE eqxx big1 ?addr0.
      case: ltnP => h; rewrite ?mulr1 ?mulr0 // triU //; exact: leq_trans (ltn_ord i) h.
    by move=> k nk; rewrite !mxE (_ : (k == j :> nat) = false) ?mulr0 //; apply/negbTE.
  have -> : U^T = (S1^T *m P)^T *m Q by rewrite e trmx_mul -mulmxA oQ mulmx1.
  by rewrite trmx_mul trmxK !mulmxA orth_r ?mul1mx -?mulmxA ?orth_r ?mulmx1 //; apply: perm_orth.
exists (P *m (U^T *m (pid_mx r : 'M_(n, r))), Q^T); split=> //=.
  rewrite -row_full_unit -col_leq_rank; apply: leq_trans (_ : \rank S1 <= _)%N.
    by rewrite -{1}(mxrank_unit uL) mxrankM_maxl.
  by rewrite eS -mulmxA mxrankM_maxl.
by rewrite /orthogonal trmxK orth_r.
Qed.

(* the factorisations as functions *)
Definition qr_okb m n (A : 'M[R]_(m, n)) (q : 'M[R]_m * 'M[R]_(m, n) * 'M[R]_n) : bool :=
  [&& q.1.1^T *m q.1.1 == 1%:M, is_perm_mx q.2, A *m q.2 == q.1.1 *m q.1.2,
   [forall i : 'I_m, forall j : 'I_n, (j < i)%N ==> (q.1.2 i j == 0)] &
   [forall i : 'I_m, forall k : 'I_n, forall j : 'I_n, (k == i :> nat) ==> (i <= j)%N ==>
      (\sum_(l < m | (i <= l)%N) q.1.2 l j ^+ 2 <= q.1.2 i k ^+ 2)]].
Lemma qr_okP m n (A : 'M[R]_(m, n)) Q S P : qr_okb A (Q, S, P) <-> qr_ok A (QR Q S P).
Proof.
split=> [/and5P[/eqP ? ? /eqP ? h1 h2]|[/= ? ? ? [h1 h2]]].
  split=> //=; split=> [i j h|i k j h h'].
    by apply/eqP; have /forallP/(_ i)/forallP/(_ j)/implyP := h1; apply.
  by have /forallP/(_ i)/forallP/(_ k)/forallP/(_ j)/implyP := h2; move/(_ _)/implyP; apply=> //; apply/eqP.
apply/and5P; split=> //=; try exact/eqP.
  by apply/forallP => i; apply/forallP => j; apply/implyP => h; apply/eqP/h1.
by apply/forallP => i; apply/forallP => k; apply/forallP => j; apply/implyP => /eqP e; apply/implyP => h; apply: h2.
Qed.
Lemma qr_ex m n (A : 'M[R]_(m, n)) : exists q, qr_okb A q.
Proof. by have [[Q S P] h] := qr_exists A; exists (Q, S, P); apply/qr_okP. Qed.
Definition qr_of m n (A : 'M[R]_(m, n)) : qr R m n := let q := xchoose (qr_ex A) in QR q.1.1 q.1.2 q.2.
Lemma qr_of_ok m n (A : 'M[R]_(m, n)) : qr_ok A (qr_of A).
Proof. by rewrite /qr_of; apply/qr_okP; have := xchooseP (qr_ex A); case: (xchoose _) => -[]. Qed.

Definition rz_okb m n r (S : 'M[R]_(m, n)) (TZ : 'M[R]_r * 'M[R]_n) : bool :=
  [&& TZ.1 \in unitmx, TZ.2^T *m TZ.2 == 1%:M &
   (pid_mx r : 'M_(r, m)) *m S == TZ.1 *m (pid_mx r : 'M_(r, n)) *m TZ.2].
Lemma rz_okP m n r (S : 'M[R]_(m, n)) TZ : reflect (@rz_ok _ m n r S TZ) (rz_okb S TZ).
Proof. by apply: (iffP and3P) => -[h1 h2 h3]; split=> //; apply/eqP. Qed.
Definition rz_cond m n r (S : 'M[R]_(m, n)) : bool :=
  [&& (r <= m)%N, (r <= n)%N, [forall i : 'I_m, forall j : 'I_n, (j < i)%N ==> (S i j == 0)] &
   [forall i : 'I_m, forall j : 'I_n, (i < r)%N ==> (j == i :> nat) ==> (S i j != 0)]].
Lemma rz_ex m n r (S : 'M[R]_(m, n)) : rz_cond r S -> exists TZ : 'M[R]_r * 'M[R]_n, rz_okb S TZ.
Proof.
case/and4P => rm rn h1 h2; have [|i j hi e|TZ /rz_okP h] := @rz_exists m n r S rm rn; last by exists TZ.
  by move=> i j h; apply/eqP; have /forallP/(_ i)/forallP/(_ j)/implyP := h1; apply.
by have /forallP/(_ i)/forallP/(_ j)/implyP/(_ hi)/implyP := h2; apply; apply/eqP.
Qed.
Definition rz_of m n r (S : 'M[R]_(m, n)) : 'M[R]_r * 'M[R]_n :=
  if Sumbool.sumbool_of_bool (rz_cond r S) is left h then xchoose (rz_ex h) else (0, 0).
Lemma rz_of_ok m n r (S : 'M[R]_(m, n)) : rz_cond r S -> @rz_ok _ m n r S (rz_of r S).
Proof. by rewrite /rz_of => h; case: Sumbool.sumbool_of_bool => [h'|]; [apply/rz_okP; exact: xchooseP|rewrite h]. Qed.

(* Eigen can keep its promises: for all matrices and all thresholds at once *)
Theorem eigen_exists : exists qrf rzf, forall t m n (A : 'M[R]_(m, n)), 0 <= t -> eigen_ok qrf rzf t A.
Proof.
exists qr_of, rz_of => t m n A t0; split; first exact: qr_of_ok.
have qo := qr_of_ok A; have [_ _ _ [tri _]] := qo; have [rm rn] := @rank_le _ t _ _ (qr_of A).
apply: rz_of_ok; apply/and4P; split=> //.
  by apply/forallP => i; apply/forallP => j; apply/implyP => h; apply/eqP/tri.
apply/forallP => i; apply/forallP => j; apply/implyP => h; apply/implyP => /eqP e.
have := above qo h; rewrite (pivot_in _ e) -normr_gt0; apply: le_lt_trans.
by rewrite mulr_ge0 ?maxpivot_ge0.
Qed.
End E.
