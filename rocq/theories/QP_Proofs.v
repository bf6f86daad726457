(* Proofs about the task QP, the hierarchical loop and the redistribution QP. *)
From mathcomp Require Import all_ssreflect all_algebra.
From mathcomp Require Import zify.
From mathcomp.algebra_tactics Require Import ring.
From Verif Require Import DMat DMatL Cone_Model Cone_Spec Cone_Proofs Cone_Props QP_Model QP_Spec.
Set Implicit Arguments.
Unset Strict Implicit.
Unset Printing Implicit Defensive.
Import Order.TTheory GRing.Theory Num.Theory.
Local Open Scope ring_scope.

Section QPProofs.
Variable R : realFieldType.
Local Notation dm := (dm R).
Local Notation pcontact := (pcontact R).

Lemma tot_plane (cc : seq pcontact) : List.Forall (fun c => p_on c -> plane c) cc ->
  total_contact_dof cc = (6 * size (actives cc))%N /\
  contact_constraint_size cc = (10 * size (actives cc))%N.
Proof.
rewrite /total_contact_dof /contact_constraint_size /actives.
elim: cc => [|c cc IH] pl //=; inversion pl as [|x y px ps e]; subst.
have [h1 h2] := IH ps; case: (boolP (p_on c)) => // /px[pd pn].
by rewrite /= h1 h2 pd pn !mulnS.
Qed.

(* the constraint blocks *)
Lemma loop_cone (cc : seq pcontact) d : List.Forall (fun c => p_on c -> plane c) cc ->
  let K := size (actives cc) in
  exists A B, [/\ constraint_loop cc 0 0 (dzero R (10 * K) (6 * K)) (dzero R (6 * K) (6 * K)) = Some (A, B),
    dims A (10 * K) (6 * K), dims B (6 * K) (6 * K) &
    forall y : 'cV[R]_(6 * K),
      (forall i, 0 <= (mx_of (10 * K) (6 * K) A *m mx_of (6 * K) (6 * K) B *m y) i 0) <->
      (forall k, (k < K)%N -> in_cone (nth d (actives cc) k)
         (blk3 (fun j => ent (of_mx y) j 0) (6 * k)) (blk3 (fun j => ent (of_mx y) j 0) (6 * k + 3)))].
Proof.
move=> pl K; have [C [eC [nC cC cone]]] := C08_constraint_matrix_is_cone d pl.
have pl' i : (i < size cc)%N -> p_on (nth d cc i) -> plane (nth d cc i).
  by elim: pl i => [|c l pc _ IH] [|i] //=; apply: IH.
have [A [B [e [[nA cA nB cB] _]]]] :
    exists A B, constraint_loop cc 0 0 (dzero R ((4 + 6) * K) (6 * K)) (dzero R (6 * K) (6 * K)) = Some (A, B)
    /\ CInv K d (actives cc) A B.
  have := @loop_ok R K d cc [::] _ _ (@CInv0 R K d); rewrite /= !muln0; apply => //.
  by move=> i; rewrite mem_filter mem_iota /= => /andP[oi li]; apply: pl'.
exists A, B; split=> // y.
move: eC; rewrite /getContactConstraintMatrix e => eC.
have dA : dims (dopp A) (10 * K) (6 * K) by [].
have dB : dims B (6 * K) (6 * K) by [].
have [C' [eC' _ mC]] := dmul_mx dA dB.
rewrite eC in eC'; case: eC' => eC'; rewrite -{C'}eC' in mC.
have rowE i (li : (i < 10 * K)%N) : rowdot C i (fun j => ent (of_mx y) j 0) =
   - (mx_of (10 * K) (6 * K) A *m mx_of (6 * K) (6 * K) B *m y) (Ordinal li) 0.
  rewrite -[i]/(val (Ordinal li)) (@rowdot_mx R C (10 * K) (6 * K)) // mC dopp_mx.
  have -> : col_of (6 * K) (fun j => ent (of_mx y) j 0) = y.
    apply/matrixP => a b; rewrite mxE ord1 -[0%N]/(val (0 : 'I_1)) of_mxE //.
  by rewrite !mulNmx mxE.
rewrite -cone nC; split=> h.
  by move=> i li; rewrite (rowE i li) oppr_le0.
move=> [i li]; have := h i li; by rewrite (rowE i li) oppr_le0.
Qed.

Lemma rightCols_mx (M : dm) k m : dims M k (6 + m) ->
  exists Z, [/\ rightCols M m = Some Z, dims Z k m & mx_of k m Z = rsubmx (mx_of k (6 + m) M)].
Proof.
move=> [rM cM]; rewrite /rightCols cM leq_addl /dblock rM cM addnK add0n !leqnn /=.
eexists; split=> //; apply/matrixP => i j; rewrite !mxE /=; congr (ent M _ _).
Qed.

Lemma optblock (A : dm) i t h c (B : dm) : ((0 < c)%N -> dims B h c) ->
  (i + h <= nr A)%N -> (t + c <= nc A)%N ->
  exists A', [/\ (if (0 < c)%N then blockw A i t h c B else Some A) = Some A',
    nr A' = nr A, nc A' = nc A &
    forall a b, ent A' a b = if ((i <= a < i + h) && (t <= b < t + c))%N then ent B (a - i) (b - t) else ent A a b].
Proof.
move=> dB l1 l2; case: (posnP c) => [->|cp].
  exists A; split=> // a b; rewrite addn0.
  have -> : (t <= b < t)%N = false by lia.
  by rewrite andbF.
have [rB cB] := dB cp.
have [A' e] := blockw_some rB cB l1 l2; exists A'.
by rewrite e; case/blockwP: e => _ [? ? ?].
Qed.

(* a row of a matrix whose row i consists of row a of B (t columns) and row a of C (c columns) *)
Lemma two_blocks (A B C : dm) i a t c m (x : nat -> R) (ha : (a < m)%N) : nc A = (t + c)%N ->
  (forall b, (b < t)%N -> ent A i b = ent B a b) ->
  (forall b, (b < c)%N -> ent A i (t + b)%N = ent C a b) ->
  rowdot A i x = (mx_of m t B *m col_of t x + mx_of m c C *m col_of c (fun j => x (t + j)%N)) (Ordinal ha) 0.
Proof.
move=> cA hB hC; rewrite /rowdot cA sum_split mxE; congr (_ + _).
  rewrite mxE sum_ord; apply: eq_bigr => j _; rewrite !mxE hB //.
rewrite mxE sum_ord; apply: eq_bigr => j _; rewrite !mxE hC //.
Qed.

Lemma le_abs (x l : R) : `|x| <= l <-> x <= l /\ - x <= l.
Proof. exact: le_norm. Qed.

(* the limit rows *)
Lemma limit_rows_ok m t c (Nt NwJw lim tp A ub : dm) lb nrow :
  dims Nt m t -> ((0 < c)%N -> dims NwJw m c) -> dims lim m 1 -> dims tp m 1 ->
  dims A nrow (t + c) -> dims ub nrow 1 -> lsize lb = nrow -> (2 * m <= nrow)%N ->
  exists A' ub' lb', [/\ limit_rows m t c Nt NwJw lim tp A ub lb = Some (A', ub', lb'),
    dims A' nrow (t + c), dims ub' nrow 1, lsize lb' = nrow &
    [/\ forall i (x : nat -> R) (li : (i < m)%N), rowdot A' i x =
          (mx_of m t Nt *m col_of t x + mx_of m c NwJw *m col_of c (fun j => x (t + j)%N)) (Ordinal li) 0,
        forall i (x : nat -> R) (li : (i < m)%N), rowdot A' (m + i) x =
          - (mx_of m t Nt *m col_of t x + mx_of m c NwJw *m col_of c (fun j => x (t + j)%N)) (Ordinal li) 0,
        forall i, (i < m)%N -> ent ub' i 0 = ent lim i 0 - ent tp i 0 /\ ent ub' (m + i)%N 0 = ent lim i 0 + ent tp i 0
      & (forall i, (i < 2 * m)%N -> lent lb' i = None) /\
        forall i, (2 * m <= i)%N -> lent lb' i = lent lb i]].
Proof.
move=> [rN cN] dW dlim dtp [rA cA] [rU cU] sL le.
rewrite /limit_rows.
have [A1 e1] : exists A1, blockw A 0 0 m t Nt = Some A1 by apply: blockw_some; rewrite ?rA ?cA //=; lia.
rewrite e1; case/blockwP: e1 => _ [r1 c1 E1].
have [A2 [-> r2 c2 E2]] : exists A', [/\ (if (0 < c)%N then blockw A1 0 t m c NwJw else Some A1) = Some A',
    nr A' = nr A1, nc A' = nc A1 & forall a b, ent A' a b =
      if ((0 <= a < 0 + m) && (t <= b < t + c))%N then ent NwJw (a - 0) (b - t) else ent A1 a b].
  by apply: optblock => //; rewrite ?r1 ?rA ?c1 ?cA //; lia.
have [u [-> [ru cu] mu]] := dsub_mx dlim dtp.
have [ub1 e3] : exists ub1, blockw ub 0 0 m 1 u = Some ub1 by apply: blockw_some; rewrite ?rU ?cU //=; lia.
rewrite /segw e3; case/blockwP: e3 => _ [r3 c3 E3].
have [A3 e4] : exists A3, blockw A2 m 0 m t (dopp Nt) = Some A3.
  by apply: blockw_some; rewrite ?r2 ?c2 ?r1 ?c1 ?rA ?cA //=; lia.
rewrite e4; case/blockwP: e4 => _ [r4 c4 E4].
have [A4 [-> r5 c5 E5]] : exists A', [/\ (if (0 < c)%N then blockw A3 m t m c (dopp NwJw) else Some A3) = Some A',
    nr A' = nr A3, nc A' = nc A3 & forall a b, ent A' a b =
      if ((m <= a < m + m) && (t <= b < t + c))%N then ent (dopp NwJw) (a - m) (b - t) else ent A3 a b].
  by apply: optblock => //; rewrite ?r4 ?c4 ?r2 ?c2 ?r1 ?rA ?c1 ?cA //; lia.
have [v [-> [rv cv] mv]] := dadd_mx dlim dtp.
have [ub2 e6] : exists ub2, blockw ub1 m 0 m 1 v = Some ub2.
  by apply: blockw_some; rewrite ?r3 ?c3 ?rU ?cU //=; lia.
rewrite e6; case/blockwP: e6 => _ [r6 c6 E6].
rewrite /lsetinf sL add0n le; do 3 eexists; split; first by [].
- by rewrite /dims r5 r4 r2 r1 c5 c4 c2 c1.
- by rewrite /dims r6 r3 c6 c3.
- by [].
split.
- move=> i x li; apply: two_blocks; first by rewrite c5 c4 c2 c1.
  + move=> b lb'; rewrite E5 E4 E2 E1.
    have -> : (m <= i < m + m)%N = false by lia.
    have -> : (t <= b < t + c)%N = false by lia.
    by rewrite !andFb andbF add0n li /= lb' !subn0.
  + move=> b lb'; rewrite E5 E4 E2.
    have -> : (m <= i < m + m)%N = false by lia.
    have -> : (t <= t + b < t + c)%N by lia.
    by rewrite !andFb add0n li /= subn0 addKn.
- move=> i x li; rewrite (@two_blocks _ (dopp Nt) (dopp NwJw) _ i t c m _ li).
  + by rewrite !dopp_mx !mulNmx -opprD mxE.
  + by rewrite c5 c4 c2 c1.
  + move=> b lb'; rewrite E5 E4.
    have -> : (m <= m + i < m + m)%N by lia.
    have -> : (t <= b < t + c)%N = false by lia.
    by rewrite andbF /= lb' addKn subn0.
  + move=> b lb'; rewrite E5.
    have -> : (m <= m + i < m + m)%N by lia.
    have -> : (t <= t + b < t + c)%N by lia.
    by rewrite /= !addKn.
- move=> i li; split; rewrite E6 ?E3.
  + have -> : (m <= i < m + m)%N = false by lia.
    rewrite /= add0n li subn0 -[i]/(val (Ordinal li)).
    by have := congr1 (fun M : 'cV_m => M (Ordinal li) 0) mu; rewrite !mxE.
  + have -> : (m <= m + i < m + m)%N by lia.
    rewrite /= addKn -[i]/(val (Ordinal li)).
    by have := congr1 (fun M : 'cV_m => M (Ordinal li) 0) mv; rewrite !mxE.
- split=> i li /=; first by rewrite li.
  by have -> : (i < 2 * m)%N = false by lia.
Qed.

Lemma lsetinf_some (lb : lbv R) i h : (i + h <= lsize lb)%N ->
  exists lb', [/\ lsetinf lb i h = Some lb', lsize lb' = lsize lb &
    forall k, lent lb' k = if (i <= k < i + h)%N then None else lent lb k].
Proof. by move=> le; rewrite /lsetinf le; eexists; split. Qed.

Section Task.
Variables (rd : rdata R) (m K t : nat) (d : pcontact) (s : tspace R) (Nprev tprev : dm).
Hypothesis rdok : rd_sized rd m K.
Hypothesis tsok : ts_sized m t s.
Hypothesis dN : dims Nprev m m.
Hypothesis dt : dims tprev m 1.
Local Notation c := (6 * K - 6)%N.

Definition tau_of (x : nat -> R) : 'cV[R]_m :=
  mx_of m 1 tprev + level_torque (mx_of m m Nprev) s (col_of t x)
  + mx_of m c (r_NwJw rd) *m col_of c (fun j => x (t + j)%N).

Lemma TaskQP_ok : exists q, [/\ TaskQP rd s Nprev tprev = Some q, qp_wf q (t + c),
  forall i j, ent (q_H q) i j = ((i < t)%N && (j < t)%N && (i == j))%:R,
  forall i, ent (q_g q) i 0 = 0 &
  forall x, qp_feasible q x <-> admissible rd d K (tau_of x)].
Proof.
case: rdok => rm sK pl dlim [dJ dP _ dW0].
case: tsok => df dJk dL.
have [tot ccs] := tot_plane pl; rewrite sK in tot ccs.
have cW : (0 < c)%N -> dims (r_NwJw rd) m c by move=> h; apply: dW0; lia.
rewrite /TaskQP rm tot ccs (proj1 df).
set tl := if r_lset rd then (2 * m)%N else 0%N.
set nrow := (10 * K + tl)%N.
have [H e1] : exists H, blockw (dzero R (t + c) (t + c)) 0 0 t t (dident R t) = Some H.
  by apply: blockw_some => //=; lia.
rewrite e1; case/blockwP: e1 => _ [rH cH EH].
have [N1 [-> d1 m1]] := dmul_mx dN dJk.
have [Nt [-> dNt mNt]] := dmul_mx d1 dL.
have [Nf [-> dNf mNf]] := dmul_mx dNt df.
have [tp [-> dtp mtp]] := dadd_mx dt dNf.
have [A0 [ub0 [lb0 [-> dA0 dU0 sL0 lim0]]]] : exists A0 ub0 lb0,
  [/\ (if r_lset rd then limit_rows m t c Nt (r_NwJw rd) (r_lim rd) tp (dzero R nrow (t + c)) (dzero R nrow 1) (lzero R nrow)
       else Some (dzero R nrow (t + c), dzero R nrow 1, lzero R nrow)) = Some (A0, ub0, lb0),
      dims A0 nrow (t + c), dims ub0 nrow 1, lsize lb0 = nrow &
   r_lset rd ->
    [/\ forall i (x : nat -> R) (li : (i < m)%N), rowdot A0 i x =
          (mx_of m t Nt *m col_of t x + mx_of m c (r_NwJw rd) *m col_of c (fun j => x (t + j)%N)) (Ordinal li) 0,
        forall i (x : nat -> R) (li : (i < m)%N), rowdot A0 (m + i) x =
          - (mx_of m t Nt *m col_of t x + mx_of m c (r_NwJw rd) *m col_of c (fun j => x (t + j)%N)) (Ordinal li) 0,
        forall i, (i < m)%N -> ent ub0 i 0 = ent (r_lim rd) i 0 - ent tp i 0 /\
                              ent ub0 (m + i)%N 0 = ent (r_lim rd) i 0 + ent tp i 0
      & forall i, (i < 2 * m)%N -> lent lb0 i = None]].
  rewrite /nrow /tl; case ls : (r_lset rd); last by do 3 eexists; split.
  have [A' [ub' [lb' [-> ? ? ? [h1 h2 h3 [h4 _]]]]]] := @limit_rows_ok m t c Nt (r_NwJw rd) (r_lim rd) tp
    (dzero R (10 * K + 2 * m) (t + c)) (dzero R (10 * K + 2 * m) 1) (lzero R (10 * K + 2 * m)) (10 * K + 2 * m)
    dNt cW (dlim ls) dtp (conj erefl erefl) (conj erefl erefl) erefl (leq_addl _ _).
  by exists A', ub', lb'.
have [Ac [Ar [e2 dAc dAr cone]]] := loop_cone d pl; rewrite sK in e2 dAc dAr cone.
rewrite e2.
have [JR [-> dJR mJR]] := rightCols_mx dJ.
have [AR [-> dAR mAR]] := dmul_mx dAc dAr.
have [At [-> dAt mAt]] := dmul_mx dAR dJR.
have [AN [-> dAN mAN]] := dmul_mx (dopp_dims dAt) dNt.
have [rA0 cA0] := dA0.
have [A1 e3] : exists A1, blockw A0 tl 0 (10 * K) t AN = Some A1.
  by apply: blockw_some; rewrite ?rA0 ?cA0 ?(proj1 dAN) ?(proj2 dAN) // /nrow; lia.
rewrite e3; case/blockwP: e3 => _ [r3 c3 E3].
have [AW [A2 [-> r4 c4 E4 mAW]]] : exists AW A2, [/\
    (if (0 < c)%N then match dmul (dopp At) (r_NwJw rd) with Some AW => blockw A1 tl t (10 * K) c AW | None => None end
     else Some A1) = Some A2, nr A2 = nr A1, nc A2 = nc A1,
    forall a b, ent A2 a b = if ((tl <= a < tl + 10 * K) && (t <= b < t + c))%N then ent AW (a - tl) (b - t) else ent A1 a b
    & mx_of (10 * K) c AW = - mx_of (10 * K) m At *m mx_of m c (r_NwJw rd)].
  case: (posnP c) => [c0|cp].
    exists (dzero R 0 0), A1; split=> //.
      move=> a b; have -> : (t <= b < t + c)%N = false by rewrite c0; lia.
      by rewrite andbF.
    by apply/matrixP => i j; move: (ltn_ord j); rewrite {2}c0.
  have [AW [-> dAW mAW]] := dmul_mx (dopp_dims dAt) (cW cp).
  have [A2 e4] : exists A2, blockw A1 tl t (10 * K) c AW = Some A2.
    by apply: blockw_some; rewrite ?r3 ?c3 ?rA0 ?cA0 ?(proj1 dAW) ?(proj2 dAW) // /nrow; lia.
  rewrite e4; case/blockwP: e4 => _ [? ? ?]; exists AW, A2; split=> //.
  by rewrite mAW dopp_mx.
have [RP [-> dRP mRP]] := dmul_mx dAr dP.
have [CRP [-> dCRP mCRP]] := dmul_mx dAc dRP.
have [Att [-> dAtt mAtt]] := dmul_mx dAt dtp.
have [bA [-> dbA mbA]] := dsub_mx dCRP dAtt.
have [lb1 [-> sL1 EL1]] : exists lb', [/\ lsetinf lb0 tl (10 * K) = Some lb', lsize lb' = lsize lb0 &
    forall k, lent lb' k = if (tl <= k < tl + 10 * K)%N then None else lent lb0 k].
  by apply: lsetinf_some; rewrite sL0 /nrow addnC.
have [rU0 cU0] := dU0.
have [ub1 e5] : exists ub1, blockw ub0 tl 0 (10 * K) 1 (dopp bA) = Some ub1.
  by apply: blockw_some; rewrite ?rU0 ?cU0 ?(proj1 dbA) ?(proj2 dbA) //= ?(proj1 dbA) ?(proj2 dbA) // /nrow addnC.
rewrite /segw e5; case/blockwP: e5 => _ [r5 c5 E5].
eexists; split; first by [].
- split=> //=.
  + by rewrite c4 c3.
  + by rewrite sL1 sL0 r4 r3 rA0.
  + by rewrite r4 r3 rA0 /dims r5 c5 rU0 cU0.
- move=> i j /=; rewrite EH /= !add0n !subn0.
  by case: (boolP ((i < t) && (j < t))%N).
- by [].
move=> x; rewrite /qp_feasible /= r4 r3 rA0.
set fq := col_of t x; set cq := col_of c (fun j => x (t + j)%N).
have tauE : tau_of x = mx_of m 1 tp + (mx_of m t Nt *m fq + mx_of m c (r_NwJw rd) *m cq).
  by rewrite /tau_of /level_torque mtp mNf mNt m1 mulmxDr !addrA.
(* every row has no lower bound *)
have noL i : (i < nrow)%N -> lent lb1 i = None.
  move=> li; rewrite EL1; case: ifP => // hi.
  move: li hi; rewrite /nrow /tl; case: ifP => ls li hi; last by exfalso; lia.
  by have [_ _ _ h4] := lim0 ls; apply: h4; lia.
(* the contact rows *)
have rowC i (li : (i < 10 * K)%N) : rowdot A2 (tl + i) x =
    (mx_of (10 * K) t AN *m fq + mx_of (10 * K) c AW *m cq) (Ordinal li) 0.
  apply: two_blocks; first by rewrite c4 c3.
  + move=> b hb; rewrite E4 E3.
    have -> : (tl <= tl + i < tl + 10 * K)%N by lia.
    have -> : (t <= b < t + c)%N = false by lia.
    by rewrite /= hb addKn subn0.
  + move=> b hb; rewrite E4.
    have -> : (tl <= tl + i < tl + 10 * K)%N by lia.
    have -> : (t <= t + b < t + c)%N by lia.
    by rewrite /= !addKn.
have ubC i (li : (i < 10 * K)%N) : ent ub1 (tl + i) 0 = - mx_of (10 * K) 1 bA (Ordinal li) 0.
  rewrite E5; have -> : (tl <= tl + i < tl + 10 * K)%N by lia.
  by rewrite /= addKn mxE.
have low i : (i < tl)%N -> rowdot A2 i x = rowdot A0 i x /\ ent ub1 i 0 = ent ub0 i 0.
  move=> li; split.
    rewrite /rowdot c4 c3; apply: sum_nat_eq => b _; rewrite E4 E3.
    by have -> : (tl <= i < tl + 10 * K)%N = false by lia.
  rewrite E5.
  by have -> : (tl <= i < tl + 10 * K)%N = false by lia.
pose F : 'cV[R]_(6 * K) := mx_of (6 * K) (6 + m) (r_JcT rd) *m col_mx 0 (tau_of x) - mx_of (6 * K) 1 (r_PC rd).
have FE : mx_of (10 * K) (6 * K) Ac *m mx_of (6 * K) (6 * K) Ar *m F =
   - mx_of (10 * K) 1 bA - (mx_of (10 * K) t AN *m fq + mx_of (10 * K) c AW *m cq).
  rewrite /F -[mx_of _ (6 + m) _ in LHS]hsubmxK mul_row_col mulmx0 add0r -mJR tauE.
  rewrite mbA mCRP mRP mAtt mAN mAW dopp_mx mAt mAR !mulNmx mulmxBr mulmxDr !mulmxDr !mulmxA.
  by rewrite opprB -opprD opprK addrAC.
have coneF := cone F.
split.
  move=> feas; split.
    move=> ls i; have [rlo rhi ru _] := lim0 ls.
    have tlE : tl = (2 * m)%N by rewrite /tl ls.
    have li := ltn_ord i.
    have [_ u1] := feas i ltac:(rewrite /nrow tlE; lia).
    have [_ u2] := feas (m + i)%N ltac:(rewrite /nrow tlE; lia).
    have [q1 q2] := low i ltac:(rewrite tlE; lia).
    have [q3 q4] := low (m + i)%N ltac:(rewrite tlE; lia).
    have [e6 e7] := ru i li.
    move: u1 u2; rewrite q1 q2 q3 q4 e6 e7 (rlo i x li) (rhi i x li).
    have -> : Ordinal li = i by apply: val_inj.
    rewrite -/fq -/cq; set y := (mx_of m t Nt *m fq + _) i 0 => u1 u2.
    have tE : tau_of x i 0 = ent tp i 0 + y by rewrite tauE mxE mxE.
    by rewrite tE; apply/le_abs; split; [rewrite addrC -ler_subr_addr|rewrite opprD addrC -ler_subr_addr opprK].
  apply/coneF => -[i li]; rewrite FE mxE [(- mx_of _ _ bA) _ _]mxE [(- (mx_of _ _ AN *m _ + _)) _ _]mxE subr_ge0 -ubC -rowC.
  by apply: (proj2 (feas _ _)); rewrite /nrow; lia.
move=> [hlim hcone] i li; split=> [l|]; first by rewrite noL.
have /coneF hF : forall k, (k < K)%N -> _ := hcone.
case: (ltnP i tl) => hi; last first.
  have li' : (i - tl < 10 * K)%N by move: li; rewrite /nrow; lia.
  have -> : i = (tl + (i - tl))%N by rewrite subnKC.
  rewrite (rowC _ li') (ubC _ li') -subr_ge0.
  have := hF (Ordinal li'); rewrite FE mxE [(- mx_of _ _ bA) _ _]mxE [(- (mx_of _ _ AN *m _ + _)) _ _]mxE. done.
have [-> ->] := low i hi.
move: hi; rewrite /tl; case: ifP => ls hi //.
have [rlo rhi ru _] := lim0 ls.
have key (j : 'I_m) : tau_of x j 0 = ent tp j 0 + (mx_of m t Nt *m fq + mx_of m c (r_NwJw rd) *m cq) j 0.
  by rewrite tauE mxE mxE.
case: (ltnP i m) => him.
  have [-> _] := ru i him; rewrite (rlo _ _ him) -/fq -/cq.
  have /le_abs[h _] := hlim ls (Ordinal him); move: h; rewrite key /=.
  by rewrite addrC ler_subr_addr.
have him' : (i - m < m)%N by lia.
have [_] := ru (i - m)%N him'; rewrite subnKC // => ->.
have := rhi (i - m)%N x him'; rewrite subnKC // => ->; rewrite -/fq -/cq.
have /le_abs[_ h] := hlim ls (Ordinal him'); move: h; rewrite key /=.
by rewrite opprD addrC -ler_subr_addr opprK.
Qed.
End Task.

Section Redis.
Variables (rd : rdata R) (m K : nat) (d : pcontact) (tin : dm).
Hypothesis rdok : rd_sized rd m K.
Hypothesis K2 : (1 < K)%N.
Hypothesis cln : r_cln rd = K.
Hypothesis dtin : dims tin m 1.
Local Notation c := (6 * K - 6)%N.

Definition tau_redis (x : nat -> R) : 'cV[R]_m :=
  mx_of m 1 tin + mx_of m c (r_NwJw rd) *m col_of c x.

Lemma RedisQP_ok : exists q, [/\ RedisQP rd tin = Some q, qp_wf q c,
  forall i j, ent (q_H q) i j = (i == j)%:R,
  forall i, ent (q_g q) i 0 = 0 &
  forall x, qp_feasible q x <-> admissible rd d K (tau_redis x)].
Proof.
case: rdok => rm sK pl dlim [dJ dP _ dW0]; have dW := dW0 K2.
have [tot ccs] := tot_plane pl; rewrite sK in tot ccs.
rewrite /RedisQP rm tot ccs cln.
set tl := if r_lset rd then (2 * m)%N else 0%N.
set nrow := (K * (10 * K) + tl)%N.
have leN : (tl + 10 * K <= nrow)%N.
  by rewrite /nrow addnC leq_add2r leq_pmull //; lia.
have [A0 [ub0 [lb0 [-> dA0 dU0 sL0 [lim0 hiA hiU hiL]]]]] : exists A0 ub0 lb0,
  [/\ (if r_lset rd then limit_rows m c 0 (r_NwJw rd) (r_NwJw rd) (r_lim rd) tin (dzero R nrow c) (dzero R nrow 1) (lzero R nrow)
       else Some (dzero R nrow c, dzero R nrow 1, lzero R nrow)) = Some (A0, ub0, lb0),
      dims A0 nrow c, dims ub0 nrow 1, lsize lb0 = nrow &
   [/\ r_lset rd ->
    [/\ forall i (x : nat -> R) (li : (i < m)%N), rowdot A0 i x = (mx_of m c (r_NwJw rd) *m col_of c x) (Ordinal li) 0,
        forall i (x : nat -> R) (li : (i < m)%N), rowdot A0 (m + i) x = - (mx_of m c (r_NwJw rd) *m col_of c x) (Ordinal li) 0,
        forall i, (i < m)%N -> ent ub0 i 0 = ent (r_lim rd) i 0 - ent tin i 0 /\
                              ent ub0 (m + i)%N 0 = ent (r_lim rd) i 0 + ent tin i 0
      & forall i, (i < 2 * m)%N -> lent lb0 i = None],
      forall i j, (tl <= i)%N -> ent A0 i j = 0,
      forall i, (tl <= i)%N -> ent ub0 i 0 = 0 & forall i, (tl <= i)%N -> lent lb0 i = Some 0]].
  rewrite /nrow /tl; case ls : (r_lset rd); last by do 3 eexists; split.
  set nr0 := (K * _ + _)%N.
  have h0 : (0 < 0)%N -> dims (r_NwJw rd) m 0 by [].
  have [A' [ub' [lb' [e ? ? ? [h1 h2 h3 [h4 h5]]]]]] := @limit_rows_ok m c 0 (r_NwJw rd) (r_NwJw rd) (r_lim rd) tin
    (dzero R nr0 c) (dzero R nr0 1) (lzero R nr0) nr0
    dW h0 (dlim ls) dtin (conj erefl (esym (addn0 c))) (conj erefl erefl) erefl (leq_addl _ _).
  move: (e); rewrite /limit_rows.
  case e1 : (blockw _ _ _ _ _ _) => [A1|//]; rewrite (_ : (0 < 0)%N = false) //.
  case e2 : (dsub _ _) => [u|//]; case e3 : (segw _ _ _ _) => [u1|//].
  case e4 : (blockw _ _ _ _ _ _) => [A2|//]; case e5 : (dadd _ _) => [v|//].
  case e6 : (segw _ _ _ _) => [u2|//]; case e7 : (lsetinf _ _ _) => [l1|//] [eA eU eL].
  exists A', ub', lb'; rewrite eA eU eL; split=> //; first by rewrite -[X in dims _ _ X]addn0.
  split=> [_| | |].
  - split=> // i x li; first by rewrite h1 [mx_of m 0 _]thinmx0 mul0mx addr0.
    by rewrite h2 [mx_of m 0 _]thinmx0 mul0mx addr0.
  - move=> i j hi; subst A2.
    case/blockwP: e4 => _ [_ _ ->]; case/blockwP: e1 => _ [_ _ ->].
    have -> : (m <= i < m + m)%N = false by lia.
    by have -> : (0 <= i < 0 + m)%N = false by lia.
  - move=> i hi; subst u2.
    case/blockwP: e6 => _ [_ _ ->]; case/blockwP: e3 => _ [_ _ ->].
    have -> : (m <= i < m + m)%N = false by lia.
    by have -> : (0 <= i < 0 + m)%N = false by lia.
  - by move=> i hi; rewrite h5.
have [Ac [Ar [e2 dAc dAr cone]]] := loop_cone d pl; rewrite sK in e2 dAc dAr cone.
rewrite e2.
have [CM [-> dCM mCM]] := dmul_mx (dopp_dims dAc) dAr.
have [JR [-> dJR mJR]] := rightCols_mx dJ.
have [CJ [-> dCJ mCJ]] := dmul_mx dCM dJR.
have [CW [-> dCW mCW]] := dmul_mx dCJ dW.
have [rA0 cA0] := dA0.
have [A1 e3] : exists A1, blockw A0 tl 0 (10 * K) c CW = Some A1.
  by apply: blockw_some; rewrite ?rA0 ?cA0 ?(proj1 dCW) ?(proj2 dCW).
rewrite e3; case/blockwP: e3 => _ [r3 c3 E3].
have [lb1 [-> sL1 EL1]] : exists lb', [/\ lsetinf lb0 tl (10 * K) = Some lb', lsize lb' = lsize lb0 &
    forall k, lent lb' k = if (tl <= k < tl + 10 * K)%N then None else lent lb0 k].
  by apply: lsetinf_some; rewrite sL0.
have [CP [-> dCP mCP]] := dmul_mx dCM dP.
have [CT [-> dCT mCT]] := dmul_mx dCJ dtin.
have [bb [-> dbb mbb]] := dsub_mx dCP dCT.
have [rU0 cU0] := dU0.
have [ub1 e5] : exists ub1, blockw ub0 tl 0 (10 * K) 1 bb = Some ub1.
  by apply: blockw_some; rewrite ?rU0 ?cU0 ?(proj1 dbb) ?(proj2 dbb).
rewrite /segw e5; case/blockwP: e5 => _ [r5 c5 E5].
eexists; split; first by [].
- split=> //=.
  + by rewrite c3.
  + by rewrite sL1 sL0 r3 rA0.
  + by rewrite r3 rA0 /dims r5 c5 rU0 cU0.
- by [].
- by [].
move=> x; rewrite /qp_feasible /= r3 rA0.
set cq := col_of c x.
have tauE : tau_redis x = mx_of m 1 tin + mx_of m c (r_NwJw rd) *m cq by [].
have rowC i (li : (i < 10 * K)%N) : rowdot A1 (tl + i) x = (mx_of (10 * K) c CW *m cq) (Ordinal li) 0.
  rewrite -rowdot_mx ?(proj2 dCW) // /rowdot c3 cA0 (proj2 dCW); apply: sum_nat_eq => b hb; rewrite E3.
  have -> : (tl <= tl + i < tl + 10 * K)%N by lia.
  by rewrite /= hb addKn subn0.
have ubC i (li : (i < 10 * K)%N) : ent ub1 (tl + i) 0 = mx_of (10 * K) 1 bb (Ordinal li) 0.
  rewrite E5; have -> : (tl <= tl + i < tl + 10 * K)%N by lia.
  by rewrite /= addKn mxE.
have out i : (i < tl)%N || (tl + 10 * K <= i)%N ->
   [/\ rowdot A1 i x = rowdot A0 i x, ent ub1 i 0 = ent ub0 i 0 & lent lb1 i = lent lb0 i].
  move=> li; have hf : (tl <= i < tl + 10 * K)%N = false by lia.
  by rewrite E5 EL1 hf; split=> //; rewrite /rowdot c3; apply: sum_nat_eq => b _; rewrite E3 hf.
have nolow i l : (i < tl + 10 * K)%N -> lent lb1 i <> Some l.
  move=> li; rewrite EL1; case: ifP => // hi.
  have hi' : (i < tl)%N by lia.
  move: hi'; rewrite /tl; case: ifP => ls hi' //.
  by have [_ _ _ h4] := lim0 ls; rewrite h4.
have high i : (tl + 10 * K <= i)%N -> [/\ rowdot A1 i x = 0, ent ub1 i 0 = 0 & lent lb1 i = Some 0].
  move=> hi; have [|-> -> ->] := out i; first by rewrite hi orbT.
  rewrite hiU ?hiL; try lia; split=> //.
  by rewrite /rowdot sum_nat0 // => b _; rewrite hiA ?mul0r //; lia.
pose F : 'cV[R]_(6 * K) := mx_of (6 * K) (6 + m) (r_JcT rd) *m col_mx 0 (tau_redis x) - mx_of (6 * K) 1 (r_PC rd).
have FE : mx_of (10 * K) (6 * K) Ac *m mx_of (6 * K) (6 * K) Ar *m F =
   mx_of (10 * K) 1 bb - mx_of (10 * K) c CW *m cq.
  rewrite /F -[mx_of _ (6 + m) _ in LHS]hsubmxK mul_row_col mulmx0 add0r -mJR tauE.
  rewrite mbb mCP mCT mCW mCJ mCM dopp_mx !mulNmx mulmxBr !mulmxDr !mulmxA.
  by rewrite !opprK addrC addrA.
have coneF := cone F.
split.
  move=> feas; split.
    move=> ls i; have [rlo rhi ru _] := lim0 ls.
    have tlE : tl = (2 * m)%N by rewrite /tl ls.
    have li := ltn_ord i.
    have [_ u1] := feas i ltac:(move: leN; rewrite tlE; lia).
    have [_ u2] := feas (m + i)%N ltac:(move: leN; rewrite tlE; lia).
    have [q1 q2 _] := out i ltac:(rewrite tlE; lia).
    have [q3 q4 _] := out (m + i)%N ltac:(rewrite tlE; lia).
    have [e6 e7] := ru i li.
    move: u1 u2; rewrite q1 q2 q3 q4 e6 e7 (rlo i x li) (rhi i x li).
    have -> : Ordinal li = i by apply: val_inj.
    rewrite -/cq; set y := (_ *m _) i 0 => u1 u2.
    have tE : tau_redis x i 0 = ent tin i 0 + y by rewrite tauE mxE mxE.
    by rewrite tE; apply/le_abs; split; [rewrite addrC -ler_subr_addr|rewrite opprD addrC -ler_subr_addr opprK].
  apply/coneF => -[i li]; rewrite FE mxE [(- (mx_of _ _ CW *m _)) _ _]mxE subr_ge0 -ubC -rowC.
  by apply: (proj2 (feas _ _)); apply: leq_trans leN; lia.
move=> [hlim hcone] i li.
have /coneF hF : forall k, (k < K)%N -> _ := hcone.
case: (leqP (tl + 10 * K) i) => hib.
  by have [-> -> ->] := high i hib; split=> // l [<-].
split=> [l /nolow|]; first by case.
case: (ltnP i tl) => hi; last first.
  have li' : (i - tl < 10 * K)%N by lia.
  have -> : i = (tl + (i - tl))%N by rewrite subnKC.
  rewrite (rowC _ li') (ubC _ li') -subr_ge0.
  by have := hF (Ordinal li'); rewrite FE mxE [(- (mx_of _ _ CW *m _)) _ _]mxE.
have [|-> -> _] := out i; first by rewrite hi.
move: hi; rewrite /tl; case: ifP => ls hi //.
have [rlo rhi ru _] := lim0 ls.
have key (j : 'I_m) : tau_redis x j 0 = ent tin j 0 + (mx_of m c (r_NwJw rd) *m cq) j 0.
  by rewrite tauE mxE mxE.
case: (ltnP i m) => him.
  have [-> _] := ru i him; rewrite (rlo _ _ him) -/cq.
  have /le_abs[h _] := hlim ls (Ordinal him); move: h; rewrite key /=.
  by rewrite addrC ler_subr_addr.
have him' : (i - m < m)%N by lia.
have [_] := ru (i - m)%N him'; rewrite subnKC // => ->.
have := rhi (i - m)%N x him'; rewrite subnKC // => ->; rewrite -/cq.
have /le_abs[_ h] := hlim ls (Ordinal him'); move: h; rewrite key /=.
by rewrite opprD addrC -ler_subr_addr opprK.
Qed.
End Redis.
End QPProofs.
