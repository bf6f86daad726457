(* C156-C159: pseudo-inverses and null spaces *)
From mathcomp Require Import all_ssreflect all_algebra all_fingroup.
From mathcomp Require Import zify.
From mathcomp.algebra_tactics Require Import ring.
From Verif Require Import LinAlg DMat DMatL Dyn_Model Cone_Model QP_Model QP_Spec HQP_Model HQP_Spec HQP_Proofs HQP_Thm HQP_Ex HQP_Props.
From Verif Require Import Cod_Model Cod_Spec Cod_Proofs Cod_Cond Cod_Exist.
Set Implicit Arguments.
Unset Strict Implicit.
Unset Printing Implicit Defensive.
Import Order.TTheory GRing.Theory Num.Theory.
Local Open Scope ring_scope.

Section C.
Variable R : realFieldType.
Variable qrf : forall m n, 'M[R]_(m, n) -> qr R m n.
Variable rzf : forall m n r, 'M[R]_(m, n) -> 'M[R]_r * 'M[R]_n.
Local Notation eok := (eigen_ok qrf rzf).
Local Notation thr := ((10%:R ^+ 6)^-1 : R). (* 1e-6 *)

Lemma thr0 : 0 <= thr.
Proof. by rewrite invr_ge0 exprn_ge0 ?ler0n. Qed.

Lemma computeE t m n (A : 'M[R]_(m, n)) : compute qrf rzf t A =
  @Cod R m n (numrank t (qrf A)) (q_Q (qrf A)) (rzf (numrank t (qrf A)) (q_R (qrf A))).1
    (rzf (numrank t (qrf A)) (q_R (qrf A))).2 (q_P (qrf A)).
Proof. by rewrite /compute; case: (rzf _ _). Qed.
Lemma eokE t m n (A : 'M[R]_(m, n)) : eok t A -> qr_ok A (qrf A) /\
  rz_ok (q_R (qrf A)) ((rzf (numrank t (qrf A)) (q_R (qrf A))).1, (rzf (numrank t (qrf A)) (q_R (qrf A))).2).
Proof. by case; case: (rzf _ _). Qed.

Lemma clear_kept t m n (A : 'M[R]_(m, n)) : 0 <= t -> eok t A -> clear_rank t (qrf A) ->
  kept (rzf (numrank t (qrf A)) (q_R (qrf A))).1 (rzf (numrank t (qrf A)) (q_R (qrf A))).2 = A.
Proof.
move=> t0 /eokE[qo ro] cl; have := splitA qo ro.
by rewrite (clear_dropped qo t0 cl) mulmx0 mul0mx addr0.
Qed.

(* C156: if no pivot is small without being zero, the result is the Moore-Penrose inverse *)
Theorem C156_pinv_partial m n (A : 'M[R]_(m, n)) : eok thr A -> clear_rank thr (qrf A) ->
  is_mpinv A (PinvCODWB qrf rzf A).
Proof.
move=> eo cl; have [qo ro] := eokE eo; have := pinv_kept qo ro.
by rewrite (clear_kept thr0 eo cl) /PinvCODWB computeE.
Qed.
(* C156: in any case it is that of a matrix whose columns differ from those of A by at most the threshold times the
   longest column of A *)
Theorem C156_near_partial m n (A : 'M[R]_(m, n)) : eok thr A ->
  exists A', is_mpinv A' (PinvCODWB qrf rzf A) /\ forall j, exists j', colsq (A - A') j <= thr ^+ 2 * colsq A j'.
Proof.
move=> eo; have [qo ro] := eokE eo; have h := pinv_kept qo ro; rewrite -computeE in h.
exists (kept (rzf (numrank thr (qrf A)) (q_R (qrf A))).1 (rzf (numrank thr (qrf A)) (q_R (qrf A))).2); split=> // j.
have [j' ->] := colsq_dropped qo ro j.
case: (posnP m) => [m0|mp].
  by exists j; rewrite /colsq !big1 ?mulr0 // => -[i hi]; exfalso; rewrite m0 in hi.
have [j0 ej] := pivot0_col qo (Ordinal mp) j.
exists j0; rewrite -ej -exprMn; exact: dropped_col qo j' thr0.
Qed.

(* C156: the rank decision is right for every matrix that is well conditioned against the threshold *)
Lemma conditioned_clear t m n (A : 'M[R]_(m, n)) : 0 <= t -> eok t A -> conditioned t A -> clear_rank t (qrf A).
Proof. by move=> t0 [qo _] [r [B [C [sB [sC [eA [b0 c0] hB hC ht]]]]]]; exact: (cond_clear qo eA t0 b0 c0 hB hC ht). Qed.
Theorem C156_conditioned_partial m n (A : 'M[R]_(m, n)) : eok thr A -> conditioned thr A ->
  is_mpinv A (PinvCODWB qrf rzf A) /\ ((exists B, B *m A = 1%:M) -> PinvCODWB qrf rzf A *m A = 1%:M).
Proof.
move=> eo co; have h := C156_pinv_partial eo (conditioned_clear thr0 eo co); split=> // -[B hB].
case: h => h _ _ _; transitivity (B *m (A *m PinvCODWB qrf rzf A *m A)); last by rewrite h.
by rewrite -(mulmxA A) (mulmxA B) hB mul1mx.
Qed.

(* the matrix diag(1, e) *)
Definition two (e : R) : 'M[R]_2 := \matrix_(i, j) (if i == j then if i == 0 then 1 else e else 0).
Lemma sum2 (f : 'I_2 -> R) : \sum_i f i = f 0 + f 1.
Proof. by rewrite !big_ord_recl big_ord0 addr0; congr (_ + f _); apply: val_inj. Qed.
Lemma two_posdef e : 0 < e -> posdef (two e).
Proof.
move=> he; split; first by apply/matrixP => i j; rewrite !mxE eq_sym; case: eqP => // ->.
move=> x nx; have -> : quad (two e) x = x 0 0 ^+ 2 + e * x 1 0 ^+ 2.
  rewrite quadE dotE sum2 !mxE !sum2 !mxE /=; ring.
have s0 : 0 <= x 0 0 ^+ 2 by exact: sqr_ge0.
have s1 : 0 <= e * x 1 0 ^+ 2 by rewrite mulr_ge0 ?sqr_ge0 ?(ltW he).
rewrite lt_neqAle (addr_ge0 s0 s1) andbT eq_sym.
apply: contra nx; rewrite (paddr_eq0 s0 s1) (mulf_eq0 e) (gt_eqF he) !sqrf_eq0 /= => /andP[/eqP e0 /eqP e1].
apply/eqP/matrixP => i j; rewrite (ord1 j) mxE; case: (i =P 0) => [->//|ni].
have -> : i = 1; last by [].
by apply: val_inj; case: i ni => -[|[|i]] hi ni //; case: ni; apply: val_inj.
Qed.
Lemma det_up (M : 'M[R]_2) : M 1 0 = 0 -> \det M = M 0 0 * M 1 1.
Proof.
move=> e; rewrite (expand_det_col M 0) sum2 e mul0r addr0; congr (_ * _).
rewrite /cofactor addn0 expr0 mul1r det_mx11 !mxE; by congr (M _ _); apply: val_inj.
Qed.
Lemma two_rank t (q : qr R 2 2) : 0 < t -> qr_ok (two t) q -> (numrank t q < 2)%N.
Proof.
move=> t0 qo; rewrite ltnNge; apply/negP => h.
have := @above _ t _ _ (two t) q qo 1%N h; rewrite ltNge => /negP; apply.
have qo' := qo; case: qo' => oQ oP e pv; have [tri pvt] := pv; rewrite maxpivotE //.
have e0 : pivot q 0 = `|q_R q 0 0| by rewrite (@pivot_in _ _ _ q 0 0).
have e1 : pivot q 1 = `|q_R q 1 1| by rewrite (@pivot_in _ _ _ q 1 1).
have d : pivot q 0 * pivot q 1 = t.
  have dd n (M : 'M[R]_n) : orthogonal M -> `|\det M| = 1.
    move=> o; have := congr1 determinant o; rewrite det_mulmx det_tr det1 => /(congr1 Num.norm).
    by rewrite normrM normr1 => /eqP; rewrite -expr2 sqrp_eq1 // => /eqP.
  have := congr1 (fun M => `|\det M|) e; rewrite !det_mulmx !normrM (dd _ _ oQ) (dd _ _ (perm_orth oP)) mulr1 mul1r.
  have -> : \det (two t) = t by rewrite det_up !mxE /= ?mul1r.
  have -> : \det (q_R q) = q_R q 0 0 * q_R q 1 1 by rewrite det_up // tri.
  by rewrite (gtr0_norm t0) normrM -e0 -e1 => ->.
have p1 : 1 <= pivot q 0.
  rewrite -(@ler_pexpn2r _ 2) ?nnegrE ?normr_ge0 ?ler01 // expr1n; apply: le_trans (pivot0_ge qo 0 0).
  by rewrite /colsq sum2 !mxE /= expr1n expr0n addr0.
have p1' : pivot q 1 <= t by rewrite -d ler_pemull ?normr_ge0.
by apply: le_trans p1' _; rewrite ler_pemulr // ltW.
Qed.

(* C156 refuted: diag(1, 1e-6) is inverted as if the second direction did not exist, whatever decomposition is taken *)
Theorem C156_threshold_refuted : exists A : 'M[R]_2, posdef A /\ (eok thr A -> ~ is_mpinv A (PinvCODWB qrf rzf A)).
Proof.
have t0 : 0 < thr by rewrite invr_gt0 exprn_gt0 ?ltr0n.
exists (two thr); split; first exact: two_posdef.
move=> eo h; have [qo ro] := eokE eo; have k := pinv_kept qo ro; rewrite -computeE in k.
have e : two thr = kept (rzf (numrank thr (qrf (two thr))) (q_R (qrf (two thr)))).1 (rzf (numrank thr (qrf (two thr))) (q_R (qrf (two thr)))).2.
  by apply: (@mpinv_uniq _ _ _ (PinvCODWB qrf rzf (two thr))); [case: h|case: k]; split.
have := two_rank t0 qo; rewrite -(kept_rank qo ro) -e mxrank_unit ?ltnn //.
exact/posdef_unit/two_posdef.
Qed.

Lemma left_null_rank m n k (A : 'M[R]_(m, n)) (V : 'M[R]_(k, m)) : left_null A V -> row_free V /\ k = (m - \rank A)%N.
Proof.
move=> [h1 h2 h3]; have f : row_free V by apply/row_freeP; exists V^T.
split=> //; rewrite -mxrank_ker; have <- : \rank V = k by apply/eqP.
apply/eqP; rewrite eqn_leq !mxrankS //; last by apply/sub_kermxP.
apply/row_subP => i; have [|u ->] := h3 (row i (kermx A)); last exact: submxMl.
by rewrite -row_mul mulmx_ker row0.
Qed.

(* C157: for a square matrix whose rank is clear, V2 is an orthonormal basis of the left null space; the pseudo-inverse
   is the one of the other overloads *)
Theorem C157_left_null_partial n (A : 'M[R]_n) : eok thr A -> clear_rank thr (qrf A) ->
  exists V2, PinvCODWB_V2 qrf rzf A 0 = Some (V2, PinvCODWB qrf rzf A) /\ dims V2 (n - \rank A) n /\
  left_null A (mx_of (n - \rank A) n V2) /\ left_null_basis A (mx_of (n - \rank A) n V2).
Proof.
move=> eo cl; have [qo ro] := eokE eo; rewrite /PinvCODWB_V2 /= computeE /=.
have [rm _] := @rank_le _ thr _ _ (qrf A); rewrite rm.
have [V [-> [dV eV]]] := block_rows (q_Q (qrf A))^T rm; exists V; rewrite /PinvCODWB computeE; split=> //.
have ek := clear_kept thr0 eo cl; have rk := kept_rank qo ro; rewrite ek in rk.
have ln := left_kept qo ro; rewrite ek in ln; rewrite rk eV; split=> //; split=> //.
have [f _] := left_null_rank ln; split=> //; [by case: ln|by rewrite rk].
Qed.
Theorem C157_conditioned_partial n (A : 'M[R]_n) : eok thr A -> conditioned thr A ->
  exists V2, PinvCODWB_V2 qrf rzf A 0 = Some (V2, PinvCODWB qrf rzf A) /\ dims V2 (n - \rank A) n /\
  left_null A (mx_of (n - \rank A) n V2).
Proof.
by move=> eo co; have [V [e [d [l _]]]] := C157_left_null_partial eo (conditioned_clear thr0 eo co); exists V.
Qed.
(* C157 refuted: with more columns than rows the block is outside of Q *)
Theorem C157_wide_refuted m n (A : 'M[R]_(m, n)) f : (m < n)%N -> PinvCODWB_V2 qrf rzf A f = None /\ PinvCOD_V2 qrf rzf A = None.
Proof.
move=> h; have g r : dblock (of_mx (c_Q (compute qrf rzf thr A))^T) r 0 (m - r) n = None.
  by rewrite /dblock /= add0n [(n <= m)%N]leqNgt h andbF.
have w k : PinvCODWB_V2 qrf rzf A k = None by rewrite /PinvCODWB_V2 g; case: (_ <= m)%N.
by rewrite /PinvCOD_V2 !w.
Qed.
(* C157 refuted: with fewer columns the rows of V2 are too short to multiply A from the left *)
Theorem C157_tall_refuted m n (A : 'M[R]_(m, n)) : (n < m)%N -> exists V2 X, PinvCODWB_V2 qrf rzf A 0 = Some (V2, X) /\
  PinvCOD_V2 qrf rzf A = Some (V2, X) /\ nc V2 = n /\ dmul V2 (of_mx A) = None.
Proof.
move=> h; rewrite /PinvCOD_V2 /PinvCODWB_V2 /= computeE /=; have [rm _] := @rank_le _ thr _ _ (qrf A); rewrite rm.
rewrite /dblock /= subnKC // leqnn add0n (ltnW h) /=; do 2!eexists; split; [reflexivity|split=> //; split=> //].
by rewrite /dmul /= (ltn_eqF h).
Qed.
Lemma forced_some n (A : 'M[R]_n) f : (0 < f <= n)%N -> exists V2,
  PinvCODWB_V2 qrf rzf A f = Some (V2, PinvCODWB qrf rzf A) /\ dims V2 (n - f) n /\ mx_of (n - f) n V2 = (Jx R n f)^T *m (q_Q (qrf A))^T.
Proof.
move=> /andP[f0 fn]; rewrite /PinvCODWB_V2 f0 fn computeE /=.
by have [V [-> [dV eV]]] := block_rows (q_Q (qrf A))^T fn; exists V; rewrite /PinvCODWB computeE.
Qed.
(* C157: a forced rank gives the basis exactly if it is the rank *)
Theorem C157_forced_partial n (A : 'M[R]_n) f : eok thr A -> clear_rank thr (qrf A) -> (0 < f <= n)%N ->
  exists V2, PinvCODWB_V2 qrf rzf A f = Some (V2, PinvCODWB qrf rzf A) /\ dims V2 (n - f) n /\
  (left_null A (mx_of (n - f) n V2) <-> f = \rank A).
Proof.
move=> eo cl hf; have [qo ro] := eokE eo; have [V [-> [dV eV]]] := forced_some A hf; exists V; split=> //; split=> //.
have /andP[_ fn] := hf.
have ek := clear_kept thr0 eo cl; have rk := kept_rank qo ro; rewrite ek in rk.
split=> [/left_null_rank[_ e]|e]; first by have := rank_leq_row A; lia.
by have := left_kept qo ro; rewrite ek eV e rk.
Qed.
(* C157 refuted: so a rank forced on a matrix of another rank goes unnoticed *)
Theorem C157_forced_refuted : exists V2 X, PinvCODWB_V2 qrf rzf (1%:M : 'M[R]_2) 1 = Some (V2, X) /\
  ~ left_null (1%:M : 'M[R]_2) (mx_of 1 2 V2).
Proof.
have [V [-> _]] := @forced_some 2 (1%:M : 'M[R]_2) 1 isT; do 2!eexists; split; first by [].
by move/left_null_rank => [_]; rewrite mxrank1.
Qed.

(* C158: the columns are an orthonormal basis of the kernel if the rank is clear *)
Theorem C158_kernel_partial t (M : dm R) : 0 <= t -> (0 < nc M)%N -> let A := mx_of (nr M) (nc M) M in
  eok t A -> clear_rank t (qrf A) ->
  exists N, getNullSpace qrf rzf t M = Some N /\ dims N (nc M) (nc M - \rank A) /\ kernel A (mx_of (nc M) (nc M - \rank A) N).
Proof.
move=> t0 np A eo cl; have [qo ro] := eokE eo; rewrite /getNullSpace -/A computeE /=.
rewrite (_ : forall k (x : option (dm R)), (0 < k)%N -> (if k is 0%N then None else x) = x) //; last by case.
have [_ rn] := @rank_le _ t _ _ (qrf A); rewrite rn.
have [N [-> [dN eN]]] := block_cols (rzf (numrank t (qrf A)) (q_R (qrf A))).2^T rn.
have [N' [-> dN' eN']] := dmul_mx (dims_of (q_P (qrf A))) dN; exists N'.
have ek := clear_kept t0 eo cl; have rk := kept_rank qo ro; rewrite ek in rk.
split=> //; rewrite rk; split=> //; rewrite eN' mx_of_mx eN; have := ker_kept qo ro; by rewrite ek.
Qed.
Theorem C158_conditioned_partial t (M : dm R) : 0 <= t -> (0 < nc M)%N -> let A := mx_of (nr M) (nc M) M in
  eok t A -> conditioned t A ->
  exists N, getNullSpace qrf rzf t M = Some N /\ dims N (nc M) (nc M - \rank A) /\ kernel A (mx_of (nc M) (nc M - \rank A) N).
Proof. by move=> t0 np A eo co; apply: C158_kernel_partial => //; exact: conditioned_clear. Qed.
(* C158 refuted: for every positive threshold there is a matrix without kernel for which a null space is returned *)
Theorem C158_threshold_refuted t : 0 < t -> exists A : 'M[R]_2, A \in unitmx /\ (eok t A ->
  exists N, getNullSpace qrf rzf t (of_mx A) = Some N /\ (0 < nc N)%N /\ ~ kernel A (mx_of 2 (nc N) N)).
Proof.
move=> t0; exists (two t); split; first exact/posdef_unit/two_posdef.
move=> eo; have [qo ro] := eokE eo; have lt := two_rank t0 qo; rewrite /getNullSpace /= mx_of_mx computeE /=.
have [_ rn] := @rank_le _ t _ _ (qrf (two t)); rewrite rn.
have [N [-> [dN eN]]] := block_cols (rzf (numrank t (qrf (two t))) (q_R (qrf (two t)))).2^T rn.
have [N' [-> dN' eN']] := dmul_mx (dims_of (q_P (qrf (two t)))) dN; exists N'; split=> //.
have nN : (0 < nc N')%N by rewrite (proj2 dN') subn_gt0.
split=> // -[h1 h2 _].
have z : mx_of 2 (nc N') N' = 0.
  by apply: (can_inj (mulKmx (posdef_unit (two_posdef t0)))); rewrite h1 mulmx0.
have := h2; rewrite z mulmx0 => /matrixP/(_ (Ordinal nN) (Ordinal nN)); rewrite !mxE eqxx => /eqP.
by rewrite eq_sym oner_eq0.
Qed.
(* C158 refuted: a matrix without columns *)
Theorem C158_empty_refuted t (M : dm R) : nc M = 0%N -> getNullSpace qrf rzf t M = None.
Proof. by rewrite /getNullSpace => ->. Qed.

(* C159 refuted: if the first level leaves no freedom, preparing any level below it is undefined *)
Theorem C159_no_freedom_refuted t n (l l' : level R) hs : 0 <= t -> (0 < n)%N -> dims (l_B l) (l_neq l) n ->
  \rank (Bm n l) = n -> eok t (Bm n l) -> clear_rank t (qrf (Bm n l)) ->
  prepare qrf rzf t [:: l, l' & hs] = None.
Proof.
move=> t0 np [e1 e2] rk eo cl.
have := @C158_kernel_partial t (l_B l) t0; rewrite e1 e2 => /(_ np eo cl) [N [eN [[_ dN] _]]].
rewrite /= eN; case eb: (dmul (l_B l') N) => [Bn|] //=; have [_ [_ cn _]] := dmulP eb.
by rewrite C158_empty_refuted // cn dN -/(Bm n l) rk subnn.
Qed.

(* C159, what holds: with exact rank decisions and some freedom left to every level but the last, prepare succeeds and
   its bases are the ones of C29 *)
Lemma clear0 m n (q : qr R m n) : clear_rank 0 q.
Proof. by move=> i h; rewrite mul0r lt_neqAle eq_sym h normr_ge0. Qed.
Definition gns (M : dm R) : dm R := odflt (knull M) (getNullSpace qrf rzf 0 M).
Hypothesis all_ok : forall m n (A : 'M[R]_(m, n)), eok 0 A.
Lemma gns_some M : (0 < nc M)%N -> getNullSpace qrf rzf 0 M = Some (gns M).
Proof. by move=> h; have [N [e _]] := C158_kernel_partial (lexx 0) h (all_ok _) (@clear0 _ _ _); rewrite /gns e. Qed.
Lemma gns_ok : null_space_ok gns.
Proof.
move=> M; case: (posnP (nc M)) => h; first by rewrite /gns C158_empty_refuted //; exact: knull_ok.
have [N [e [[d1 d2] [k1 _ k3]]]] := C158_kernel_partial (lexx 0) h (all_ok _) (@clear0 _ _ _).
by rewrite /gns e /= d1 d2; split=> //; split.
Qed.
Lemma rest_agree Zp hs hs' (d : level R) : (0 < nc Zp)%N -> HQP_Model.prepare_rest gns Zp hs = Some hs' ->
  (forall i, (i.+1 < size hs)%N -> (0 < l_ns (nth d hs' i))%N) -> prepare_rest qrf rzf 0 Zp hs = Some hs'.
Proof.
elim: hs Zp hs' => [|l hs IH] Zp hs' zp //=; case eb: (dmul (l_B l) Zp) => [Bn|] //.
have [_ [_ cn _]] := dmulP eb; rewrite gns_some ?cn //; case ez: (dmul Zp (gns Bn)) => [Z|] //.
case er: (HQP_Model.prepare_rest gns Z hs) => [r|] // [<-] h.
case: hs IH er h => [|l2 hs] IH er h; first by move: er => /= [<-].
by rewrite (IH _ r) //; [exact: (h 0%N)|move=> i hi; exact: (h i.+1)].
Qed.
Theorem C159_freedom_partial n (d : level R) hs : (0 < n)%N -> hs <> [::] ->
  (forall i, (i < size hs)%N -> shaped n (nth d hs i)) ->
  (forall i, (i.+1 < size hs)%N -> exists x : 'cV[R]_n, x <> 0 /\ forall k, (k <= i)%N -> Bm n (nth d hs k) *m x = 0) ->
  exists hs', [/\ prepare qrf rzf 0 hs = Some hs', size hs' = size hs, prepared n d hs' &
    forall i, (i < size hs)%N -> same_data (nth d hs i) (nth d hs' i)].
Proof.
move=> np ne sh fr; have [hs' [e sz pr h]] := C29_null_space_bases gns_ok ne sh.
exists hs'; split=> //; last by move=> i /h[].
have pos i : (i.+1 < size hs)%N -> (0 < l_ns (nth d hs' i))%N.
  move=> hi; have [x [nx hx]] := fr i hi; have li : (i < size hs')%N by rewrite sz ltnW.
  have [_ _ sp] := pr i li; have [|u ex] := sp x.
    move=> k ki; have lk : (k < size hs)%N by apply: leq_ltn_trans ki (ltnW hi).
    have [[e1 e2 _ _ [e3 _ _ _ _]] _ _ _] := h k lk.
    have := hx k ki; rewrite /Bm; move: (l_neq (nth d hs k)) e2 => ne1 -> /=; rewrite e3; exact.
  rewrite lt0n; apply/eqP => z; case: nx; rewrite ex; apply/matrixP => a b; rewrite !mxE big1 // => c _.
  by exfalso; case: c => c; rewrite z.
case: hs ne sh fr e sz h pos => [//|l hs] _ sh fr; rewrite /HQP_Model.prepare /prepare.
have [_ cB] : dims (l_B l) (l_neq l) n by have [] := sh 0%N isT.
rewrite gns_some ?cB //; case er: (HQP_Model.prepare_rest _ _ _) => [r|] // [<-] sz h pos.
case: hs sh fr er sz h pos => [|l2 hs] sh fr er sz h pos; first by move: er => /= [<-].
by rewrite (@rest_agree _ _ r d) //; [exact: (pos 0%N)|move=> i hi; exact: (pos i.+1)].
Qed.
End C.

(* over a real closed field the assumptions about Eigen can be met for all matrices at once *)
Section Ex.
Variable R : rcfType.
Local Notation thr := ((10%:R ^+ 6)^-1 : R). (* 1e-6 *)
Example C156_eigen_example : exists qrf rzf, forall t m n (A : 'M[R]_(m, n)), 0 <= t -> eigen_ok qrf rzf t A.
Proof. exact: eigen_exists. Qed.
Lemma conditioned_two0 t : 0 <= t -> t <= thr -> conditioned t (two 0 : 'M[R]_2).
Proof.
move=> t0 tt; exists 1%N, (delta_mx 0 0 : 'cV[R]_2), (delta_mx 0 0 : 'rV[R]_2), 1, 1.
have d n (x : 'cV[R]_1) : dot ((delta_mx 0 0 : 'cV[R]_n.+1) *m x) ((delta_mx 0 0 : 'cV[R]_n.+1) *m x) = dot x x.
  rewrite !dotE big_ord1 (bigD1 0) //= !mxE !big_ord1 !mxE /= mul1r big1 ?addr0 // => i ni.
  by rewrite !mxE !big_ord1 !mxE (negbTE ni) !mul0r.
split=> //.
- apply/matrixP => i j; rewrite !mxE big_ord1 !mxE -natrM mulnb -val_eqE.
  by case: i j => -[|[|i]] hi [[|[|j]] hj].
- by move=> x; rewrite d mul1r.
- by move=> y; rewrite trmx_delta d mul1r.
move=> j; rewrite mul1r; apply: le_lt_trans (_ : thr ^+ 2 * (2%:R * 1) < 1).
  apply: ler_pmul; rewrite ?sqr_ge0 ?mulr_ge0 ?ler0n //; first by rewrite /colsq sumr_ge0 // => i _; exact: sqr_ge0.
    by rewrite ler_pexpn2r ?nnegrE ?thr0.
  rewrite ler_wpmul2l ?ler0n // /colsq sum2 !mxE /=; case: j => -[|[|j]] hj //=; rewrite ?expr0n ?expr1n ?addr0 ?add0r ?ler01 //.
have p6 : 0 < 10%:R ^+ 6 :> R by rewrite exprn_gt0 ?ltr0n.
rewrite mulr1 exprVn mulrC ltr_pdivr_mulr ?exprn_gt0 ?ltr0n // mul1r -exprM.
by rewrite -natrX ltr_nat.
Qed.
Lemma rank_two0 : \rank (two 0 : 'M[R]_2) = 1%N.
Proof.
have e : two 0 = (delta_mx 0 0 : 'cV[R]_2) *m (delta_mx 0 0 : 'rV[R]_2).
  by apply/matrixP => i j; rewrite !mxE big_ord1 !mxE -natrM mulnb; case: i j => -[|[|i]] hi [[|[|j]] hj].
apply/eqP; rewrite eqn_leq; apply/andP; split.
  by rewrite e; apply: leq_trans (mxrankM_maxl _ _) (rank_leq_col _).
rewrite lt0n mxrank_eq0; apply/eqP => /matrixP/(_ 0 0); rewrite !mxE /= => /eqP; by rewrite oner_eq0.
Qed.
(* a singular matrix for which everything works *)
Example C156_example : exists qrf rzf, eigen_ok qrf rzf thr (two 0 : 'M[R]_2) /\ conditioned thr (two 0 : 'M[R]_2) /\
  clear_rank thr (qrf _ _ (two 0 : 'M[R]_2)) /\ \rank (two 0 : 'M[R]_2) = 1%N /\
  is_mpinv (two 0) (PinvCODWB qrf rzf (two 0 : 'M[R]_2)).
Proof.
have [qrf [rzf h]] := eigen_exists R; exists qrf, rzf; have eo := h _ _ _ (two 0) (thr0 R).
have co := conditioned_two0 (thr0 R) (lexx _); have cl := conditioned_clear (thr0 R) eo co.
split=> //; split=> //; split=> //; split; [exact: rank_two0|exact: C156_pinv_partial].
Qed.
Example C157_example : exists qrf rzf V2 X, PinvCODWB_V2 qrf rzf (two 0 : 'M[R]_2) 0 = Some (V2, X) /\ dims V2 1 2 /\
  left_null (two 0 : 'M[R]_2) (mx_of 1 2 V2).
Proof.
have [qrf [rzf h]] := eigen_exists R; exists qrf, rzf; have eo := h _ _ _ (two 0) (thr0 R).
have [V] := C157_conditioned_partial eo (conditioned_two0 (thr0 R) (lexx _)); rewrite rank_two0 => -[e [d l]].
by exists V, (PinvCODWB qrf rzf (two 0)).
Qed.
Example C158_example : exists qrf rzf N, getNullSpace qrf rzf thr (of_mx (two 0 : 'M[R]_2)) = Some N /\ dims N 2 1 /\
  kernel (two 0 : 'M[R]_2) (mx_of 2 1 N).
Proof.
have [qrf [rzf h]] := eigen_exists R; exists qrf, rzf; have eo := h _ _ _ (two 0) (thr0 R).
have := @C158_conditioned_partial _ qrf rzf thr (of_mx (two 0 : 'M[R]_2)) (thr0 R) isT; rewrite /= mx_of_mx rank_two0.
by move=> /(_ eo (conditioned_two0 (thr0 R) (lexx _))) [N h']; exists N.
Qed.

(* two levels over two variables: the first asks x0 = 0, the second x1 = 0 *)
Definition lv (k : nat) : level R :=
  LV 0 1 (dzero R 0 2) (dzero R 0 1) (dident R 0) (DM 1 2 (fun _ j => (j == k)%:R)) (dzero R 1 1) (dident R 1) false
     (dzero R 2 2) (dzero R 2 1) (dzero R 2 0) 0 (dzero R 2 1) (dzero R 0 1) (dzero R 1 1)
     (dzero R 0 0) (dzero R 0 1) (dzero R 0 0) (dzero R 0 1) 0 0 (dzero R 0 1).
Example C159_example : exists qrf rzf hs', (forall m n (A : 'M[R]_(m, n)), eigen_ok qrf rzf 0 A) /\
  prepare qrf rzf 0 [:: lv 0; lv 1] = Some hs' /\ prepared 2 (lv 0) hs'.
Proof.
have [qrf [rzf h]] := eigen_exists R; exists qrf, rzf.
have [//|[|[|i]] //|[|i] // _|hs' [e _ pr _]] := @C159_freedom_partial R qrf rzf (fun m n A => h 0 m n A (lexx 0)) 2 (lv 0) [:: lv 0; lv 1] isT; last 1 first.
- exists hs'; split=> // m n A; exact: h.
exists (delta_mx 1 0); split; first by move=> /matrixP/(_ 1 0); rewrite !mxE /= => /eqP; rewrite oner_eq0.
by move=> [|k] // _; apply/matrixP => i j; rewrite !mxE sum2 !mxE /= mul1r !mul0r addr0.
Qed.
(* ... and the hypotheses of the refutation: the first level fixes both variables *)
Definition lv2 : level R :=
  LV 0 2 (dzero R 0 2) (dzero R 0 1) (dident R 0) (of_mx (1%:M : 'M[R]_2)) (dzero R 2 1) (dident R 2) false
     (dzero R 2 2) (dzero R 2 1) (dzero R 2 0) 0 (dzero R 2 1) (dzero R 0 1) (dzero R 2 1)
     (dzero R 0 0) (dzero R 0 1) (dzero R 0 0) (dzero R 0 1) 0 0 (dzero R 0 1).
Example C159_no_freedom_example : exists qrf rzf, prepare qrf rzf 0 [:: lv2; lv 0] = None.
Proof.
have [qrf [rzf h]] := eigen_exists R; exists qrf, rzf.
apply: (@C159_no_freedom_refuted _ _ _ 0 2) => //; last exact: clear0; last exact: h.
by rewrite /Bm /= mx_of_mx mxrank1.
Qed.
End Ex.

Print Assumptions C156_pinv_partial.
Print Assumptions C156_near_partial.
Print Assumptions C156_conditioned_partial.
Print Assumptions C156_threshold_refuted.
Print Assumptions C157_left_null_partial.
Print Assumptions C157_conditioned_partial.
Print Assumptions C157_wide_refuted.
Print Assumptions C157_tall_refuted.
Print Assumptions C157_forced_partial.
Print Assumptions C157_forced_refuted.
Print Assumptions C158_kernel_partial.
Print Assumptions C158_conditioned_partial.
Print Assumptions C158_threshold_refuted.
Print Assumptions C158_empty_refuted.
Print Assumptions C159_no_freedom_refuted.
Print Assumptions C159_freedom_partial.
