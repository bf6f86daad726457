(* Proofs for Llt *)
From mathcomp Require Import all_ssreflect all_algebra.
From mathcomp Require Import zify.
From Verif Require Import LinAlg Cod_Cond Llt_Model.
Set Implicit Arguments.
Unset Strict Implicit.
Unset Printing Implicit Defensive.
Import Order.TTheory GRing.Theory Num.Theory.
Local Open Scope ring_scope.

Section P.
Variables (R : rcfType) (n : nat).

(* the columns finished after k steps *)
Definition done (k : nat) (M : 'M[R]_n) : 'M[R]_n := \matrix_(i, j) if ((j <= i) && (j < k))%N then M i j else 0.
Definition Inv (A M : 'M[R]_n) (k : nat) : Prop :=
  [/\ forall i j : 'I_n, (k <= j)%N || (i < j)%N -> M i j = A i j,
      forall i j : 'I_n, (j < k)%N -> (j <= i)%N -> (done k M *m (done k M)^T) i j = A i j &
      forall j : 'I_n, (j < k)%N -> 0 < M j j].

Lemma done_sum k (M : 'M[R]_n) (i j : 'I_n) : (k <= i)%N -> (k <= j)%N ->
  (done k M *m (done k M)^T) i j = \sum_(l < n | (l < k)%N) M i l * M j l.
Proof.
move=> hi hj; rewrite !mxE [RHS]big_mkcond; apply: eq_bigr => l _; rewrite !mxE; case: (ltnP l k) => hl; rewrite ?andbF ?mul0r //.
by rewrite !andbT !ifT //; lia.
Qed.

Lemma quad_corner (S : 'M[R]_n) (w : 'cV[R]_n) (k : 'I_n) :
  (forall i j : 'I_n, (i < k)%N || (j < k)%N -> S i j = 0) -> (forall i : 'I_n, (k < i)%N -> w i 0 = 0) ->
  quad S w = S k k * w k 0 ^+ 2.
Proof.
move=> S0 w0; rewrite /quad /sc !mxE (bigD1 k) //= big1 => [|i ni]; last first.
  case: (ltnP k i) => hi; first by rewrite w0 // mulr0.
  have {}hi : (i < k)%N by rewrite ltn_neqAle hi andbT.
  by rewrite !mxE big1 ?mul0r // => l _; rewrite S0 ?mulr0 // hi orbT.
rewrite addr0 !mxE (bigD1 k) //= big1 => [|i ni]; last first.
  case: (ltnP k i) => hi; first by rewrite mxE w0 // mul0r.
  have {}hi : (i < k)%N by rewrite ltn_neqAle hi andbT.
  by rewrite S0 ?mulr0 // hi.
by rewrite addr0 mxE; move: (w k 0) (S k k) => x y; rewrite expr2 mulrA [x * y]mulrC.
Qed.

(* the remainder is positive on the next diagonal entry *)
Lemma pivot_pos A M (k : 'I_n) : posdef A -> Inv A M k -> 0 < M k k - \sum_(l < n | (l < k)%N) M k l * M k l.
Proof.
move=> [sA pA] [h1 h2 h3]; rewrite -done_sum // h1 ?leqnn //; set L := done k M.
have kn : (k.+1 <= n)%N by [].
pose F := pid_mx k.+1 : 'M[R]_(n, k.+1).
pose B := (pid_mx k : 'M[R]_(k, n)) *m L^T *m F.
have [u nu Bu] : exists2 u : 'cV[R]_k.+1, u != 0 & B *m u = 0.
  have : kermx B^T != 0.
    rewrite -mxrank_eq0 mxrank_ker subn_eq0 -ltnNge; exact: leq_ltn_trans (rank_leq_col _) _.
  case/rowV0Pn => v /sub_kermxP hv nv; exists v^T; first by rewrite -trmx0 (inj_eq trmx_inj).
  by apply: trmx_inj; rewrite trmx_mul trmxK trmx0.
pose w := F *m u.
have wE (i : 'I_n) : w i 0 = if insub (val i) : option 'I_k.+1 is Some i' then u i' 0 else 0.
  case: insubP => [i' _ ei|/negP hi]; rewrite !mxE.
    rewrite (bigD1 i') //= !mxE -ei eqxx ltn_ord mul1r big1 ?addr0 // => l nl.
    by rewrite !mxE -ei (_ : (i' == l :> nat) = false) ?mul0r //; apply/negbTE; rewrite eq_sym.
  rewrite big1 // => l _; rewrite !mxE; case: eqP => e; rewrite ?mul0r //=; case: ltnP => h; rewrite ?mul0r //.
have w0 (i : 'I_n) : (k < i)%N -> w i 0 = 0 by move=> hi; rewrite wE; case: insubP => // i'; rewrite ltnS leqNgt hi.
have nw : w != 0.
  apply: contra nu => /eqP e; apply/eqP/matrixP => i j; rewrite (ord1 j) mxE.
  have hi : (i < n)%N by apply: leq_trans (ltn_ord i) kn.
  have := wE (Ordinal hi); rewrite e mxE; case: insubP => [i' _ ei ->|]; last by rewrite /= ltn_ord.
  by congr (u _ 0); apply: val_inj; rewrite ei.
have Lw : L^T *m w = 0.
  apply/matrixP => i j; rewrite (ord1 j) [RHS]mxE; case: (ltnP i k) => hi; last first.
    by rewrite mxE big1 // => l _; rewrite !mxE ltnNge hi andbF mul0r.
  have := congr1 (fun M : 'cV_k => M (Ordinal hi) 0) Bu; rewrite /B -!mulmxA -/w [RHS]mxE.
  have hi' : (Ordinal hi < n)%N by exact: (ltn_ord i).
  rewrite (pidS (L^T *m w) 0 hi') => h; rewrite -[RHS]h; congr (_ _ _); exact: val_inj.
have q : quad A w = (A k k - (L *m L^T) k k) * w k 0 ^+ 2.
  have -> : quad A w = quad (A - L *m L^T) w.
    rewrite /quad mulmxBr mulmxBl; congr sc.
    by rewrite -!mulmxA Lw !mulmx0 subr0.
  set S := A - L *m L^T.
  have SE i j : S i j = A i j - (L *m L^T) i j by rewrite mxE [X in _ + X]mxE.
  have T i j : (L *m L^T) i j = (L *m L^T) j i.
    by rewrite -[in LHS](trmxK (L *m L^T)) mxE trmx_mul trmxK.
  have sA' i j : A i j = A j i by rewrite -{1}sA mxE.
  have S0 (i j : 'I_n) : (i < k)%N || (j < k)%N -> S i j = 0.
    move=> h; rewrite SE; case: (leqP j i) => ij.
      by rewrite h2 ?subrr //; lia.
    by rewrite T h2 1?sA' ?subrr //; lia.
  by rewrite -SE; apply: quad_corner.
have := pA w nw; rewrite q => h; rewrite ltNge; apply/negP => le0.
by move: h; rewrite ltNge => /negP; apply; rewrite mulr_le0_ge0 ?sqr_ge0.
Qed.

(* one step keeps the invariant *)
Lemma col_step A M N (k : 'I_n) : Inv A M k -> llt_col M k = Some N -> Inv A N k.+1.
Proof.
move=> [h1 h2 h3]; rewrite /llt_col; set x := _ - _; case: (lerP x 0) => // x0 [<-]; set M' := \matrix_(i, j) _.
have E i j : j != k -> M' i j = M i j by move=> nj; rewrite mxE (negbTE nj).
have Ed : M' k k = Num.sqrt x by rewrite mxE !eqxx.
have s0 : Num.sqrt x != 0 by rewrite gt_eqF // sqrtr_gt0.
have El (i : 'I_n) : (k < i)%N -> M' i k = (M i k - \sum_(l < n | (l < k)%N) M i l * M k l) / Num.sqrt x.
  by move=> ki; rewrite mxE eqxx ifN ?ki // -val_eqE /= gtn_eqF.
have Eu (i : 'I_n) : (i < k)%N -> M' i k = M i k.
  by move=> ik; rewrite mxE eqxx -val_eqE /= ltn_eqF // ltnNge ltnW.
clearbody M'.
have D i j : done k.+1 M' i j = done k M i j + (if (j == k) && (k <= i)%N then M' i k else 0).
  rewrite ![done _ _ _ _]mxE; case: (j =P k) => [->|/eqP nj] /=.
    by rewrite ltnn andbF ltnSn andbT add0r.
  have -> : (j < k.+1)%N = (j < k)%N by rewrite ltnS leq_eqVlt; move: nj; rewrite -val_eqE /= => /negbTE ->.
  by rewrite E // addr0.
have DD i j : (done k.+1 M' *m (done k.+1 M')^T) i j =
    (done k M *m (done k M)^T) i j + (if (k <= i)%N && (k <= j)%N then M' i k * M' j k else 0).
  have dk a : done k M a k = 0 by rewrite mxE ltnn andbF.
  rewrite mxE [X in _ = X + _]mxE (bigD1 k) //= [in RHS](bigD1 k) //= ![_^T _ _]mxE !D !dk eqxx /= !add0r mul0r add0r addrC; congr (_ + _).
    by apply: eq_bigr => l nl; rewrite ![_^T _ _]mxE !D (negbTE nl) /= !addr0.
  by case: (leqP k i) => ?; case: (leqP k j) => ?; rewrite /= ?mul0r ?mulr0.
split.
- move=> i j h; case: (j =P k) => [ej|/eqP nj]; last first.
    rewrite E //; apply: h1; case/orP: h => h; last by rewrite h orbT.
    by rewrite ltnW.
  have ik : (i < k)%N by move: h; rewrite ej ltnn.
  by rewrite ej Eu // h1 // leqnn.
- move=> i j; rewrite ltnS leq_eqVlt => /orP[/eqP/val_inj ->|jk] ji; rewrite DD; last first.
    by rewrite [(k <= j)%N]leqNgt jk andbF addr0 h2.
  rewrite ji leqnn /= done_sum // Ed; case: (ltngtP k i) => ki; last 1 first.
  + have {}ki : i = k by apply: val_inj.
    rewrite ki Ed -expr2 sqr_sqrtr ?ltW // -(h1 k k) ?leqnn // /x addrC subrK //.
  + by rewrite El // divfK // -(h1 i k) ?leqnn // addrC subrK.
  + by move: ji; rewrite leqNgt ki.
- move=> j; rewrite ltnS leq_eqVlt => /orP[/eqP/val_inj ->|jk]; first by rewrite Ed sqrtr_gt0.
  by rewrite E ?h3 // -val_eqE /= ltn_eqF.
Qed.

Lemma Inv0 A : Inv A A 0.
Proof. by split. Qed.

Lemma drop_enum (k : 'I_n) : drop k (enum 'I_n) = k :: drop k.+1 (enum 'I_n).
Proof. by rewrite (drop_nth k) ?size_enum_ord // nth_ord_enum. Qed.

Lemma loop_ok A : forall d k M, (n - k = d)%N -> (k <= n)%N -> Inv A M k ->
  (llt_loop (drop k (enum 'I_n)) M).2 -> Inv A (llt_loop (drop k (enum 'I_n)) M).1 n.
Proof.
elim=> [|d IH] k M e hk I.
  have -> : k = n by lia.
  rewrite drop_oversize ?size_enum_ord //= => _; have <- : k = n by lia.
  by [].
have kn : (k < n)%N by lia.
rewrite (drop_enum (Ordinal kn)) /=; case E: (llt_col _ _) => [M'|] //=; apply: IH; try lia.
exact: (col_step (k := Ordinal kn) I E).
Qed.

Lemma loop_succ A : posdef A -> forall d k M, (n - k = d)%N -> (k <= n)%N -> Inv A M k ->
  (llt_loop (drop k (enum 'I_n)) M).2.
Proof.
move=> pA; elim=> [|d IH] k M e hk I.
  by rewrite drop_oversize ?size_enum_ord //; lia.
have kn : (k < n)%N by lia.
rewrite (drop_enum (Ordinal kn)) /=; have := pivot_pos (k := Ordinal kn) pA I.
case E: (llt_col _ _) => [M'|] //=; first by move=> _; apply: IH; try lia; exact: (col_step (k := Ordinal kn) I E).
by move: E; rewrite /llt_col; case: ifP => // le _ lt; move: (le_lt_trans le lt); rewrite ltxx.
Qed.

Lemma doneL (M : 'M[R]_n) : done n M = matrixL M.
Proof. by apply/matrixP => i j; rewrite !mxE ltn_ord andbT. Qed.

Lemma llt_ok A : (llt A).2 -> Inv A (llt A).1 n.
Proof. by move=> h; have := @loop_ok A n 0 A (subn0 n) (leq0n n) (Inv0 A); rewrite drop0; apply. Qed.

Lemma llt_succ (A : 'M[R]_n) : posdef A -> (llt A).2.
Proof. by move=> pA; have := @loop_succ A pA n 0 A (subn0 n) (leq0n n) (Inv0 A); rewrite drop0. Qed.

Lemma LLt_sym (A : 'M[R]_n) : A^T = A -> (llt A).2 -> matrixL (llt A).1 *m (matrixL (llt A).1)^T = A.
Proof.
move=> sA /llt_ok; move: (llt A).1 => M [_ h2 _]; rewrite -doneL; move: (done n M) h2 => L h2.
apply/matrixP => i j; case: (leqP j i) => ij; first by rewrite h2.
have -> : (L *m L^T) i j = (L *m L^T) j i by rewrite -[in LHS](trmxK (L *m L^T)) mxE trmx_mul trmxK.
by rewrite h2 ?(ltnW ij) ?ltn_ord //; have := congr1 (fun M : 'M_n => M i j) sA; rewrite mxE.
Qed.

Lemma matrixL_unit (M : 'M[R]_n) : (forall i, M i i != 0) -> matrixL M \in unitmx.
Proof.
move=> h; rewrite unitmxE det_trig; last by apply/is_trig_mxP => i j ij; rewrite mxE leqNgt ij.
by rewrite unitfE; apply/prodf_neq0 => i _; rewrite mxE leqnn.
Qed.

Lemma LLt_posdef (L : 'M[R]_n) : L \in unitmx -> posdef (L *m L^T).
Proof.
move=> u; split; first by rewrite /symmetric trmx_mul trmxK.
move=> x nx; rewrite /quad.
have -> : x^T *m (L *m L^T) *m x = (L^T *m x)^T *m (L^T *m x) by rewrite trmx_mul trmxK !mulmxA.
apply: (@dot_gt0 R n (L^T *m x)); apply: contra nx => /eqP e; apply/eqP.
have ut : L^T \in unitmx by rewrite unitmx_tr.
by have := mulKmx ut x; rewrite e mulmx0 => <-.
Qed.
End P.
