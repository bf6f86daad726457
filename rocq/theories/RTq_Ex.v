(* Matrices of six-by-six scalar blocks, and the robot of the C115 witness. *)
From mathcomp Require Import all_ssreflect all_algebra.
From mathcomp Require Import zify ring.
From Verif Require Import LinAlg.
Set Implicit Arguments.
Unset Strict Implicit.
Unset Printing Implicit Defensive.
Import Order.TTheory GRing.Theory Num.Theory.
Local Open Scope ring_scope.

Section Tens.
Variable R : realFieldType.
Implicit Types (M N : nat -> nat -> R) (V : nat -> R).

(* block (i, j) is M i j times the identity of size 6 *)
Definition tn m n M : 'M[R]_(m, n) := \matrix_(i, j) (((i %% 6)%N == (j %% 6)%N)%:R * M (i %/ 6)%N (j %/ 6)%N).
(* block i is V i times the vector (0 0 1 0 0 0) *)
Definition tv m V : 'cV[R]_m := \col_i (((i %% 6)%N == 2%N)%:R * V (i %/ 6)%N).
Definition tb (L : seq (seq R)) (i j : nat) : R := nth 0 (nth [::] L i) j.

Lemma tn_ext m n p q M N : m = (6 * p)%N -> n = (6 * q)%N ->
  (forall i j, (i < p)%N -> (j < q)%N -> M i j = N i j) -> tn m n M = tn m n N.
Proof.
move=> em en h; apply/matrixP => i j; rewrite !mxE; congr (_ * _).
by apply: h; rewrite ltn_divLR // mulnC -?em -?en.
Qed.
Lemma tv_ext m p (V W : nat -> R) : m = (6 * p)%N -> (forall i, (i < p)%N -> V i = W i) -> tv m V = tv m W.
Proof.
move=> em h; apply/matrixP => i j; rewrite !mxE; congr (_ * _).
by apply: h; rewrite ltn_divLR // mulnC -em.
Qed.

Lemma sum_blocks (q : nat) (f : nat -> nat -> R) :
  \sum_(k < 6 * q) f (k %/ 6)%N (k %% 6)%N = \sum_(l < q) \sum_(r < 6) f l r.
Proof.
elim: q => [|q IH]; first by rewrite muln0 !big_ord0.
rewrite [RHS]big_ord_recr /= -IH mulnS addnC big_split_ord /=; congr (_ + _).
apply: eq_bigr => r _; have lr := ltn_ord r.
have -> : ((6 * q + r) %/ 6 = q)%N by lia.
by have -> : ((6 * q + r) %% 6 = r)%N by lia.
Qed.

Lemma pick6 (a : nat) (g : nat -> R) : (a < 6)%N -> \sum_(r < 6) (a == r)%:R * g r = g a.
Proof.
move=> la; rewrite (bigD1 (Ordinal la)) //= eqxx mul1r big1 ?addr0 // => i ni.
have -> : (a == i)%N = false by apply/negP => /eqP e; case/negP: ni; apply/eqP; apply: val_inj; exact: esym e.
by rewrite mul0r.
Qed.

Lemma tn_mul m k n q M N : k = (6 * q)%N ->
  tn m k M *m tn k n N = tn m n (fun i j => \sum_(l < q) M i l * N l j).
Proof.
move=> ek; subst k; apply/matrixP => i j; rewrite !mxE.
pose f (l r : nat) : R := ((i %% 6)%N == r)%:R * ((r == (j %% 6)%N)%:R * (M (i %/ 6)%N l * N l (j %/ 6)%N)).
rewrite (eq_bigr (fun k : 'I_(6 * q) => f (k %/ 6)%N (k %% 6)%N)); last first.
  by move=> k _; rewrite !mxE /f; ring.
rewrite sum_blocks mulr_sumr; apply: eq_bigr => l _.
by rewrite /f (pick6 (fun r => (r == (j %% 6)%N)%:R * (M (i %/ 6)%N l * N l (j %/ 6)%N))) // ltn_mod.
Qed.

Lemma tv_mul m k q M V : k = (6 * q)%N -> tn m k M *m tv k V = tv m (fun i => \sum_(l < q) M i l * V l).
Proof.
move=> ek; subst k; apply/matrixP => i j; rewrite !mxE.
pose f (l r : nat) : R := ((i %% 6)%N == r)%:R * ((r == 2%N)%:R * (M (i %/ 6)%N l * V l)).
rewrite (eq_bigr (fun k : 'I_(6 * q) => f (k %/ 6)%N (k %% 6)%N)); last first.
  by move=> k _; rewrite !mxE /f; ring.
rewrite sum_blocks mulr_sumr; apply: eq_bigr => l _.
by rewrite /f (pick6 (fun r => (r == 2%N)%:R * (M (i %/ 6)%N l * V l))) // ltn_mod.
Qed.

Lemma tn_tr m n M : (tn m n M)^T = tn n m (fun i j => M j i).
Proof. by apply/matrixP => i j; rewrite !mxE eq_sym. Qed.
Lemma tn_add m n M N : tn m n M + tn m n N = tn m n (fun i j => M i j + N i j).
Proof. by apply/matrixP => i j; rewrite !mxE mulrDr. Qed.
Lemma tn_opp m n M : - tn m n M = tn m n (fun i j => - M i j).
Proof. by apply/matrixP => i j; rewrite !mxE mulrN. Qed.
Lemma tv_add m (V W : nat -> R) : tv m V + tv m W = tv m (fun i => V i + W i).
Proof. by apply/matrixP => i j; rewrite !mxE mulrDr. Qed.
Lemma tv_opp m (V : nat -> R) : - tv m V = tv m (fun i => - V i).
Proof. by apply/matrixP => i j; rewrite !mxE mulrN. Qed.
Lemma tn_1 m : 1%:M = tn m m (fun i j => (i == j)%:R).
Proof.
apply/matrixP => i j; rewrite !mxE -val_eqE /= -natrM mulnb; congr (_%:R); congr nat_of_bool.
by apply/idP/andP => [/eqP ->|[/eqP h1 /eqP h2]]; [|rewrite (divn_eq i 6) (divn_eq j 6) h1 h2].
Qed.
Lemma tn_0 m n : 0 = tn m n (fun _ _ => 0).
Proof. by apply/matrixP => i j; rewrite !mxE mulr0. Qed.
Lemma tv_0 m : 0 = tv m (fun _ => 0).
Proof. by apply/matrixP => i j; rewrite !mxE mulr0. Qed.
Lemma tn_l m a b M : lsubmx (tn m (a + b) M) = tn m a M.
Proof. by apply/matrixP => i j; rewrite !mxE. Qed.
Lemma tn_u a b n M : usubmx (tn (a + b) n M) = tn a n M.
Proof. by apply/matrixP => i j; rewrite !mxE. Qed.
Lemma tv_u a b V : usubmx (tv (a + b) V) = tv a V.
Proof. by apply/matrixP => i j; rewrite !mxE. Qed.
Lemma addb a q (i : nat) : a = (6 * q)%N -> ((a + i) %/ 6)%N = (q + i %/ 6)%N /\ ((a + i) %% 6 = i %% 6)%N.
Proof. by move=> ->; lia. Qed.
Lemma tn_r m a b q M : a = (6 * q)%N -> rsubmx (tn m (a + b) M) = tn m b (fun i j => M i (q + j)%N).
Proof. by move=> ea; apply/matrixP => i j; rewrite !mxE /=; have [-> ->] := addb j ea. Qed.
Lemma tn_d a b n q M : a = (6 * q)%N -> dsubmx (tn (a + b) n M) = tn b n (fun i j => M (q + i)%N j).
Proof. by move=> ea; apply/matrixP => i j; rewrite !mxE /=; have [-> ->] := addb i ea. Qed.
Lemma tv_d a b q V : a = (6 * q)%N -> dsubmx (tv (a + b) V) = tv b (fun i => V (q + i)%N).
Proof. by move=> ea; apply/matrixP => i j; rewrite !mxE /=; have [-> ->] := addb i ea. Qed.
Lemma lowb a q (i : 'I_a) : a = (6 * q)%N -> (i %/ 6 < q)%N.
Proof. by move=> ea; have := ltn_ord i; lia. Qed.
Lemma tn_row m a b q M N : a = (6 * q)%N ->
  row_mx (tn m a M) (tn m b N) = tn m (a + b) (fun i j => if (j < q)%N then M i j else N i (j - q)%N).
Proof.
move=> ea; apply/matrixP => i j; rewrite !mxE; case: splitP => k ->; rewrite !mxE /=; first by rewrite (lowb k ea).
have [-> ->] := addb k ea; by rewrite ltnNge leq_addr addKn.
Qed.
Lemma tn_col a b n q M N : a = (6 * q)%N ->
  col_mx (tn a n M) (tn b n N) = tn (a + b) n (fun i j => if (i < q)%N then M i j else N (i - q)%N j).
Proof.
move=> ea; apply/matrixP => i j; rewrite !mxE; case: splitP => k ->; rewrite !mxE /=; first by rewrite (lowb k ea).
have [-> ->] := addb k ea; by rewrite ltnNge leq_addr addKn.
Qed.
Lemma tv_col a b q (V W : nat -> R) : a = (6 * q)%N ->
  col_mx (tv a V) (tv b W) = tv (a + b) (fun i => if (i < q)%N then V i else W (i - q)%N).
Proof.
move=> ea; apply/matrixP => i j; rewrite !mxE; case: splitP => k ->; rewrite !mxE /=; first by rewrite (lowb k ea).
have [-> ->] := addb k ea; by rewrite ltnNge leq_addr addKn.
Qed.
Lemma tn_block a b c d q r (M1 M2 M3 M4 : nat -> nat -> R) : a = (6 * q)%N -> c = (6 * r)%N ->
  block_mx (tn a c M1) (tn a d M2) (tn b c M3) (tn b d M4) =
  tn (a + b) (c + d) (fun i j => if (i < q)%N then if (j < r)%N then M1 i j else M2 i (j - r)%N
                                 else if (j < r)%N then M3 (i - q)%N j else M4 (i - q)%N (j - r)%N).
Proof.
move=> ea ec; rewrite /block_mx (tn_row _ _ _ _ ec) (tn_row _ _ _ _ ec) (tn_col _ _ _ _ ea).
by apply/matrixP => i j; rewrite !mxE; case: ifP.
Qed.

Lemma inv_uniq m (A B : 'M[R]_m) : A *m B = 1%:M -> invmx A = B.
Proof. by move=> e; have [u _] := mulmx1_unit e; rewrite -[B](mulKmx u) e mulmx1. Qed.
Lemma unit_of m (A B : 'M[R]_m) : A *m B = 1%:M -> A \in unitmx.
Proof. by move/mulmx1_unit => []. Qed.
End Tens.
