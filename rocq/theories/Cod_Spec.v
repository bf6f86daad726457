(* Specification for Cod: what Eigen documents about its decompositions *)
From mathcomp Require Import all_ssreflect all_algebra.
From Verif Require Import LinAlg DMat DMatL Cod_Model.
Set Implicit Arguments.
Unset Strict Implicit.
Unset Printing Implicit Defensive.
Import Order.TTheory GRing.Theory Num.Theory.
Local Open Scope ring_scope.

Section CodSpec.
Variable R : realFieldType.

Definition orthogonal n (Q : 'M[R]_n) : Prop := Q^T *m Q = 1%:M.

(* R is upper triangular, and every diagonal entry is the longest remaining column *)
Definition pivoted m n (S : 'M[R]_(m, n)) : Prop :=
  (forall (i : 'I_m) (j : 'I_n), (j < i)%N -> S i j = 0) /\
  (forall (i : 'I_m) (k j : 'I_n), k = i :> nat -> (i <= j)%N -> \sum_(l < m | (i <= l)%N) S l j ^+ 2 <= S i k ^+ 2).

Definition qr_ok m n (A : 'M[R]_(m, n)) (q : qr R m n) : Prop :=
  [/\ orthogonal (q_Q q), is_perm_mx (q_P q), A *m q_P q = q_Q q *m q_R q & pivoted (q_R q)].

Definition rz_ok m n r (S : 'M[R]_(m, n)) (TZ : 'M[R]_r * 'M[R]_n) : Prop :=
  [/\ TZ.1 \in unitmx, orthogonal TZ.2 & (pid_mx r : 'M_(r, m)) *m S = TZ.1 *m (pid_mx r : 'M_(r, n)) *m TZ.2].

(* Eigen keeps its promises for the matrix A *)
Definition eigen_ok (qrf : forall m n, 'M[R]_(m, n) -> qr R m n) (rzf : forall m n r, 'M[R]_(m, n) -> 'M[R]_r * 'M[R]_n)
  (thr : R) m n (A : 'M[R]_(m, n)) : Prop :=
  qr_ok A (qrf _ _ A) /\ rz_ok (q_R (qrf _ _ A)) (rzf _ _ (numrank thr (qrf _ _ A)) (q_R (qrf _ _ A))).

(* no pivot is small without being zero *)
Definition clear_rank (thr : R) m n (q : qr R m n) : Prop :=
  forall i, pivot q i != 0 -> thr * maxpivot q < pivot q i.

(* squared length of a column *)
Definition colsq m n (A : 'M[R]_(m, n)) (j : 'I_n) : R := \sum_i A i j ^+ 2.

(* A = B C with B and C injective resp. surjective by a margin that is large against the threshold: a condition on A alone.
   sB and sC bound the squared singular values of B and C from below. *)
Definition conditioned (thr : R) m n (A : 'M[R]_(m, n)) : Prop :=
  exists r (B : 'M[R]_(m, r)) (C : 'M[R]_(r, n)) sB sC, [/\ A = B *m C, 0 < sB /\ 0 < sC,
    forall x, sB * dot x x <= dot (B *m x) (B *m x), forall y, sC * dot y y <= dot (C^T *m y) (C^T *m y) &
    forall j, thr ^+ 2 * (n%:R * colsq A j) < sB * sC].

(* the rows of V are an orthonormal basis of the left null space of A *)
Definition left_null m n k (A : 'M[R]_(m, n)) (V : 'M[R]_(k, m)) : Prop :=
  [/\ V *m A = 0, V *m V^T = 1%:M & forall y : 'rV[R]_m, y *m A = 0 -> exists u : 'rV[R]_k, y = u *m V].

(* the columns of N are an orthonormal basis of the kernel of A *)
Definition kernel m n k (A : 'M[R]_(m, n)) (N : 'M[R]_(n, k)) : Prop :=
  [/\ A *m N = 0, N^T *m N = 1%:M & forall x : 'cV[R]_n, A *m x = 0 -> exists u : 'cV[R]_k, x = N *m u].
End CodSpec.
