(* Model of A_.llt().solve(Identity) (src/dwbc.cpp:307, with which UpdateKinematics sets A_inv_) and of
   A_R = A_R_inv.llt().solve(Identity) (src/dwbc.cpp:2958): Eigen's Cholesky factorisation, column by column as in its
   llt_inplace<Lower>::unblocked, and the two triangular solves.  Eigen is external; this is its published algorithm.
   Simplified: exact arithmetic with exact square roots.  For 32 and more coordinates Eigen works on blocks of columns;
   the numbers of a completed factorisation are the same, those of an abandoned one are not (no theorem depends on them). *)
From mathcomp Require Import all_ssreflect all_algebra.
Set Implicit Arguments.
Unset Strict Implicit.
Unset Printing Implicit Defensive.
Import Order.TTheory GRing.Theory Num.Theory.
Local Open Scope ring_scope.

Section LltModel.
Variables (R : rcfType) (n : nat).

(* one column, in place.  None: x <= 0, the factorisation is abandoned and info() is NumericalIssue *)
Definition llt_col (M : 'M[R]_n) (k : 'I_n) : option 'M[R]_n :=
  let x := M k k - \sum_(l < n | (l < k)%N) M k l * M k l in
  if x <= 0 then None
  else Some (\matrix_(i, j)
    if j == k then
      if i == k then Num.sqrt x
      else if (k < i)%N then (M i k - \sum_(l < n | (l < k)%N) M i l * M k l) / Num.sqrt x
      else M i j
    else M i j).

(* all columns; the matrix as it is left behind, and info() == Success *)
Fixpoint llt_loop (ks : seq 'I_n) (M : 'M[R]_n) : 'M[R]_n * bool :=
  match ks with
  | [::] => (M, true)
  | k :: ks' => if llt_col M k is Some M' then llt_loop ks' M' else (M, false)
  end.
Definition llt (A : 'M[R]_n) : 'M[R]_n * bool := llt_loop (enum 'I_n) A.

(* matrixL(): the lower triangle of what is left behind *)
Definition matrixL (M : 'M[R]_n) : 'M[R]_n := \matrix_(i, j) if (j <= i)%N then M i j else 0.

(* solve(Identity): X with L L^T X = 1, by substitution, which divides by the diagonal of L.  info() is not looked at.
   None: division by zero (infinities or NaN in the result) *)
Definition solve_identity (M : 'M[R]_n) : option 'M[R]_n :=
  if [forall i, M i i != 0] then Some (invmx (matrixL M *m (matrixL M)^T)) else None.

(* src/dwbc.cpp:307 *)
Definition set_A_inv (A : 'M[R]_n) : option 'M[R]_n := solve_identity (llt A).1.
End LltModel.
