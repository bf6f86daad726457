(* Model of the pseudo-inverses and null spaces of src/wbd.cpp:5-53 (PinvCODWBt, PinvCODWB), src/math.cpp:23-53 (PinvCOD)
   and src/math.cpp:349-361 (getNullSpace), on top of Eigen's CompleteOrthogonalDecomposition.
   Eigen is external: its column-pivoting QR decomposition and the reduction of the leading rows are oracles; the rank
   decision, pseudoInverse(), matrixZ(), colsPermutation() and householderQ() are defined from its documentation.
   Simplified: exact arithmetic; Eigen's additional cut-off of pivots below the rounding error is left out. *)
From mathcomp Require Import all_ssreflect all_algebra.
From Verif Require Import DMat DMatL Cone_Model QP_Model HQP_Model.
Set Implicit Arguments.
Unset Strict Implicit.
Unset Printing Implicit Defensive.
Import Order.TTheory GRing.Theory Num.Theory.
Local Open Scope ring_scope.

Section CodModel.
Variable R : realFieldType.

(* Eigen's ColPivHouseholderQR of an m x n matrix: A P = Q R (src/wbd.cpp:9, compute) *)
Record qr (m n : nat) := QR { q_Q : 'M[R]_m; q_R : 'M[R]_(m, n); q_P : 'M[R]_n }.

(* |R(i, i)| *)
Definition pivot m n (q : qr m n) (i : nat) : R := `|ent (of_mx (q_R q)) i i|.
(* Eigen's maxPivot() *)
Definition maxpivot m n (q : qr m n) : R := foldr Num.max 0 [seq pivot q i | i <- iota 0 (minn m n)].
(* Eigen's rank() with setThreshold(thr), src/wbd.cpp:37, 46 *)
Definition numrank (thr : R) m n (q : qr m n) : nat :=
  count (fun i => thr * maxpivot q < pivot q i) (iota 0 (minn m n)).

(* Eigen's CompleteOrthogonalDecomposition: A P = Q (T 0; 0 0) Z *)
Record cod (m n : nat) := Cod { c_rank : nat; c_Q : 'M[R]_m; c_T : 'M[R]_c_rank; c_Z : 'M[R]_n; c_P : 'M[R]_n }.

(* the two factorisations done by Eigen: the pivoted QR, and T and Z with (first r rows of R) = (T 0) Z *)
Variable qrf : forall m n, 'M[R]_(m, n) -> qr m n.
Variable rzf : forall m n r, 'M[R]_(m, n) -> 'M[R]_r * 'M[R]_n.

(* cod.setThreshold(thr); cod.compute(A); src/wbd.cpp:7-9 *)
Definition compute (thr : R) m n (A : 'M[R]_(m, n)) : cod m n :=
  let q := qrf A in
  let: (T, Z) := rzf (numrank thr q) (q_R q) in
  Cod (q_Q q) T Z (q_P q).

(* Eigen's pseudoInverse(): P Z^T (T^-1 0; 0 0) Q^T.  pid_mx c_rank pads with zeros. *)
Definition pseudoInverse m n (c : cod m n) : 'M[R]_(n, m) :=
  c_P c *m (c_Z c)^T *m (pid_mx (c_rank c) *m invmx (c_T c) *m pid_mx (c_rank c)) *m (c_Q c)^T.

(* include/dwbc_wbd.h:10, include/dwbc_math.h:13 *)
Definition COD_THRESHOLD : R := (10%:R ^+ 6)^-1.

(* src/wbd.cpp:5-12, 14-21, 23-30; src/math.cpp:23-30, 32-39: the same three lines each *)
Definition PinvCODWB m n (A : 'M[R]_(m, n)) : 'M[R]_(n, m) := pseudoInverse (compute COD_THRESHOLD A).

(* src/wbd.cpp:32-53; returns (V2, ret).  None: a block outside of the matrix.  The block has cols = n columns although
   the matrix it is taken from has rows = m. *)
Definition PinvCODWB_V2 m n (A : 'M[R]_(m, n)) (force_rank : nat) : option (dm R * 'M[R]_(n, m)) :=
  let c := compute COD_THRESHOLD A in
  let rank := if (0 < force_rank)%N then force_rank else c_rank c in
  if (rank <= m)%N then
    V2 <- dblock (of_mx (c_Q c)^T) rank 0 (m - rank) n ;;
    Some (V2, pseudoInverse c)
  else None.

(* src/math.cpp:41-53, PinvCOD with V2: as above without force_rank *)
Definition PinvCOD_V2 m n (A : 'M[R]_(m, n)) : option (dm R * 'M[R]_(n, m)) := PinvCODWB_V2 A 0.

(* src/math.cpp:349-361, getNullSpace; thr is Eigen's default threshold.  None: a matrix without columns (Eigen takes the
   largest of its column norms) or a block outside of the matrix. *)
Definition getNullSpace (thr : R) (M : dm R) : option (dm R) :=
  if nc M is 0%N then None else
  let c := compute thr (mx_of (nr M) (nc M) M) in
  if (c_rank c <= nc M)%N then
    N <- dblock (of_mx (c_Z c)^T) 0 (c_rank c) (nc M) (nc M - c_rank c) ;;
    dmul (of_mx (c_P c)) N
  else None.

(* src/dwbc_hqp.cpp:23-85, HQP::prepare with this getNullSpace *)
Fixpoint prepare_rest (thr : R) (Zp : dm R) (hs : seq (level R)) : option (seq (level R)) :=
  match hs with
  | [::] => Some [::]
  | l :: hs' =>
      Bn <- dmul (l_B l) Zp ;;
      N <- getNullSpace thr Bn ;;
      Z <- dmul Zp N ;;
      r <- prepare_rest thr Z hs' ;;
      Some (setZ l Z (nc Z) :: r)
  end.
Definition prepare (thr : R) (hs : seq (level R)) : option (seq (level R)) :=
  match hs with
  | [::] => None
  | l :: hs' =>
      Z <- getNullSpace thr (l_B l) ;;
      r <- prepare_rest thr Z hs' ;;
      Some (setZ l Z (nc Z) :: r)
  end.
End CodModel.
