(* Model of write_binary and check_binary (include/dwbc_util.h), the functions the library's regression tests
   store and compare matrices with, for Matrix = MatrixXd.

   Doubles are IEEE doubles here (SpecFloat of the standard library, 53 bits, emax 1024), with their rounding,
   infinities and NaN.  A file is the two sizes and the scalars behind them; the path prefix RESOURCE_DIR is the
   same in both functions and left out.  Not modelled: the std::to_string part of the messages, failing writes. *)
From Coq Require Import ZArith SpecFloat String.
From mathcomp Require Import all_ssreflect.
Set Implicit Arguments.
Unset Strict Implicit.
Unset Printing Implicit Defensive.

Definition double := spec_float.
Definition dsub (a b : double) : double := SFsub 53 1024 a b.
Definition dadd (a b : double) : double := SFadd 53 1024 a b.
Definition dmul (a b : double) : double := SFmul 53 1024 a b.
Definition dsqrt (a : double) : double := SFsqrt 53 1024 a.
Definition d0 : double := S754_zero false.
(* the literal 1.0E-6 of include/dwbc_util.h:55: 4722366482869645 * 2^-72 *)
Definition d1em6 : double := S754_finite false 4722366482869645%positive (-72)%Z.
Definition isNaN (a : double) : bool := if a is S754_nan then true else false.

(* MatrixXd: sizes and data(), column by column *)
Record matrix := Mat { m_rows : nat; m_cols : nat; m_data : seq double }.

(* a file's contents; data may be shorter or longer than rows * cols if something else wrote it *)
Record file := File { f_rows : nat; f_cols : nat; f_data : seq double }.
Definition files := string -> option file.

(* include/dwbc_util.h:14-26 *)
Definition write_binary (fs : files) (filename : string) (m : matrix) : files :=
  fun s => if String.eqb s filename then Some (File (m_rows m) (m_cols m) (m_data m)) else fs s.

(* Eigen's sum(): the additions are nested in some order that depends on its vectorisation *)
Inductive order := Leaf of nat | Node of order & order.
Fixpoint reduce (o : order) (s : seq double) : double :=
  match o with
  | Leaf i => nth d0 s i
  | Node a b => dadd (reduce a s) (reduce b s)
  end.
(* norm() = sqrt(sum of squares); the sum over no entries is 0 *)
Definition norm (o : order) (s : seq double) : double :=
  dsqrt (if s is [::] then d0 else reduce o [seq dmul x x | x <- s]).

(* the string returned *)
Inductive verdict := HasNaN | OK | Similar of double | Error of double.

(* include/dwbc_util.h:28-67.  None: the sizes differ (an assert of operator-, without asserts a read outside of
   the memory of mat_get), or the file is too short (entries of mat_get that were never set).  A missing file
   leaves rows = cols = 0. *)
Definition check_binary (o : order) (fs : files) (filename : string) (m : matrix) : option verdict :=
  let: File rows cols data := if fs filename is Some f then f else File 0 0 [::] in
  if (rows * cols <= size data) && (rows == m_rows m) && (cols == m_cols m) then
    let num := norm o [seq dsub p.1 p.2 | p <- zip (take (rows * cols) data) (m_data m)] in
    Some (if has isNaN (m_data m) then HasNaN
          else if SFeqb num d0 then OK
          else if SFltb num d1em6 then Similar num
          else Error num)
  else None.
