(* Specification for Bin *)
From Coq Require Import ZArith SpecFloat String.
From mathcomp Require Import all_ssreflect.
From Verif Require Import Bin_Model.
Set Implicit Arguments.
Unset Strict Implicit.
Unset Printing Implicit Defensive.

(* a matrix holds as many entries as its sizes say *)
Definition well_sized (m : matrix) : Prop := size (m_data m) = m_rows m * m_cols m.

(* the entries summed, in the order they are met *)
Fixpoint leaves (o : order) : seq nat :=
  match o with Leaf i => [:: i] | Node a b => leaves a ++ leaves b end.
(* every entry of a matrix of n entries is summed once *)
Definition sums_all (o : order) (n : nat) : Prop := 0 < n -> perm_eq (leaves o) (iota 0 n).

Definition finite (a : double) : bool := match a with S754_zero _ | S754_finite _ _ _ => true | _ => false end.
Definition infinite (a : double) : bool := if a is S754_infinity _ then true else false.
