(* What it means for the solver objects to have been set up for a hierarchy *)
From mathcomp Require Import all_ssreflect all_algebra.
From Verif Require Import DMat DMatL HQP_Model HQP_Spec OSQ_Model.
Set Implicit Arguments.
Unset Strict Implicit.
Unset Printing Implicit Defensive.
Local Open Scope ring_scope.

Section OSQSpec.
Variable R : realFieldType.
(* a problem of nv variables and nc inequality rows *)
Definition problem_size (q : oqp R) (nv ncon : nat) : Prop :=
  [/\ dims (o_H q) nv nv, dims (o_g q) nv 1, dims (o_A q) ncon nv & dims (o_ub q) ncon 1].
(* every level below the first has an initialised solver object of the level's size: some problem was loaded into it *)
Definition loaded (st : nat -> solver R) (d : level R) (hs : seq (level R)) (w : nat -> oqp R) : Prop :=
  forall i, (0 < i < size hs)%N -> s_work (st i) = Some (w i) /\
    problem_size (w i) (l_ns (nth d hs i.-1) + l_nin (nth d hs i)) (rows_of (take i.+1 hs)).
(* the same numbers of rows and the same null space sizes *)
Definition same_sizes (d : level R) (hs hs2 : seq (level R)) : Prop :=
  size hs2 = size hs /\ forall i, (i < size hs)%N ->
    l_nin (nth d hs2 i) = l_nin (nth d hs i) /\ l_ns (nth d hs2 i) = l_ns (nth d hs i).
End OSQSpec.
