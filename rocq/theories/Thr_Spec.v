(* Specification vocabulary for the threaded torque loop. *)
From mathcomp Require Import all_ssreflect all_algebra.
From Verif Require Import DMat DMatL Cone_Model QP_Model QP_Spec.
Set Implicit Arguments.
Unset Strict Implicit.
Unset Printing Implicit Defensive.
Import Order.TTheory GRing.Theory Num.Theory.
Local Open Scope ring_scope.

(* P N s holds of every level s, N being the matrix through which its torque acts: N for the first,
   the null-space matrix of the level before for the others *)
Fixpoint each_level (R : realFieldType) (m : nat) (P : 'M[R]_m -> tspace R -> Prop) (N : 'M[R]_m) (l : seq (tspace R)) : Prop :=
  match l with
  | [::] => True
  | s :: l' => P N s /\ each_level P (mx_of m m (t_Null s)) l'
  end.
