(* What an optimal answer of a problem with lower bounds on the variables is *)
From mathcomp Require Import all_ssreflect all_algebra.
From Verif Require Import DMat QP_Model HQP_Model HQP_Spec.
Set Implicit Arguments.
Unset Strict Implicit.
Unset Printing Implicit Defensive.
Import Order.TTheory GRing.Theory Num.Theory.
Local Open Scope ring_scope.

Section HQSSpec.
Variable R : realFieldType.
Definition above_lb (lb : lbv R) (x : nat -> R) : Prop :=
  forall c b, (c < lsize lb)%N -> lent lb c = Some b -> b <= x c.
Definition bqp_optimal (q : oqp R) (lb : lbv R) (x : nat -> R) : Prop :=
  [/\ oqp_feasible q x, above_lb lb x & forall z, oqp_feasible q z -> above_lb lb z -> oqp_cost q x <= oqp_cost q z].
End HQSSpec.
