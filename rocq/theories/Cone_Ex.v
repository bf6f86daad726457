(* Concrete contacts over the rationals used by the examples in Cone_Props.v *)
From mathcomp Require Import all_ssreflect all_algebra.
From Verif Require Import DMat Cone_Model Cone_Spec.
Set Implicit Arguments.
Unset Strict Implicit.
Unset Printing Implicit Defensive.
Import Order.TTheory GRing.Theory Num.Theory.
Local Open Scope ring_scope.

Definition Q : realFieldType := [realFieldType of rat].

Definition xc0 : 'cV[Q]_3 := \col_i (i%:R).

(* plane contact, identity orientation, plate 2 x 1, friction 1/2 and 1/4 *)
Definition plane1 (on : bool) : pcontact Q :=
  PContact on 6 10 1%:M 2%:R 1 (1 / 2%:R) (1 / 4%:R) xc0.
Definition point1 (on : bool) : pcontact Q :=
  PContact on 3 6 1%:M 2%:R 1 (1 / 2%:R) (1 / 4%:R) xc0.

(* a stacked force: second block presses with -8 and stays in the cone *)
Definition F1 : seq Q :=
  [:: 1; 0; - 10%:R; 1; 1; 0; 1; -1; - 8%:R; 4%:R; - 4%:R; 1].
