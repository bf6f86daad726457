(* Specification for Quat: what a quaternion does to a vector *)
From mathcomp Require Import all_ssreflect all_algebra.
From Verif Require Import Geo_Model Geo_Spec Quat_Model.
Set Implicit Arguments.
Unset Strict Implicit.
Unset Printing Implicit Defensive.
Import GRing.Theory Num.Theory.
Local Open Scope ring_scope.

Section QuatSpec.
Variable R : rcfType.
Local Notation quat := (quat R).

(* Hamilton's product *)
Definition qmul (p q : quat) : quat :=
  Quat (q_w p * q_w q - q_x p * q_x q - q_y p * q_y q - q_z p * q_z q)
       (q_w p * q_x q + q_x p * q_w q + q_y p * q_z q - q_z p * q_y q)
       (q_w p * q_y q - q_x p * q_z q + q_y p * q_w q + q_z p * q_x q)
       (q_w p * q_z q + q_x p * q_y q - q_y p * q_x q + q_z p * q_w q).
Definition qconj (q : quat) : quat := Quat (q_w q) (- q_x q) (- q_y q) (- q_z q).
Definition qneg (q : quat) : quat := Quat (- q_w q) (- q_x q) (- q_y q) (- q_z q).
Definition qvec (v : 'cV[R]_3) : quat := Quat 0 (X v) (Y v) (Z v).
Definition unit (q : quat) : Prop := q_w q ^+ 2 + q_x q ^+ 2 + q_y q ^+ 2 + q_z q ^+ 2 = 1.
(* q v q^-1 = Q v for every vector *)
Definition represents (q : quat) (Q : 'M[R]_3) : Prop := forall v, qmul (qmul q (qvec v)) (qconj q) = qvec (Q *m v).
(* the cosine of half the angle between two orientations, with sign *)
Definition qdot (p q : quat) : R := q_w p * q_w q + q_x p * q_x q + q_y p * q_y q + q_z p * q_z q.
End QuatSpec.
