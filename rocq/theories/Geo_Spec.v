(* Specification: cross product and rotations. *)
From mathcomp Require Import all_ssreflect all_algebra.
From Verif Require Import Geo_Model.
Set Implicit Arguments.
Unset Strict Implicit.
Unset Printing Implicit Defensive.
Import GRing.Theory.
Local Open Scope ring_scope.

Section GeoSpec.
Variable R : comRingType.

(* cross product *)
Definition crossp (a b : 'cV[R]_3) : 'cV[R]_3 :=
  vec3 (Y a * Z b - Z a * Y b) (Z a * X b - X a * Z b) (X a * Y b - Y a * X b).

(* proper rotation *)
Definition rotation (Q : 'M[R]_3) : Prop := Q^T *m Q = 1%:M /\ \det Q = 1.
End GeoSpec.
