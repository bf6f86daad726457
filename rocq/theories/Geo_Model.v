(* Three dimensional vectors and the matrices of src/math.cpp built from them.
   Entries are elements of a commutative ring, not doubles. *)
From mathcomp Require Import all_ssreflect all_algebra.
Set Implicit Arguments.
Unset Strict Implicit.
Unset Printing Implicit Defensive.
Import GRing.Theory.
Local Open Scope ring_scope.

Section GeoModel.
Variable R : comRingType.

(* Vector3d / Matrix3d literals (Eigen types, used throughout /repo). *)
Definition vec3 (a b c : R) : 'cV[R]_3 := \col_(i < 3) nth 0 [:: a; b; c] i.
Definition mx3 (l : seq (seq R)) : 'M[R]_3 := \matrix_(i < 3, j < 3) nth 0 (nth [::] l i) j.

(* src[i], v(i) of a Vector3d *)
Definition X (v : 'cV[R]_3) : R := v (inord 0) 0.
Definition Y (v : 'cV[R]_3) : R := v (inord 1) 0.
Definition Z (v : 'cV[R]_3) : R := v (inord 2) 0.

(* src/math.cpp:9-21 *)
Definition skew (src : 'cV[R]_3) : 'M[R]_3 :=
  mx3 [:: [:: 0; - Z src; Y src];
          [:: Z src; 0; - X src];
          [:: - Y src; X src; 0]].

(* src/math.cpp:55-72, with c = cos(yaw_angle), s = sin(yaw_angle) *)
Definition rotZ (c s : R) : 'M[R]_3 :=
  mx3 [:: [:: c; - s; 0]; [:: s; c; 0]; [:: 0; 0; 1]].

End GeoModel.
