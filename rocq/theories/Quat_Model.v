(* Model of Link::GetQuat (src/link.cpp:121-124) and Rot2Quat (src/math.cpp:323-328): Eigen's conversion of a rotation
   matrix into a quaternion.  Eigen is external; this is its published algorithm.  Simplified: exact arithmetic with exact
   square roots.  Nothing checks that the matrix is a rotation. *)
From mathcomp Require Import all_ssreflect all_algebra.
From Verif Require Import Geo_Model.
Set Implicit Arguments.
Unset Strict Implicit.
Unset Printing Implicit Defensive.
Import Order.TTheory GRing.Theory Num.Theory.
Local Open Scope ring_scope.

Section QuatModel.
Variable R : rcfType.

(* Eigen::Quaterniond *)
Record quat := Quat { q_w : R; q_x : R; q_y : R; q_z : R }.

(* mat.coeff(i, j) *)
Definition cf (m : 'M[R]_3) (i j : nat) : R := m (inord i) (inord j).

(* the row of the largest diagonal entry *)
Definition argmax_diag (m : 'M[R]_3) : nat :=
  let i := if cf m 0 0 < cf m 1 1 then 1%N else 0%N in
  if cf m i i < cf m 2 2 then 2%N else i.

(* Quaterniond(rotm), src/link.cpp:123, src/math.cpp:326 *)
Definition GetQuat (m : 'M[R]_3) : quat :=
  let t := cf m 0 0 + cf m 1 1 + cf m 2 2 in
  if 0 < t then
    let t1 := Num.sqrt (t + 1) in
    let t2 := 2%:R^-1 / t1 in
    Quat (2%:R^-1 * t1) ((cf m 2 1 - cf m 1 2) * t2) ((cf m 0 2 - cf m 2 0) * t2) ((cf m 1 0 - cf m 0 1) * t2)
  else
    let i := argmax_diag m in
    let j := ((i + 1) %% 3)%N in
    let k := ((j + 1) %% 3)%N in
    let t1 := Num.sqrt (cf m i i - cf m j j - cf m k k + 1) in
    let t2 := 2%:R^-1 / t1 in
    let c a := if a == i then 2%:R^-1 * t1 else if a == j then (cf m j i + cf m i j) * t2 else (cf m k i + cf m i k) * t2 in
    Quat ((cf m k j - cf m j k) * t2) (c 0%N) (c 1%N) (c 2%N).
End QuatModel.
