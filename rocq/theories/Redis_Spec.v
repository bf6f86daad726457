(* Specification: net wrench of two foot wrenches and its splits. *)
From mathcomp Require Import all_ssreflect all_algebra.
From Verif Require Import Geo_Model Geo_Spec.
Set Implicit Arguments.
Unset Strict Implicit.
Unset Printing Implicit Defensive.
Import Order.TTheory GRing.Theory Num.Theory.
Local Open Scope ring_scope.

Section RedisSpec.
Variable R : rcfType.
Local Notation V := 'cV[R]_3.
Local Notation W12 := 'cV[R]_((3 + 3) + (3 + 3)).

(* forces and moments on the two feet *)
Definition force1 (F : W12) : V := usubmx (usubmx F).
Definition moment1 (F : W12) : V := dsubmx (usubmx F).
Definition force2 (F : W12) : V := usubmx (dsubmx F).
Definition moment2 (F : W12) : V := dsubmx (dsubmx F).

(* resultant force, and resultant moment about the point o, for feet at p1 and p2 *)
Definition net_force (F : W12) : V := force1 F + force2 F.
Definition net_moment (o p1 p2 : V) (F : W12) : V :=
  moment1 F + crossp (p1 - o) (force1 F) + (moment2 F + crossp (p2 - o) (force2 F)).

(* same net wrench *)
Definition same_net (p1 p2 : V) (F F' : W12) : Prop :=
  net_force F' = net_force F /\ forall o, net_moment o p1 p2 F' = net_moment o p1 p2 F.

(* the wrench with split e: foot 1 carries the fraction e of the net force and of the net
   moment about the point dividing the feet in the same ratio, foot 2 the rest *)
Definition split_wrench (p1 p2 : V) (F : W12) (e : R) : W12 :=
  let M := net_moment (e *: p1 + (1 - e) *: p2) p1 p2 F in
  col_mx (col_mx (e *: net_force F) (e *: M)) (col_mx ((1 - e) *: net_force F) ((1 - e) *: M)).

(* limits on a foot wrench: centre of pressure inside a rectangle, bounded yaw moment *)
Definition foot_ok (ly lx mu : R) (f m : V) : Prop :=
  [/\ `|X m| <= ly * `|Z f|, `|Y m| <= lx * `|Z f| & `|Z m| <= mu * `|Z f|].
Definition feet_ok ly lx mu (F : W12) : Prop :=
  foot_ok ly lx mu (force1 F) (moment1 F) /\ foot_ok ly lx mu (force2 F) (moment2 F).

(* base columns of the Jacobian of two contacts at p1, p2 on a robot whose base is at p0
   with orientation B (linear velocity in the world frame, angular in the base frame):
   v = v0 + w x (p - p0), angular velocity w = B w0 *)
Definition foot_base (p0 : V) (B : 'M[R]_3) (p : V) : 'M[R]_(3 + 3) :=
  block_mx 1%:M (- (skew (p - p0) *m B)) 0 B.
Definition rigid_feet n (p0 : V) (B : 'M[R]_3) (p1 p2 : V) (J : 'M[R]_(6 + 6, 6 + n)) : Prop :=
  lsubmx J = col_mx (foot_base p0 B p1) (foot_base p0 B p2).

End RedisSpec.
