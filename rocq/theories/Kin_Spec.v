(* Specification: the mass matrix of a tree of rigid bodies with a floating base. *)
From mathcomp Require Import all_ssreflect all_algebra.
From Verif Require Import LinAlg Geo_Model Geo_Spec Inr_Model Inr_Spec.
Set Implicit Arguments.
Unset Strict Implicit.
Unset Printing Implicit Defensive.
Import GRing.Theory.
Local Open Scope ring_scope.

Section KinSpec.
Variable R : realFieldType.
Variable n : nat.
Local Notation sys := (3 + 3 + n)%N.
Implicit Types (l : link R sys) (links : seq (link R sys)).

(* velocity of a link's centre of mass and angular velocity of the link at joint velocity qd *)
Definition vcom l (qd : 'cV[R]_sys) : 'cV[R]_3 := com_velocity l (jac_top l *m qd) (jac_bottom l *m qd).
Definition omega l (qd : 'cV[R]_sys) : 'cV[R]_3 := jac_bottom l *m qd.
Definition dot k (a b : 'cV[R]_k) : R := (a^T *m b) 0 0.

(* twice the kinetic energy *)
Definition energy2 links qd : R :=
  \sum_(l <- links) (mass (bd l) * dot (vcom l qd) (vcom l qd) + dot (omega l qd) (world_inertia l *m omega l qd)).

(* A is the mass matrix: symmetric, and its quadratic form is twice the kinetic energy *)
Definition mass_matrix links (A : 'M[R]_sys) : Prop :=
  A^T = A /\ forall qd, dot qd (A *m qd) = energy2 links qd.

(* the first six coordinates move everything rigidly: translation a (world frame), angular velocity w
   (base frame, orientation R0), about the base position x0 *)
Definition floating links (x0 : 'cV[R]_3) (R0 : 'M[R]_3) : Prop :=
  all_links (fun l => forall a w : 'cV[R]_3,
    jac_top l *m col_mx (col_mx a w) 0 = a + crossp (R0 *m w) (xpos l - x0) /\
    jac_bottom l *m col_mx (col_mx a w) 0 = R0 *m w) links.

(* sane links: an orientation and a symmetric inertia tensor *)
Definition sane links : Prop :=
  all_links (fun l => rotation (rotm l) /\ (inertia (bd l))^T = inertia (bd l)) links.

(* total mass; momentum and angular momentum about p of all links at joint velocity qd *)
Definition total_mass links : R := \sum_(l <- links) mass (bd l).
Definition total_momentum links qd : 'cV[R]_3 := \sum_(l <- links) mass (bd l) *: vcom l qd.
Definition total_angular links p qd : 'cV[R]_3 :=
  \sum_(l <- links) angular_momentum l (jac_top l *m qd) (jac_bottom l *m qd) p.
End KinSpec.
