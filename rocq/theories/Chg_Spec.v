(* Specification: when the robot's tables describe the same bodies; links carried rigidly by another. *)
From Coq Require Import String.
From mathcomp Require Import all_ssreflect all_algebra.
From Verif Require Import Geo_Model Geo_Spec Inr_Model Inr_Spec Kin_Spec Con_Model Chg_Model.
Set Implicit Arguments.
Unset Strict Implicit.
Unset Printing Implicit Defensive.
Import GRing.Theory.
Local Open Scope ring_scope.

Section ChgSpec.
Variable R : fieldType.

(* a spatial inertia describes a body: mass, first moment, and inertia about the origin of the body frame *)
Definition describes (si : sinertia R) (b : body R) : Prop :=
  [/\ s_m si = mass b, s_h si = mass b *: com b & s_I si = inertia_about b 0].

(* link k of the robot is the RBDL body j, and all four tables agree on its inertial parameters *)
Definition agrees (r : robot R) (k j : nat) : Prop :=
  exists l si sc, [/\ onth (r_link r) k = Some l /\ l_body_id l = Some j, onth (r_mBodies r) j = Some (l_body l),
    onth (r_I r) j = Some si /\ describes si (l_body l) & onth (r_Ic r) j = Some sc /\ describes sc (l_body l)].

(* every link with a body id agrees with RBDL; two links have two bodies *)
Definition consistent (r : robot R) : Prop :=
  (forall k l j, onth (r_link r) k = Some l -> l_body_id l = Some j -> agrees r k j) /\
  (forall k k' l l' j, onth (r_link r) k = Some l -> onth (r_link r) k' = Some l' ->
     l_body_id l = Some j -> l_body_id l' = Some j -> k = k').

(* link k is the first one whose name is `name` up to case *)
Definition first_named (r : robot R) (name : string) (k : nat) (l : nlink R) : Prop :=
  [/\ onth (r_link r) k = Some l, strcaseeq (l_name l) name &
      forall i li, (i < k)%N -> onth (r_link r) i = Some li -> strcaseeq (l_name li) name = false].

(* mass of the links that have a body (COM has none) *)
Definition mass_of_links (r : robot R) : R :=
  \sum_(l <- r_link r | isSome (l_body_id l)) mass (l_body l).

Variable n : nat.
(* link l is carried rigidly by the link r: pose (Q, x) in the frame of r, the same angular velocity, and
   the velocity of its origin given by the rotation about the origin of r *)
Definition carried (r : link R n) (Q : 'M[R]_3) (x : 'cV[R]_3) (l : link R n) : Prop :=
  [/\ rotm l = rotm r *m Q, xpos l = xpos r + rotm r *m x, jac_bottom l = jac_bottom r &
      forall q : 'cV[R]_n, jac_top l *m q = jac_top r *m q + crossp (jac_bottom r *m q) (rotm r *m x)].
End ChgSpec.
