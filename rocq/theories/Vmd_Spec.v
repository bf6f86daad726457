(* Specification for Vmd: kinematic trees as lists of links and joints, their pose at zero joint angles, and
   the velocity of a point of a body. *)
From Coq Require Import String.
From mathcomp Require Import all_ssreflect all_algebra.
From Verif Require Import Geo_Model Inr_Model Vmd_Model.
Set Implicit Arguments.
Unset Strict Implicit.
Unset Printing Implicit Defensive.
Import GRing.Theory.
Local Open Scope ring_scope.

Section VmdSpec.
Variable R : fieldType.

Definition floating_joint (j : joint R) : Prop := joint_type j = JOINT_FLOATING_BASE.

(* a joint of one of the three kinds supported, with all the members set that its kind needs *)
Definition complete (j : joint R) : Prop :=
  (joint_rotation j <> None /\ joint_translation j <> None) /\
  (floating_joint j \/ joint_type j = JOINT_6DOF \/ (joint_type j = JOINT_REVOLUTE /\ joint_axis j <> None)).

(* parents come before their children; the parent recorded for a link on a floating joint does not matter *)
Definition ordered (links : seq (vlink R)) (joints : seq (joint R)) : Prop :=
  forall i l j p, onth links i = Some l -> onth joints i = Some j -> v_parent l = Some p ->
    (p < i)%N \/ floating_joint j /\ (p < size links)%N.

(* the kind of joint asked for *)
Definition joint_kind (j : joint R) (r : rjoint R) : Prop :=
  match r with
  | RRevolute a => joint_type j = JOINT_REVOLUTE /\ joint_axis j = Some a
  | RFloating => floating_joint j
  | R6DoF => joint_type j = JOINT_6DOF
  end.

(* RBDL's pose of every body at zero joint angles: orientation O, origin X (world frame) *)
Definition zero_pose (m : rmodel R) (O : nat -> 'M[R]_3) (X : nat -> 'cV[R]_3) : Prop :=
  [/\ O 0%N = 1%:M, X 0%N = 0 & forall i b, onth (m_bodies m) i = Some b ->
     O (b_id b) = O (b_lambda b) *m (b_E b)^T /\ X (b_id b) = X (b_lambda b) + O (b_lambda b) *m b_r b].

(* the pose of every link at zero joint angles, from the joints: joint_rotation_ turns the parent's axes into
   the link's, joint_translation_ is given in the parent's axes (as in CalcVirtualInertia) *)
Definition link_pose (links : seq (vlink R)) (joints : seq (joint R)) (Q : nat -> 'M[R]_3) (x : nat -> 'cV[R]_3) : Prop :=
  forall i l j E r, onth links i = Some l -> onth joints i = Some j ->
    joint_rotation j = Some E -> joint_translation j = Some r ->
    if (v_parent l, joint_type j == JOINT_FLOATING_BASE) is (Some p, false) then Q i = Q p *m E /\ x i = x p + Q p *m r
    else Q i = E /\ x i = r.
End VmdSpec.
