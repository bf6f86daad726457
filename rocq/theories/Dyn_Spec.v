(* Specification vocabulary for the dynamics properties: the constrained equation of
   motion of a floating base robot, stated without any of the model's intermediate
   matrices. *)
From mathcomp Require Import all_ssreflect all_algebra.
From Verif Require Import LinAlg.
Set Implicit Arguments.
Unset Strict Implicit.
Unset Printing Implicit Defensive.
Import GRing.Theory Num.Theory.
Local Open Scope ring_scope.

Section DynSpec.
Variable R : realFieldType.

(* Joint torques act on the last n coordinates only. *)
Definition actuate n (tau : 'cV[R]_n) : 'cV[R]_(6 + n) := col_mx 0 tau.

(* Acceleration of the joints / of the floating base. *)
Definition joint_acc n (a : 'cV[R]_(6 + n)) : 'cV[R]_n := dsubmx a.
Definition base_acc n (a : 'cV[R]_(6 + n)) : 'cV[R]_6 := usubmx a.

(* (a, f) solves the rigid contact problem for mass matrix A, contact Jacobian J,
   gravity vector G and joint torque tau: equation of motion, and contacts do not
   accelerate.  f is the force exerted on the environment, as in getContactForce. *)
Definition contact_motion m n (A : 'M[R]_(6 + n)) (J : 'M[R]_(m, 6 + n)) (G : 'cV[R]_(6 + n))
    (tau : 'cV[R]_n) (a : 'cV[R]_(6 + n)) (f : 'cV[R]_m) : Prop :=
  A *m a + J^T *m f + G = actuate tau /\ J *m a = 0.

(* The contacts determine the base motion: base columns of J have full column rank. *)
Definition contacts_fix_base m n (J : 'M[R]_(m, 6 + n)) : Prop := \rank (lsubmx J) = 6%N.

End DynSpec.
