(* Vocabulary of the theorems on the matrices of the reduced model *)
From mathcomp Require Import all_ssreflect all_algebra.
From Verif Require Import RedM_Model.
Set Implicit Arguments.
Unset Strict Implicit.
Unset Printing Implicit Defensive.
Import GRing.Theory.
Local Open Scope ring_scope.

Section Spec.
Variable R : realFieldType.
Variables c n : nat.

(* the contact-chain coordinates come first, in order, then the others *)
Definition leading (vcj : 'I_(6 + c) -> 'I_(6 + c + n)) (ncj : 'I_n -> 'I_(6 + c + n)) : Prop :=
  (forall i, vcj i = lshift n i) /\ (forall j, ncj j = rshift (6 + c) j).

(* B, the inertia of the bodies not in the contact chains, accounts for the coupling in A between the base and the
   joints of those bodies, and those joints are not coupled to the contact chains (they do not hang below them) *)
Definition carried_by_base (A B : 'M[R]_(6 + c + n)) : Prop :=
  (forall (i : 'I_6) (j : 'I_n), A (lshift n (lshift c i)) (rshift (6 + c) j) = B (lshift n (lshift c i)) (rshift (6 + c) j)) /\
  (forall (i : 'I_c) (j : 'I_n), A (lshift n (rshift 6 i)) (rshift (6 + c) j) = 0).

(* the contacts do not move with the other joints *)
Definition contacts_on_chains m (J_C : 'M[R]_(m, 6 + c + n)) : Prop := rsubmx J_C = 0.
End Spec.
