(* Specification for CCo *)
From mathcomp Require Import all_ssreflect all_algebra.
From Verif Require Import DMat CCo_Model.
Set Implicit Arguments.
Unset Strict Implicit.
Unset Printing Implicit Defensive.
Import Order.TTheory GRing.Theory Num.Theory.
Local Open Scope ring_scope.

Section CCoSpec.
Variable R : realFieldType.
Implicit Type ks : seq (ccall R).

Definition is_friction (k : ccall R) : bool := if k is KFriction _ _ then true else false.
Definition is_switch (k : ccall R) : bool := ~~ is_friction k.

(* the friction ratios in force after the calls ks: those of the last SetFrictionRatio, else 0.2 *)
Definition friction_in_force ks (mu muz : R) : Prop :=
  (~~ has is_friction ks /\ mu = 2%:R / 10%:R /\ muz = 2%:R / 10%:R) \/
  (exists ks1 ks2, ks = ks1 ++ KFriction mu muz :: ks2 /\ ~~ has is_friction ks2).

(* the contact was switched on (off) by the last call that switches it *)
Definition switched ks (b : bool) : Prop :=
  exists ks1 k ks2, [/\ ks = ks1 ++ k :: ks2, ~~ has is_switch ks2 &
    match k with KSet b' => b' = b | KEnable => b = true | KDisable => b = false | KFriction _ _ => False end].

(* the wrench F (force, then moment, in the contact frame; pressing is negative z) can be held by friction and by
   a plate of half lengths lx, ly *)
Definition held (lx ly mu muz : R) (F : nat -> R) : Prop :=
  [/\ `|F 0%N| <= - (mu * F 2%N), `|F 1%N| <= - (mu * F 2%N), `|F 5%N| <= - (muz * F 2%N),
      `|F 4%N| <= - (lx * F 2%N) & `|F 3%N| <= - (ly * F 2%N)].

(* the coordinates held by a contact: a plane all six, a line all but the turn about itself, a point the three positions *)
Definition held_coordinates (t : ctype) : option nat :=
  match t with CONTACT_6D => Some 6%N | CONTACT_LINE => Some (6 - 1)%N | CONTACT_POINT => Some (6 - 3)%N | CONTACT_LINK => None end.
End CCoSpec.
