(* Model of one ContactConstraint object (src/contact_constraint.cpp, include/dwbc_contact_constraint.h): constructor,
   setters and the constraint matrices, on top of Cone_Model.
   Update is in Con_Model; RBDL's quantities are not part of this file.
   Simplified: numbers are elements of an ordered field, not doubles. *)
From mathcomp Require Import all_ssreflect all_algebra.
From Verif Require Import DMat Cone_Model.
Set Implicit Arguments.
Unset Strict Implicit.
Unset Printing Implicit Defensive.
Import Order.TTheory GRing.Theory Num.Theory.
Local Open Scope ring_scope.

(* include/dwbc_contact_constraint.h:18-24 *)
Inductive ctype := CONTACT_6D | CONTACT_POINT | CONTACT_LINK | CONTACT_LINE.

Section CCoModel.
Variable R : realFieldType.

(* include/dwbc_contact_constraint.h:31-63; None: a member not set yet *)
Record cobj := CObj {
  o_contact : option bool;                 (* contact *)
  o_type : ctype;                          (* contact_type_ *)
  o_dof : option nat; o_num : option nat;  (* contact_dof_, constraint_number_ *)
  o_lx : R; o_ly : R;                      (* contact_plane_x_, contact_plane_y_ *)
  o_mu : R; o_muz : R;                     (* friction_ratio_, friction_ratio_z_ *)
  o_limiter : bool                         (* fz_limiter_switch_ *)
}.

(* src/contact_constraint.cpp:93-97 *)
Definition SetFrictionRatio (c : cobj) (mu muz : R) : cobj :=
  CObj (o_contact c) (o_type c) (o_dof c) (o_num c) (o_lx c) (o_ly c) mu muz (o_limiter c).

(* src/contact_constraint.cpp:9-45; SetFrictionRatio(0.2, 0.2) is line 42.  The friction ratios before it are not read. *)
Definition new_contact (t : ctype) (lx ly : R) : cobj :=
  let dof := match t with CONTACT_6D => Some 6%N | CONTACT_LINE => Some 5%N | CONTACT_POINT => Some 3%N | CONTACT_LINK => None end in
  let num := match t with
             | CONTACT_6D | CONTACT_LINE => Some (CONTACT_CONSTRAINT_ZMP + CONTACT_CONSTRAINT_FORCE)%N
             | CONTACT_POINT => Some CONTACT_CONSTRAINT_FORCE
             | CONTACT_LINK => None
             end in
  SetFrictionRatio (CObj None t dof num lx ly 0 0 false) (2%:R / 10%:R) (2%:R / 10%:R).

(* src/contact_constraint.cpp:78-81 *)
Definition SetContact (c : cobj) (cont : bool) : cobj :=
  CObj (Some cont) (o_type c) (o_dof c) (o_num c) (o_lx c) (o_ly c) (o_mu c) (o_muz c) (o_limiter c).
(* src/contact_constraint.cpp:83-86, 88-91 *)
Definition EnableContact (c : cobj) : cobj := SetContact c true.
Definition DisableContact (c : cobj) : cobj := SetContact c false.

(* src/contact_constraint.cpp:99-102, 104-107 *)
Definition GetZMPConstMatrix4x6 (c : cobj) : dm R := GetZMPConstMatrix (o_lx c) (o_ly c).
Definition GetForceConstMatrix6x6 (c : cobj) : dm R := GetForceConstMatrix (o_mu c) (o_muz c).
(* src/contact_constraint.cpp:109-116; None: a block outside of the matrix *)
Definition GetContactConstMatrix (c : cobj) : option (dm R) :=
  obind (fun m => blockw m 4 0 6 6 (GetForceConstMatrix6x6 c))
    (blockw (dzero R (CONTACT_CONSTRAINT_ZMP + CONTACT_CONSTRAINT_FORCE) 6) 0 0 4 6 (GetZMPConstMatrix4x6 c)).
(* src/contact_constraint.cpp:118-121 *)
Definition GetPressConstMatrix3x6 : dm R := dzero R 3 6.

(* the calls a user can make on the object *)
Inductive ccall := KSet of bool | KEnable | KDisable | KFriction of R & R.
Definition cstep (c : cobj) (k : ccall) : cobj :=
  match k with
  | KSet b => SetContact c b
  | KEnable => EnableContact c
  | KDisable => DisableContact c
  | KFriction mu muz => SetFrictionRatio c mu muz
  end.
Definition crun (c : cobj) (ks : seq ccall) : cobj := foldl cstep c ks.
End CCoModel.
Arguments KSet {R}.
Arguments KEnable {R}.
Arguments KDisable {R}.
