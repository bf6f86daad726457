(* Concrete registries used by the examples in Con_Props.v *)
From Coq Require Import List Arith ZArith Bool String Ascii.
From Verif Require Import Con_Model Con_Spec.
Import ListNotations.
Local Open Scope string_scope.

(* rows are tagged by (link, row number as RBDL returns it) *)
Definition tag_row : Type := (Z * nat)%type.
Definition zrow : tag_row := (0%Z, 0).
Definition tag_jac (k : Z) : list tag_row := map (fun i => (k, i)) (seq 0 6).

Definition names4 : list string := ["pelvis"; "L_Foot"; "R_Foot"; "l_foot"].

(* left foot, right foot (by name), hand (by index), a rejected duplicate, then left only *)
Definition hist1 : list (cop tag_row) :=
  [OAddName "l_FOOT" CONTACT_6D; OAdd 2%Z CONTACT_6D; OAdd 3%Z CONTACT_6D; OAdd 2%Z CONTACT_LINE;
   OAddName "nosuch" CONTACT_6D; OSet tag_jac [true]].

Definition reg1 : cstate tag_row :=
  match crun zrow (cinit names4) hist1 with Some s => s | None => cinit [] end.

Definition point_hist : list (cop tag_row) := [OAdd 1%Z CONTACT_6D; OAdd 2%Z CONTACT_POINT].
Definition line_hist : list (cop tag_row) := [OAdd 1%Z CONTACT_6D; OAdd 2%Z CONTACT_LINE].
