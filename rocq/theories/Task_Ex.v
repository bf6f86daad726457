(* Concrete task registries used by the examples in Task_Props.v *)
From Coq Require Import List Arith ZArith Bool String.
From Verif Require Import Con_Model Task_Model Task_Spec.
Import ListNotations.
Local Open Scope string_scope.

(* rows tagged by (frame, link, row); values tagged by (kind, link, row) *)
Definition trow : Type := (nat * Z * nat)%type.
Definition tz : trow := (0, 0%Z, 0).
Definition rows (f : nat) (i : Z) (n : nat) : list trow := map (fun r => (f, i, r)) (seq 0 n).

Definition kin0 : kin trow trow nat :=
  Kin (fun i => rows 1 i 6) (fun i => rows 2 i 6) (fun i p => rows (3 + p) i 6)
      (fun l => rows 100 (tl_id l) 3) (fun l => rows 200 (tl_id l) 3).

Definition tnames : list string := ["pelvis"; "L_Foot"; "R_Foot"; "head"; "COM"].

(* COM position task; pelvis+head rotation task; foot 6D task at a custom point *)
Definition thist : list (top trow trow nat) :=
  [TAddName 0%Z TASK_LINK_POSITION_COM_FRAME "com" 0;
   TAddName 1%Z TASK_LINK_ROTATION "PELVIS" 0;
   TLinkAdd 1%Z TASK_LINK_6D 3%Z 0;
   TAdd 7%Z TASK_LINK_6D_CUSTOM_FRAME 2%Z 5;
   TAddName 0%Z TASK_LINK_6D "head" 0;
   TTraj 1%Z 1 true false].

Definition treg : tstate trow trow nat :=
  match trun tz tz (tinit tnames) thist with Some s => s | None => tinit [] end.
