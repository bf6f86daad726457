(* Specification vocabulary for the contact registry. *)
From Coq Require Import List Arith ZArith Bool String Ascii.
From Verif Require Import Con_Model.
Import ListNotations.

(* a contact is active *)
Definition active {Row} (c : contact Row) : bool :=
  match c_on c with Some b => b | None => false end.

(* two contacts are the same registered contact (activation and Jacobian aside) *)
Definition same_contact {Row} (c d : contact Row) : Prop :=
  c_link c = c_link d /\ c_type c = c_type d /\ c_dof c = c_dof d /\ c_num c = c_num d.

(* RBDL orders the six rows rotation first; contact Jacobians are linear first. *)
Definition linear_first {Row} (m : list Row) : list Row := skipn 3 m ++ firstn 3 m.

(* equality of names up to ASCII case *)
Definition to_lower (c : ascii) : ascii :=
  if (Nat.leb 65 (nat_of_ascii c) && Nat.leb (nat_of_ascii c) 90)%bool
  then ascii_of_nat (nat_of_ascii c + 32) else c.
Fixpoint string_map (f : ascii -> ascii) (s : string) : string :=
  match s with EmptyString => EmptyString | String c s' => String (f c) (string_map f s') end.
Definition same_name (a b : string) : Prop := string_map to_lower a = string_map to_lower b.

(* k is the first position whose name equals `name` up to case *)
Definition first_named (names : list string) (name : string) (k : nat) : Prop :=
  (exists x, nth_error names k = Some x /\ same_name x name) /\
  (forall i x, i < k -> nth_error names i = Some x -> ~ same_name x name).
