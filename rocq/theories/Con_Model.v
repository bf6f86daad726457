(* Model of the contact registry of RobotData: AddContactConstraint, ClearContactConstraint,
   SetContact, UpdateContactConstraint.

   An operation returns None when the C++ code has undefined behaviour on that call
   (out-of-range vector index, Eigen size mismatch, read of an uninitialised member).
   Printing is not modelled. *)
From Coq Require Import List Arith ZArith Bool String Ascii Lia.
Import ListNotations.
Local Open Scope nat_scope.

(* include/dwbc_contact_constraint.h:19-25 *)
Definition CONTACT_6D : Z := 0.
Definition CONTACT_POINT : Z := 1.
Definition CONTACT_LINK : Z := 2.
Definition CONTACT_LINE : Z := 3.

(* tolower in the C locale, as applied by strcasecmp *)
Definition lower (c : ascii) : ascii :=
  let n := nat_of_ascii c in
  if (65 <=? n) && (n <=? 90) then ascii_of_nat (n + 32) else c.

(* strcasecmp(a, b) == 0, called at src/dwbc.cpp:401, 561, 631, 1772, 2389.
   Simplified: names contain no NUL byte, C locale. *)
Fixpoint strcaseeq (a b : string) : bool :=
  match a, b with
  | EmptyString, EmptyString => true
  | String x a', String y b' => Ascii.eqb (lower x) (lower y) && strcaseeq a' b'
  | _, _ => false
  end.

(* src/dwbc.cpp:396-406 (also 556-566, 626-636, and getLinkID 2384-2397):
   the loop with break; None is link_number == -1. *)
Fixpoint find_link_from (i : nat) (names : list string) (name : string) : option nat :=
  match names with
  | [] => None
  | x :: xs => if strcaseeq x name then Some i else find_link_from (S i) xs name
  end.
Definition find_link (names : list string) (name : string) : option nat :=
  find_link_from 0 names name.

Section ConModel.
(* A row of a Jacobian (system_dof_ doubles). *)
Context {Row : Type} (zero_row : Row).

(* include/dwbc_contact_constraint.h:27-63, the members that matter here.
   Some members are left uninitialised by the constructor: None. *)
Record contact := Contact {
  c_link : Z;                  (* link_number_ *)
  c_type : Z;                  (* contact_type_ *)
  c_dof : option nat;          (* contact_dof_ *)
  c_num : option nat;          (* constraint_number_ *)
  c_on : option bool;          (* contact *)
  c_j : list Row               (* j_contact, by rows *)
}.

(* src/contact_constraint.cpp:9-45.  `contact` is never set there, contact_dof_ and
   constraint_number_ are not set for CONTACT_LINK or an unknown type. *)
Definition new_contact (link : Z) (type : Z) : contact :=
  let dofs :=
    if Z.eqb type CONTACT_6D then (Some 6, Some 10)
    else if Z.eqb type CONTACT_LINE then (Some 5, Some 10)
    else if Z.eqb type CONTACT_POINT then (Some 3, Some 6)
    else (None, None) in
  Contact link type (fst dofs) (snd dofs) None (repeat zero_row 6).

(* The part of RobotData involved.  contact_dof_ and contact_link_num_ are uninitialised
   (include/dwbc.h:74, 77) until the first accepted SetContact. *)
Record cstate := CState {
  s_names : list string;        (* link_[i].name_ *)
  s_cc : list contact;          (* cc_ *)
  s_dof : option nat;           (* contact_dof_ *)
  s_num : option nat;           (* contact_link_num_ *)
  s_J : list Row                (* J_C, by rows; system_dof_ columns *)
}.

Definition set_cc s cc := CState (s_names s) cc (s_dof s) (s_num s) (s_J s).

(* The state of a RobotData with links `names` and no contact yet. *)
Definition cinit (names : list string) : cstate := CState names [] None None [].

(* link_[k] with an int index: None is out of range *)
Definition link_at (names : list string) (k : Z) : option string :=
  if Z.ltb k 0 then None else nth_error names (Z.to_nat k).

(* src/dwbc.cpp:377-394 *)
Definition AddContactConstraint (s : cstate) (link type : Z) : option cstate :=
  if existsb (fun c => Z.eqb (c_link c) link) (s_cc s)
  then match link_at (s_names s) link with      (* the message reads link_[link].name_ *)
       | Some _ => Some s
       | None => None
       end
  else match link_at (s_names s) link with      (* link_[link].body_id_ *)
       | Some _ => Some (set_cc s (s_cc s ++ [new_contact link type]))
       | None => None
       end.

(* src/dwbc.cpp:395-427 *)
Definition AddContactConstraintByName (s : cstate) (name : string) (type : Z) : option cstate :=
  match find_link (s_names s) name with
  | None => Some s
  | Some k =>
      if existsb (fun c => Z.eqb (c_link c) (Z.of_nat k)) (s_cc s) then Some s
      else Some (set_cc s (s_cc s ++ [new_contact (Z.of_nat k) type]))
  end.

(* src/dwbc.cpp:428-431 *)
Definition ClearContactConstraint (s : cstate) : cstate := set_cc s [].

(* M.topRows(3).swap(M.bottomRows(3)) for a 6-row matrix, src/contact_constraint.cpp:61 *)
Definition swap33 (m : list Row) : list Row := skipn 3 m ++ firstn 3 m.

(* src/contact_constraint.cpp:51-77.  rbdl_jac link is the 6-row matrix that
   RBDL's CalcPointJacobian6D writes for this contact at the current q (rotation rows
   first).  CalcPointJacobian6D requires a 6-row matrix; for CONTACT_POINT the code hands it
   one with contact_dof_ = 3 rows: undefined behaviour.  CONTACT_LINE and CONTACT_LINK are
   left as they are. *)
Definition UpdateContact (rbdl_jac : Z -> list Row) (c : contact) : option contact :=
  if Z.eqb (c_type c) CONTACT_6D then
    Some (Contact (c_link c) (c_type c) (c_dof c) (c_num c) (c_on c) (swap33 (rbdl_jac (c_link c))))
  else if Z.eqb (c_type c) CONTACT_LINE then Some c
  else if Z.eqb (c_type c) CONTACT_POINT then None
  else Some c.

(* M.block(at, 0, k, cols) = B : requires B to have k rows and the block to fit *)
Definition set_rows (M : list Row) (at_ k : nat) (B : list Row) : option (list Row) :=
  if (List.length B =? k) && (at_ + k <=? List.length M)
  then Some (firstn at_ M ++ B ++ skipn (at_ + k) M) else None.

Fixpoint map_opt {A B} (f : A -> option B) (l : list A) : option (list B) :=
  match l with
  | [] => Some []
  | x :: xs => match f x, map_opt f xs with Some y, Some ys => Some (y :: ys) | _, _ => None end
  end.

(* src/dwbc.cpp:445-453, the loop over cc_ *)
Fixpoint stack_loop (cc : list contact) (dof_count : nat) (J : list Row) : option (list Row) :=
  match cc with
  | [] => Some J
  | c :: cc' =>
      match c_on c with
      | None => None                       (* uninitialised *)
      | Some false => stack_loop cc' dof_count J
      | Some true =>
          match c_dof c with
          | None => None                   (* uninitialised *)
          | Some d =>
              match set_rows J dof_count d (c_j c) with
              | Some J' => stack_loop cc' (dof_count + d) J'
              | None => None
              end
          end
      end
  end.

(* src/dwbc.cpp:433-454 *)
Definition UpdateContactConstraint (rbdl_jac : Z -> list Row) (s : cstate) : option cstate :=
  match map_opt (UpdateContact rbdl_jac) (s_cc s), s_dof s with
  | Some cc, Some dof =>
      let J0 := if List.length (s_J s) =? dof then s_J s else repeat zero_row dof in
      match stack_loop cc 0 J0 with
      | Some J => Some (CState (s_names s) cc (s_dof s) (s_num s) J)
      | None => None
      end
  | _, _ => None
  end.

Definition set_on (c : contact) (b : bool) : contact :=
  Contact (c_link c) (c_type c) (c_dof c) (c_num c) (Some b) (c_j c).

(* include/dwbc.h:448-460: first loop of SetContact; v is not longer than cc.
   Returns the contacts, the number of active ones and their total dof. *)
Fixpoint set_contact_loop (v : list bool) (cc : list contact) (num dof : nat)
  : option (list contact * nat * nat) :=
  match v, cc with
  | [], _ => Some (map (fun c => set_on c false) cc, num, dof)   (* 463-470 *)
  | b :: v', c :: cc' =>
      let next :=
        if b then match c_dof c with Some d => Some (S num, dof + d) | None => None end
        else Some (num, dof) in
      match next with
      | Some (num', dof') =>
          match set_contact_loop v' cc' num' dof' with
          | Some (l, n, d) => Some (set_on c b :: l, n, d)
          | None => None
          end
      | None => None
      end
  | _ :: _, [] => None
  end.

(* include/dwbc.h:432-474 *)
Definition SetContact (rbdl_jac : Z -> list Row) (s : cstate) (v : list bool) : option cstate :=
  if List.length (s_cc s) <? List.length v then UpdateContactConstraint rbdl_jac s
  else match set_contact_loop v (s_cc s) 0 0 with
       | Some (cc, num, dof) =>
           UpdateContactConstraint rbdl_jac (CState (s_names s) cc (Some dof) (Some num) (s_J s))
       | None => None
       end.

(* Calls a user can make, with the kinematic state (q) current at that call. *)
Inductive cop :=
| OAdd (link type : Z)
| OAddName (name : string) (type : Z)
| OClear
| OSet (jac : Z -> list Row) (v : list bool)
| OUpdate (jac : Z -> list Row).

Definition cstep (s : cstate) (o : cop) : option cstate :=
  match o with
  | OAdd l t => AddContactConstraint s l t
  | OAddName n t => AddContactConstraintByName s n t
  | OClear => Some (ClearContactConstraint s)
  | OSet j v => SetContact j s v
  | OUpdate j => UpdateContactConstraint j s
  end.

Fixpoint crun (s : cstate) (os : list cop) : option cstate :=
  match os with
  | [] => Some s
  | o :: os' => match cstep s o with Some s' => crun s' os' | None => None end
  end.

End ConModel.
Arguments contact : clear implicits.
Arguments cstate : clear implicits.
Arguments cop : clear implicits.
