(* Model of RobotData::getLinkID, ChangeLinkInertia and CalcVirtualCMM (src/dwbc.cpp).
   Entries are elements of a field, not doubles. *)
From Coq Require Import String.
From mathcomp Require Import all_ssreflect all_algebra.
From Verif Require Import Con_Model Geo_Model Inr_Model.
Set Implicit Arguments.
Unset Strict Implicit.
Unset Printing Implicit Defensive.
Import GRing.Theory.
Local Open Scope ring_scope.

Section ChgModel.
Variable R : fieldType.
Local Notation vec := 'cV[R]_3.
Local Notation mat := 'M[R]_3.

(* include/dwbc_link.h:75 body_id_ (an int, -1 for the entry "COM", src/dwbc.cpp:233-238), name_, and the
   inertial fields mass, com_position_l_, inertia *)
Record nlink := NLink { l_name : string; l_body_id : option nat; l_body : body R }.

(* RBDL's SpatialRigidBodyInertia: mass, first moment, inertia about the body origin *)
Record sinertia := SInertia { s_m : R; s_h : vec; s_I : mat }.

(* RBDL: SpatialRigidBodyInertia::createFromMassComInertiaC, called at src/dwbc.cpp:2724-2728 *)
Definition createFromMassComInertiaC (b : body R) : sinertia :=
  SInertia (mass b) (mass b *: com b) (inertia b + mass b *: (skew (com b) *m (skew (com b))^T)).

(* include/dwbc.h: the members involved *)
Record robot := Robot {
  r_link : seq nlink;                (* link_, with the entry "COM" *)
  r_mBodies : seq (body R);          (* model_.mBodies *)
  r_I : seq sinertia;                (* model_.I *)
  r_Ic : seq sinertia;               (* model_.Ic *)
  r_total_mass : R }.                (* total_mass_ *)

(* src/dwbc.cpp:2384-2397; None is -1 *)
Definition getLinkID (r : robot) (name : string) : option nat := find_link [seq l_name l | l <- r_link r] name.

(* writing element i of a vector *)
Definition put (T : Type) (s : seq T) (i : nat) (x : T) : seq T := take i s ++ x :: drop i.+1 s.

(* src/dwbc.cpp:2707-2730.  None: an access outside a vector (link_[-1] for an unknown name, mBodies[-1] for
   the entry "COM"), which is undefined behaviour. *)
Definition ChangeLinkInertia (r : robot) (link_name : string) (com_inertia : mat) (com_position : vec) (com_mass : R)
    : option robot :=
  if getLinkID r link_name is Some link_id then
  if onth (r_link r) link_id is Some l then
  if l_body_id l is Some rbdl_id then
    let b := Body com_mass com_position com_inertia in
    if [&& rbdl_id < size (r_mBodies r), rbdl_id < size (r_I r) & rbdl_id < size (r_Ic r)]%N then
      Some (Robot (put (r_link r) link_id (NLink (l_name l) (l_body_id l) b))
                  (put (r_mBodies r) rbdl_id b)
                  (put (r_I r) rbdl_id (createFromMassComInertiaC b))
                  (put (r_Ic r) rbdl_id (createFromMassComInertiaC b))
                  (r_total_mass r))
    else None
  else None
  else None
  else None.

(* src/dwbc.cpp:1682-1709: each entry is (name_, link); the last is skipped when it is called "COM"
   (compared with ==).  None: _link.back() of an empty vector. *)
Definition CalcVirtualCMM (n : nat) (links : seq (string * link R n)) (com_pos : vec) : option 'M[R]_(3, n) :=
  if links is x :: s then
    let link_size := if String.eqb (last x s).1 "COM"%string then (size links - 1)%N else size links in
    let used := [seq p.2 | p <- take link_size links] in
    Some (\sum_(l <- used) H_top l - skew com_pos *m \sum_(l <- used) H_bottom l)
  else None.
End ChgModel.
