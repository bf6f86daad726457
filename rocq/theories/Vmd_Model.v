(* Model of RobotData::InitModelWithLinkJoint (src/dwbc.cpp), Joint::ToRBDLJoint, Link::ToRBDLBody and the
   Jacobian functions of Link (src/link.cpp).  Entries are elements of a field, not doubles.

   RBDL is not part of the repository.  What is used of it, from its documentation: AddBody appends bodies and
   returns the id of the last one (a floating base takes 2 ids, a joint of 6 degrees of freedom 6, any other 1);
   X_T = (E, r) is the coordinate transform from the parent's frame to the joint's;
   CalcPointJacobian6D has the loop of GetJacDot (src/link.cpp:155-180) with the point's position in base
   coordinates as the translation. *)
From Coq Require Import String.
From mathcomp Require Import all_ssreflect all_algebra.
From Verif Require Import Geo_Model Inr_Model.
Set Implicit Arguments.
Unset Strict Implicit.
Unset Printing Implicit Defensive.
Import GRing.Theory.
Local Open Scope ring_scope.

Section VmdModel.
Variable R : fieldType.
Local Notation vec := 'cV[R]_3.
Local Notation mat := 'M[R]_3.

(* include/dwbc_link.h:14-21 *)
Definition JOINT_FLOATING_BASE : int := 0.
Definition JOINT_6DOF : int := 1.
Definition JOINT_REVOLUTE : int := 2.
Definition JOINT_PRISMATIC : int := 3.
Definition JOINT_FIXED : int := 4.

(* include/dwbc_link.h:23-41; None: a member no constructor or caller has set (src/link.cpp:5-19) *)
Record joint := Joint {
  joint_type : int; joint_axis : option vec; joint_rotation : option mat; joint_translation : option vec }.

(* include/dwbc_link.h:43-: the members read here; a negative parent_id_ is None *)
Record vlink := VLink { v_name : string; v_parent : option nat; v_body : body R; v_body_id : nat }.

(* the joints RBDL is asked for *)
Inductive rjoint := RRevolute of vec | RFloating | R6DoF.

(* src/link.cpp:21-46; None: the default RigidBodyDynamics::Joint(), of undefined type, which AddBody
   rejects, or an axis that was never set *)
Definition ToRBDLJoint (j : joint) : option rjoint :=
  if joint_type j == JOINT_REVOLUTE then omap RRevolute (joint_axis j)
  else if joint_type j == JOINT_FLOATING_BASE then Some RFloating
  else if joint_type j == JOINT_6DOF then Some R6DoF
  else None.

(* src/link.cpp:238-245 (the message for a negative mass left out) *)
Definition ToRBDLBody (l : vlink) : body R := v_body l.

(* one body of an RBDL model: id, lambda, X_T = (E, r), joint, inertial parameters, name *)
Record rbody := RBody {
  b_id : nat; b_lambda : nat; b_E : mat; b_r : vec; b_joint : rjoint; b_body : body R; b_name : string }.

(* ids taken by one joint *)
Definition ids_of (j : rjoint) : nat := match j with RRevolute _ => 1 | RFloating => 2 | R6DoF => 6 end.

(* RBDL's Model: the bodies added so far and the id of the last one (0: the world) *)
Record rmodel := RModel { m_bodies : seq rbody; m_last : nat }.

(* Model::AddBody; None: a parent id RBDL does not know (out of range of its vectors) *)
Definition AddBody (m : rmodel) (parent : nat) (E : mat) (r : vec) (j : rjoint) (b : body R) (name : string) : option (rmodel * nat) :=
  if (parent <= m_last m)%N then
    let id := (m_last m + ids_of j)%N in
    Some (RModel (rcons (m_bodies m) (RBody id parent E r j b name)) id, id)
  else None.

Definition put_id (links : seq vlink) (i id : nat) : seq vlink :=
  [seq (if p.1 == i then VLink (v_name p.2) (v_parent p.2) (v_body p.2) id else p.2) | p <- zip (iota 0 (size links)) links].

(* one pass of the loop, src/dwbc.cpp:2436-2469; None: an index outside a vector, a member never set, or a
   joint AddBody rejects *)
Definition add_one (i : nat) (st : rmodel * seq vlink) (joints : seq joint) : option (rmodel * seq vlink) :=
  let: (lmodel, links) := st in
  if (onth links i, onth joints i) is (Some l, Some j) then
  if (joint_rotation j, joint_translation j) is (Some E, Some r) then
  let parent_id := if v_parent l is Some p then omap v_body_id (onth links p) else Some 0%N in
  if parent_id is Some pid then
  if ToRBDLJoint j is Some rj then
    let pid' := if joint_type j == JOINT_FLOATING_BASE then 0%N else pid in
    if AddBody lmodel pid' E r rj (ToRBDLBody l) (v_name l) is Some (lmodel', added_id)
    then Some (lmodel', put_id links i added_id) else None
  else None
  else None
  else None
  else None.

(* src/dwbc.cpp:2425-2471: the passes i = 0, 1, ..., k - 1 *)
Fixpoint init_loop (k : nat) (links : seq vlink) (joints : seq joint) : option (rmodel * seq vlink) :=
  if k is k'.+1 then
    if init_loop k' links joints is Some st then add_one k' st joints else None
  else Some (RModel [::] 0, links).
Definition InitModelWithLinkJoint (links : seq vlink) (joints : seq joint) : option (rmodel * seq vlink) :=
  init_loop (size links) links joints.

(* the joint built for a body with mass when a model is loaded, src/dwbc.cpp:158-178 and src/link.cpp:62-63:
   revolute joints get the transpose of X_T.E and X_T.r; the floating base gets neither *)
Definition loaded_revolute (axis : vec) (E : mat) (r : vec) : joint := Joint JOINT_REVOLUTE (Some axis) (Some E^T) (Some r).
Definition loaded_floating : joint := Joint JOINT_FLOATING_BASE None None None.

(* ---- Jacobians ---- *)
Section Jac.
Variable n : nat.

(* RBDL's data for one body (joints of one degree of freedom): lambda, and per movable body the column of
   the base-coordinate motion vector X_base^-1 S = (angular, linear at the base origin) and its q_index *)
Record kin := Kin { k_lambda : nat -> nat; k_w : nat -> vec; k_u : nat -> vec; k_index : nat -> 'I_n }.

(* while (j != 0) { ...; j = lambda[j]; }, src/link.cpp:153-179: the bodies visited; None: fuel exhausted *)
Fixpoint path (k : kin) (fuel : nat) (j : nat) : option (seq nat) :=
  if j == 0%N then Some [::]
  else if fuel is f.+1 then omap (cons j) (path k f (k_lambda k j)) else None.

(* src/link.cpp:155-172 for mDoFCount == 1: SpatialTransform(1, r).apply(w, u) = (w, u - r x w) in column
   q_index; the columns of different joints are different *)
Definition fill (k : kin) (s : seq nat) (r : vec) : 'M[R]_(3 + 3, n) :=
  \sum_(j <- s) col_mx (k_w k j) (k_u k j - skew r *m k_w k j) *m delta_mx 0 (k_index k j).

(* RBDL: CalcPointJacobian6D, angular rows first; body pose (xpos, rotm) *)
Definition CalcPointJacobian6D (k : kin) (body_id : nat) (xpos : vec) (rotm : mat) (point : vec) : option 'M[R]_(3 + 3, n) :=
  omap (fun s => fill k s (xpos + rotm *m point)) (path k body_id body_id).

(* topRows(3).swap(bottomRows(3)) *)
Definition swap_rows (G : 'M[R]_(3 + 3, n)) : 'M[R]_(3 + 3, n) := col_mx (dsubmx G) (usubmx G).

(* src/link.cpp:109-119 *)
Definition GetPointJac (k : kin) (body_id : nat) (xpos : vec) (rotm : mat) (point : vec) : option 'M[R]_(3 + 3, n) :=
  omap swap_rows (CalcPointJacobian6D k body_id xpos rotm point).
(* src/link.cpp:98-107: (jac_, jac_com_) *)
Definition UpdateJac (k : kin) (body_id : nat) (xpos : vec) (rotm : mat) (com_position_l : vec) :
    option 'M[R]_(3 + 3, n) * option 'M[R]_(3 + 3, n) :=
  (omap swap_rows (CalcPointJacobian6D k body_id xpos rotm 0), omap swap_rows (CalcPointJacobian6D k body_id xpos rotm com_position_l)).
(* src/link.cpp:126-129; RBDL: CalcBodyToBaseCoordinates *)
Definition GetPointPos (xpos : vec) (rotm : mat) (local_pos : vec) : vec := xpos + rotm *m local_pos.

(* src/link.cpp:131-182: the link's velocity v is the translation; the point and the joint velocities given
   are not used.  Simplified: movable bodies only (no fixed body id). *)
Definition GetJacDot (k : kin) (body_id : nat) (v : vec) (q_dot : 'cV[R]_n) (point_jac : vec) : option 'M[R]_(3 + 3, n) :=
  omap (fun s => fill k s v) (path k body_id body_id).
End Jac.
End VmdModel.
