(* Model of RobotData::CopyKinematicsData.

   None is undefined behaviour: std::copy past the end of the target vector.  The two RobotData objects
   are distinct.  Reading an uninitialised flag (cc_[i].contact of a default constructed contact) is
   represented by the value None of Con_Model.c_on, not by a failure of the call. *)
From Coq Require Import List Arith ZArith Bool String.
From Verif Require Import Con_Model.
Import ListNotations.

Section CopyModel.
(* Num: double.  Vec, Mat: VectorXd, MatrixXd.  Mdl: RigidBodyDynamics::Model.  Lnk: Link.  Tsk: TaskSpace.
   Qpt: CQuadraticProgram.  Rst: all members not listed in `robot`.  Row: a row of J_C. *)
Context {Num Vec Mat Mdl Lnk Tsk Qpt Rst Row : Type} (link_name : Lnk -> string).

(* include/dwbc.h:62-200, the members copied one by one, src/dwbc.cpp:1713-1728, 1757-1761 *)
Record kinematics := Kinematics {
  x_time : Num;                                (* control_time_ *)
  x_q : Vec; x_qd : Vec; x_qdd : Vec;          (* q_system_, q_dot_system_, q_ddot_system_ *)
  x_lset : bool; x_lim : Vec;                  (* torque_limit_set_, torque_limit_ *)
  x_model : Mdl;                               (* model_ *)
  x_A : Mat; x_Ainv : Mat;                     (* A_, A_inv_ *)
  x_G : Vec; x_CMM : Mat; x_B : Vec            (* G_, CMM_, B_ *)
}.

Record robot := Robot {
  o_kin : kinematics;
  o_links : list Lnk;                          (* link_ *)
  o_cc : list (contact Row);                   (* cc_ *)
  o_dof : option nat; o_num : option nat;      (* contact_dof_, contact_link_num_ *)
  o_J : list Row;                              (* J_C *)
  o_ts : list Tsk;                             (* ts_ *)
  o_qp : list Qpt;                             (* qp_task_ *)
  o_rest : Rst
}.

(* the contact registry of a robot, in the terms of Con_Model *)
Definition registry (r : robot) : cstate Row :=
  CState (map link_name (o_links r)) (o_cc r) (o_dof r) (o_num r) (o_J r).

(* a default constructed ContactConstraint, src/contact_constraint.cpp:5-7: nothing is set *)
Definition blank : contact Row := Contact 0 0 None None None [].

(* v.resize(n) *)
Definition resize {A} (d : A) (v : list A) (n : nat) : list A := firstn n v ++ repeat d (n - List.length v).

(* std::copy(src.begin(), src.end(), dst.begin()) *)
Definition std_copy {A} (src dst : list A) : option (list A) :=
  if List.length src <=? List.length dst then Some (src ++ skipn (List.length src) dst) else None.

Definition set_flag (c : contact Row) (b : option bool) : contact Row :=
  Contact (c_link c) (c_type c) (c_dof c) (c_num c) b (c_j c).

(* cc_[i].contact = target_rd.cc_[i].contact for all i, src/dwbc.cpp:1743-1746 *)
Fixpoint take_flags (cc tcc : list (contact Row)) : list (contact Row) :=
  match cc, tcc with
  | c :: cc', t :: tcc' => set_flag c (c_on t) :: take_flags cc' tcc'
  | _, _ => cc
  end.

(* src/dwbc.cpp:1711-1762: (source, target) afterwards.  dl, dt, dq: default constructed Link, TaskSpace
   and CQuadraticProgram. *)
Definition CopyKinematicsData (dl : Lnk) (dt : Tsk) (dq : Qpt) (src tgt : robot) : option (robot * robot) :=
  let links0 := if List.length (o_links tgt) =? List.length (o_links src) then o_links tgt
                else resize dl (o_links tgt) (List.length (o_links src)) in
  match std_copy (o_links src) links0 with
  | None => None
  | Some links =>
  let '(tcc0, scc) :=
    if List.length (o_cc tgt) =? List.length (o_cc src) then (o_cc tgt, o_cc src)
    else let t := resize blank (o_cc tgt) (List.length (o_cc src)) in (t, take_flags (o_cc src) t) in
  match std_copy scc tcc0 with
  | None => None
  | Some tcc =>
  let '(ts0, qp0) :=
    if List.length (o_ts tgt) =? List.length (o_ts src) then (o_ts tgt, o_qp tgt)
    else (resize dt (o_ts tgt) (List.length (o_ts src)), resize dq (o_qp tgt) (List.length (o_qp src))) in
  match std_copy (o_ts src) ts0, std_copy (o_qp src) qp0 with
  | Some ts, Some qp =>
      Some (Robot (o_kin src) (o_links src) scc (o_dof src) (o_num src) (o_J src) (o_ts src) (o_qp src) (o_rest src),
            Robot (o_kin src) links tcc (o_dof tgt) (o_num tgt) (o_J tgt) ts qp (o_rest tgt))
  | _, _ => None
  end end end.

End CopyModel.
Arguments kinematics : clear implicits.
Arguments robot : clear implicits.
