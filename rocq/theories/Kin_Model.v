(* Model of RobotData::UpdateKinematics.  system_dof_ = 6 + n for a floating base robot
   (src/dwbc.cpp:134-142); the base coordinates are three translations (world frame) and three
   rotations (base frame), the joint order of RBDL's floating base.

   Not modelled: RBDL.  What its calls compute in one UpdateKinematics call is the argument `env`.
   joint_[i].parent_rotation_ / parent_translation_ (lines 316-317) are left out. *)
From mathcomp Require Import all_ssreflect all_algebra.
From Verif Require Import LinAlg Dyn_Model Geo_Model Inr_Model.
Set Implicit Arguments.
Unset Strict Implicit.
Unset Printing Implicit Defensive.
Import GRing.Theory.
Local Open Scope ring_scope.

Section KinModel.
Variable R : realFieldType.
Variable n : nat.
Local Notation vec := 'cV[R]_3.
Local Notation mat := 'M[R]_3.
Local Notation sys := (3 + 3 + n)%N.

(* link_.back(): the entry "COM" (src/dwbc.cpp:233-238) *)
Record comlink := ComLink {
  b_xpos : vec; b_xipos : vec; b_inertia : mat; b_rotm : mat; b_mass : R;
  b_jac : 'M[R]_(3 + 3, sys);            (* jac_ = jac_com_ *)
  b_v : vec; b_vi : vec; b_w : vec }.

(* include/dwbc.h: the members UpdateKinematics reads or writes *)
Record kstate := KState {
  k_qsize : nat;                         (* model_.q_size *)
  k_mass : R;                            (* total_mass_ *)
  k_q : seq R; k_qd : seq R; k_qdd : seq R;   (* q_system_, q_dot_system_, q_ddot_system_ *)
  k_A : 'M[R]_sys; k_Ainv : 'M[R]_sys;   (* A_, A_inv_ *)
  k_B : 'cV[R]_sys; k_G : 'cV[R]_sys;    (* B_, G_ *)
  k_compos : vec; k_comvel : vec;        (* com_pos, com_vel *)
  k_CMM : 'M[R]_(3 + 3, sys);            (* CMM_ *)
  k_SI : 'M[R]_(3 + 3);                  (* SI_body_ *)
  k_links : seq (link R sys);            (* link_ without its last element *)
  k_back : comlink }.

(* What RBDL returns during the call: the links after UpdateAll (src/link.cpp:70-96), the matrix written by
   CompositeRigidBodyAlgorithm, the vector written by NonlinearEffects. *)
Record env := Env { e_links : seq (link R sys); e_crba : 'M[R]_sys; e_nle : 'cV[R]_sys }.

(* v as a vector of k entries *)
Definition colv (k : nat) (v : seq R) : 'cV[R]_k := \col_(i < k) nth 0 v i.

(* (skm(2,1), skm(0,2), skm(1,0)), src/dwbc.cpp:322 *)
Definition unskew (M : mat) : vec := vec3 (M (inord 2) (inord 1)) (M (inord 0) (inord 2)) (M (inord 1) (inord 0)).

(* src/dwbc.cpp:279-371.  None: link_[0] does not exist, division by a zero total_mass_, or inverse of a
   singular matrix (A_.llt().solve at 306, for a positive definite A_ its inverse; SI_body_.inverse() at 355).
   9.81 is 981/100. *)
Definition UpdateKinematics (st : kstate) (q qd qdd : seq R) (update_kinematics : bool) (e : env) : option kstate :=
  if k_qsize st != size q then Some st
  else if sys != size qd then Some st
  else if sys != size qdd then Some st
  else
    let A := if update_kinematics then e_crba e else 0 in
    if (if update_kinematics then inverse A else Some (k_Ainv st)) is Some A_inv then
    if e_links e is l0 :: _ then
    let m := k_mass st in
    if m == 0 then None else
    let R0 := rotm l0 in
    let skm_temp := m^-1 *: (R0 *m dlsubmx (ulsubmx A : 'M_(3 + 3))) in
    let com_from_pelv := unskew skm_temp in
    let com_pos := com_from_pelv + colv 3 q in
    let cm_rot6 := block_mx 1%:M 0 (skew com_from_pelv)^T R0 in
    let CMM := cm_rot6 *m usubmx A in
    let I_com := R0 *m drsubmx (ulsubmx A : 'M_(3 + 3)) *m R0^T - m *: (skew com_from_pelv *m (skew com_from_pelv)^T) in
    let SI := block_mx m%:M 0 0 I_com in
    if inverse SI is Some SIi then
      let jac := SIi *m CMM in
      let G := - (usubmx jac)^T *m (m *: vec3 0 0 (- (981%:R / 100%:R))) in
      let com_vel_temp := jac *m colv sys qd in
      Some (KState (k_qsize st) m q qd qdd A A_inv (e_nle e) G com_pos 0 CMM SI (e_links e)
        (ComLink com_pos com_pos I_com R0 m jac (usubmx com_vel_temp) (usubmx com_vel_temp) (dsubmx com_vel_temp)))
    else None
    else None
    else None.

(* src/dwbc.cpp:372-375 *)
Definition UpdateKinematicsStored (st : kstate) (update_kinematics : bool) (e : env) : option kstate :=
  UpdateKinematics st (k_q st) (k_qd st) (k_qdd st) update_kinematics e.

End KinModel.
