(* Model of the matrices of the reduced model: src/dwbc.cpp:2824-2975 (ReducedDynamicsCalculate),
   3077-3142 (ReducedCalcContactConstraint), 3144-3150 (ReducedCalcGravCompensation) and the last lines of
   ReducedCalcTaskControlTorque.

   c = co_dof, n = nc_dof, vc_dof = 6 + c.  The types presuppose what C53 is about: system_dof_ = 6 + c + n.
   Entries are elements of an ordered field, not doubles. *)
From mathcomp Require Import all_ssreflect all_algebra.
From Verif Require Import Dyn_Model LinAlg Geo_Model Inr_Model.
Set Implicit Arguments.
Unset Strict Implicit.
Unset Printing Implicit Defensive.
Import GRing.Theory Num.Theory.
Local Open Scope ring_scope.

Section RedMModel.
Variable R : realFieldType.
Variables c n : nat.

(* The two index lists as maps into the coordinates; vcj i for i < 6 is i *)
Variables (vcj : 'I_(6 + c) -> 'I_(6 + c + n)) (ncj : 'I_n -> 'I_(6 + c + n)).

(* src/dwbc.cpp:2888-2917: J_I_nc_ from the inertia of the non-contact bodies.
   A_NC_O: the joint-space inertia of the non-contact bodies alone (RBDL's composite rigid body algorithm run over
   them, lines 2837-2886; taken as given), of which only the six base rows in the non-contact columns are read;
   SI_nc_b: SI_nc_b_ of lines 2888-2893; rotm: link_[0].rotm.
   None: division by a zero mass, or inverse() of a singular matrix *)
Definition base_row (i : 'I_(3 + 3)) : 'I_(6 + c + n) := lshift n (lshift c (i : 'I_6)).
Definition J_I_nc (A_NC_O : 'M[R]_(6 + c + n)) (SI_nc_b : 'M[R]_(3 + 3)) (rotm : 'M[R]_3) : option 'M[R]_(3 + 3, n) :=
  if InertiaMatrixSegment SI_nc_b is Some (inertia_nc, com_pos_nc, mass_nc) then
    let SI_nc_l := InertiaMatrix inertia_nc mass_nc in
    let A_NC_tr := \matrix_(i < 3 + 3, j < n) A_NC_O (base_row i) (ncj j) in
    let A_NC_tr' := col_mx (rotm^T *m usubmx A_NC_tr) (dsubmx A_NC_tr) in
    let cm_rot6 := block_mx 1%:M 0 (skew com_pos_nc)^T 1%:M : 'M[R]_(3 + 3) in
    let cmm_nc := cm_rot6 *m A_NC_tr' in
    omap (fun Si => Si *m cmm_nc) (inverse SI_nc_l)
  else None.

(* src/dwbc.cpp:2919-2930.  nc_joint_idx_ has no repetitions, so each column is written at most once *)
Definition J_R (J : 'M[R]_(6, n)) : 'M[R]_(6 + c + 6, 6 + c + n) :=
  col_mx (\matrix_(i, k) ((vcj i == k) || ((i < 6)%N && (val k == val i)))%:R)
         (\matrix_(i, k) if [pick j | ncj j == k] is Some j then J i j else 0).

(* src/dwbc.cpp:2937-2958 *)
Definition A_R_inv (A_inv : 'M[R]_(6 + c + n)) (J : 'M[R]_(6, n)) : 'M[R]_(6 + c + 6) :=
  let A_tr_temp := \matrix_(i < 6 + c, k < 6 + c + n) A_inv (vcj i) k in
  let tr := rsubmx A_tr_temp *m J^T in
  let Jb := dsubmx (J_R J) in
  block_mx (\matrix_(i, j) A_inv (vcj i) (vcj j)) tr tr^T (Jb *m A_inv *m Jb^T).

(* The members set by lines 2960-3001 *)
Record reduced := Reduced {
  rd_JI : 'M[R]_(6, n);            (* J_I_nc_ *)
  rd_JR : 'M[R]_(6 + c + 6, 6 + c + n);  (* J_R *)
  rd_ARinv : 'M[R]_(6 + c + 6);    (* A_R_inv *)
  rd_AR : 'M[R]_(6 + c + 6);       (* A_R *)
  rd_JIinvT : 'M[R]_(6, n);        (* J_I_nc_inv_T *)
  rd_NI : 'M[R]_n;                 (* N_I_nc_ *)
  rd_JRinvT : 'M[R]_(6 + c + 6, 6 + c + n); (* J_R_INV_T *)
  rd_GR : 'cV[R]_(6 + c + 6)       (* G_R *)
}.

(* src/dwbc.cpp:2960-3001.  A_R_inv.llt().solve(Identity) is the inverse for a positive definite A_R_inv; for a
   singular one the outcome is None (for an indefinite one Eigen's answer is something else, which no theorem
   here is about) *)
Definition ReducedDynamics (A_inv A_NC_O : 'M[R]_(6 + c + n)) (SI_nc_b : 'M[R]_(3 + 3)) (rotm : 'M[R]_3)
    (G : 'cV[R]_(6 + c + n)) : option reduced :=
  obind (fun J : 'M[R]_(6, n) =>
    let ARi := A_R_inv A_inv J in
    omap (fun AR : 'M[R]_(6 + c + 6) =>
      let JIinvT := dlsubmx AR *m ursubmx A_inv + drsubmx AR *m J *m drsubmx A_inv in
      Reduced J (J_R J) ARi AR JIinvT (1%:M - J^T *m JIinvT) (block_mx 1%:M 0 0 JIinvT)
        (col_mx (usubmx G) (JIinvT *m dsubmx G)))
    (inverse ARi)) (J_I_nc A_NC_O SI_nc_b rotm).

Variable m : nat. (* contact_dof_ *)

(* src/dwbc.cpp:3003-3004, 3098-3099 *)
Definition J_CR (J_C : 'M[R]_(m, 6 + c + n)) : 'M[R]_(m, 6 + c + 6) := row_mx (lsubmx J_C) 0.

(* src/dwbc.cpp:3098-3120 and the calls of PinvCODWB (3124, 3140).  J_CR.leftCols(cdof + 6) and
   A_R_inv.topLeftCorner(cdof + 6, cdof + 6), cdof = contact_dof_, are written with the partial identity
   pid_mx (m + 6); None when cdof + 6 exceeds the dimension, or for a singular matrix *)
Definition ReducedCalcContactConstraint (A_inv : 'M[R]_(6 + c + n)) (J_C : 'M[R]_(m, 6 + c + n)) (rd : reduced)
  : option (contact_space R m (c + 6)) :=
  if (m + 6 <= 6 + c + 6)%N then
    let L := J_CR J_C *m (pid_mx (m + 6) : 'M_(6 + c + 6)) in
    omap (fun Lambda_CR : 'M[R]_m =>
      let J_C_INV_T := Lambda_CR *m J_C *m A_inv in
      let J_CR_INV_T : 'M[R]_(m, 6 + (c + 6)) := row_mx (lsubmx J_C_INV_T) (rsubmx J_C_INV_T *m (rd_JI rd)^T) in
      let N_CR : 'M[R]_(6 + (c + 6)) := 1%:M - (J_CR J_C)^T *m J_CR_INV_T in
      let A_R_inv_N_CR : 'M[R]_(6 + (c + 6)) := rd_ARinv rd *m N_CR in
      let W_R := drsubmx A_R_inv_N_CR in
      ContactSpace Lambda_CR J_CR_INV_T N_CR A_R_inv_N_CR W_R (mpinv W_R))
    (inverse (L *m rd_ARinv rd *m L^T))
  else None.

(* src/dwbc.cpp:3144-3150: (torque_grav_, torque_grav_R_, P_CR).  torque_grav_ has c + n entries (model_dof_); the
   first assignment needs c + 6 of them (None otherwise), and the second overwrites all but the first c *)
Definition ReducedCalcGravCompensation (G : 'cV[R]_(6 + c + n)) (rd : reduced) (cs : contact_space R m (c + 6))
  : option ('cV[R]_(c + n) * 'cV[R]_(c + 6) * 'cV[R]_m) :=
  let torque_grav_R := cs_Winv cs *m (dsubmx (rd_ARinv rd : 'M_(6 + (c + 6))) *m (cs_NC cs *m (rd_GR rd : 'cV_(6 + (c + 6))))) in
  if (6 <= n)%N then Some (col_mx (usubmx torque_grav_R) (dsubmx G), torque_grav_R, cs_JCinvT cs *m (rd_GR rd : 'cV_(6 + (c + 6))))
  else None.

(* src/dwbc.cpp:3442-3443: joint torques from those of the reduced model (torque_task_R_) and of the non-contact
   joints (torque_task_NC_); torque_task_R_qp, nonzero only with hqp and a non-contact task, is not included *)
Definition distribute (rd : reduced) (torque_R : 'cV[R]_(c + 6)) (torque_NC : 'cV[R]_n) : 'cV[R]_(c + n) :=
  col_mx (usubmx torque_R) ((rd_JI rd)^T *m dsubmx torque_R + rd_NI rd *m torque_NC).
End RedMModel.
