(* Model of the whole-body dynamics computations of libdwbc.

   Matrices are mathcomp matrices over an arbitrary ordered field; the system has
   6 + n coordinates (6 base coordinates first, then n = model_dof_ joints), as in
   src/dwbc.cpp:134-142 for a floating base robot.

   Simplified throughout: double arithmetic is exact. *)
From mathcomp Require Import all_ssreflect all_algebra.
From Verif Require Import LinAlg.
Set Implicit Arguments.
Unset Strict Implicit.
Unset Printing Implicit Defensive.
Import GRing.Theory Num.Theory.
Local Open Scope ring_scope.

Section DynModel.
Variable R : realFieldType.

(* Eigen's Matrix::inverse() as used at src/wbd.cpp:115, 128, 133, 210.
   A singular argument (division by zero in Eigen) is the distinct outcome None. *)
Definition inverse k (M : 'M[R]_k) : option 'M[R]_k :=
  if M \in unitmx then Some (invmx M) else None.

(* Output matrices of CalculateContactConstraint, src/wbd.cpp:108-110. *)
Record contact_space (m n : nat) := ContactSpace {
  cs_lambda : 'M[R]_m;            (* lambda_contact *)
  cs_JCinvT : 'M[R]_(m, 6 + n);   (* J_C_INV_T *)
  cs_NC     : 'M[R]_(6 + n);      (* N_C *)
  cs_AinvNC : 'M[R]_(6 + n);      (* A_inv_N_C *)
  cs_W      : 'M[R]_n;            (* W *)
  cs_Winv   : 'M[R]_n             (* Winv *)
}.

(* src/wbd.cpp:112-125 and 139-141 : everything except NwJw.  The two calls of
   PinvCODWB (lines 124 and 140) both store the pseudo-inverse of W in Winv. *)
Definition CalculateContactConstraint m n (J_contact : 'M[R]_(m, 6 + n)) (A_inv : 'M[R]_(6 + n))
  : option (contact_space m n) :=
  if inverse (J_contact *m A_inv *m J_contact^T) is Some lambda_contact then
    let J_C_INV_T := lambda_contact *m J_contact *m A_inv in
    let N_C := 1%:M - J_contact^T *m J_C_INV_T in
    let A_inv_N_C := A_inv *m N_C in
    let W := drsubmx A_inv_N_C in          (* block(6, 6, cols - 6, cols - 6) *)
    Some (ContactSpace lambda_contact J_C_INV_T N_C A_inv_N_C W (mpinv W))
  else None.

(* Outcome of the rows > 6 branch, src/wbd.cpp:122-136. *)
Inductive nwjw_result (n c : nat) :=
| NwJwOk of 'M[R]_(n, c)     (* returned 1 with this NwJw *)
| NwJwSingular               (* returned 1 but the inverted matrix was singular *)
| NwJwNonSquare.             (* dimension mismatch: the code inverts a non-square
                                matrix (undefined in Eigen) before returning 0 *)

(* src/wbd.cpp:122-136, with rows = c + 6 and V2 the k x n matrix filled by
   PinvCODWB (src/wbd.cpp:32-53). *)
Definition CalculateNwJw c n k (J_C_INV_T : 'M[R]_(c + 6, 6 + n)) (V2 : 'M[R]_(k, n))
  : nwjw_result n c :=
  match @eqP _ k c with
  | ReflectT e =>
      let V := castmx (e, erefl n) V2 in
      (* J_C_INV_T.topRightCorner(rows - 6, cols - 6) *)
      if inverse (usubmx (rsubmx J_C_INV_T) *m V^T) is Some Mi
      then NwJwOk (V^T *m Mi) else NwJwSingular n c
  | ReflectF _ => NwJwNonSquare n c
  end.

(* What src/wbd.cpp:48-49 stores in V2: the rows of Q^T past the rank of W, where Q is
   the orthogonal factor of the decomposition of W.  Their defining property used here:
   they are a basis of the left null space of W.  (Orthonormality is not recorded: no
   theorem needs it.)  The numerical rank is taken to be the exact rank. *)
Definition left_null_basis n k (W : 'M[R]_n) (V2 : 'M[R]_(k, n)) : Prop :=
  [/\ V2 *m W = 0, row_free V2 & k = (n - \rank W)%N].

(* src/wbd.cpp:186-192 CalculateGravityCompensation: returns (torque_grav, P_C). *)
Definition CalculateGravityCompensation m n (A_inv : 'M[R]_(6 + n)) (W_inv : 'M[R]_n)
    (N_C : 'M[R]_(6 + n)) (J_C_INV_T : 'M[R]_(m, 6 + n)) (G : 'cV[R]_(6 + n))
  : 'cV[R]_n * 'cV[R]_m :=
  (W_inv *m (dsubmx A_inv *m (N_C *m G)), J_C_INV_T *m G).

(* src/wbd.cpp:268-271 CalculateContactForce (called by RobotData::getContactForce,
   src/dwbc.cpp:891-896). *)
Definition CalculateContactForce m n (command_torque : 'cV[R]_n) (J_C_INV_T : 'M[R]_(m, 6 + n))
    (P_C : 'cV[R]_m) : 'cV[R]_m :=
  rsubmx J_C_INV_T *m command_torque - P_C.

(* src/wbd.cpp:207-213 CalculateJKT: returns (J_kt, lambda_task). *)
Definition CalculateJKT t n (J_task : 'M[R]_(t, 6 + n)) (A_inv N_C : 'M[R]_(6 + n)) (W_inv : 'M[R]_n)
  : option ('M[R]_(n, t) * 'M[R]_t) :=
  if inverse (J_task *m A_inv *m N_C *m J_task^T) is Some lambda_task then
    let Q := rsubmx (lambda_task *m J_task *m A_inv *m N_C) in
    Some (W_inv *m Q^T *m mpinv (Q *m W_inv *m Q^T), lambda_task)
  else None.

(* src/wbd.cpp:257-261 CalculateTaskNullSpace. *)
Definition CalculateTaskNullSpace t n (J_kt : 'M[R]_(n, t)) (Lambda_task : 'M[R]_t)
    (J_task : 'M[R]_(t, 6 + n)) (A_inv_N_C : 'M[R]_(6 + n)) (prev_null : 'M[R]_n) : 'M[R]_n :=
  prev_null *m (1%:M - J_kt *m Lambda_task *m J_task *m rsubmx A_inv_N_C).

(* A registered task: its Jacobian and reference, include/dwbc_task.h:117-133
   (task_dof_, J_task_, f_star_).  The remaining members are outputs. *)
Record task n := Task { tk_dof : nat; tk_J : 'M[R]_(tk_dof, 6 + n); tk_fstar : 'cV[R]_tk_dof }.

(* A task after CalcTaskSpace: J_kt_, Lambda_task_, Null_task_ filled in. *)
Record level n := Level {
  lv_task : task n;
  lv_Jkt : 'M[R]_(n, tk_dof lv_task);
  lv_Lambda : 'M[R]_(tk_dof lv_task);
  lv_Null : 'M[R]_n
}.

(* src/dwbc.cpp:795-816 CalcTaskSpace (loop body and loop), with the Jacobians already
   updated; prev is ts_[i-1].Null_task_, or None for i = 0, in which case
   src/task.cpp:207-211 passes the identity.  Simplified: the code skips the null matrix
   of the last task (line 804), which nothing reads. *)
Fixpoint CalcTaskSpace m n (A_inv : 'M[R]_(6 + n)) (cs : contact_space m n)
    (prev : option 'M[R]_n) (ts : seq (task n)) : option (seq (level n)) :=
  if ts is tk :: ts' then
    if CalculateJKT (tk_J tk) A_inv (cs_NC cs) (cs_Winv cs) is Some (J_kt, Lambda) then
      let prev_null := if prev is Some N then N else 1%:M in
      let Null := CalculateTaskNullSpace J_kt Lambda (tk_J tk) (cs_AinvNC cs) prev_null in
      if CalcTaskSpace A_inv cs (Some Null) ts' is Some ls
      then Some (Level J_kt Lambda Null :: ls) else None
    else None
  else Some [::].

(* src/dwbc.cpp:858-869 : the hqp = false branch of CalcTaskControlTorque.
   `ref l` is the reference the level tracks: f_star_ here; the hqp = true branch
   (src/dwbc.cpp:830-852) accumulates the same sum with f_star_ + f_star_qp_.
   prev is ts_[i-1].Null_task_. *)
Fixpoint TaskTorqueLoop n (ref : forall l : level n, 'cV[R]_(tk_dof (lv_task l)))
    (prev : option 'M[R]_n) (torque_task : 'cV[R]_n) (ls : seq (level n)) : 'cV[R]_n :=
  if ls is l :: ls' then
    let torque_h := lv_Jkt l *m lv_Lambda l *m ref l in
    let torque_task' :=
      if prev is Some N then torque_task + N *m torque_h else torque_h in
    TaskTorqueLoop ref (Some (lv_Null l)) torque_task' ls'
  else torque_task.

Definition CalcTaskControlTorque n (ls : seq (level n)) : 'cV[R]_n :=
  TaskTorqueLoop (fun l => tk_fstar (lv_task l)) None 0 ls.

(* State of RobotData after UpdateKinematics, CalcContactConstraint and
   CalcGravCompensation have run in that order. *)
Record robot m n := Robot {
  rb_Ainv : 'M[R]_(6 + n);       (* A_inv_ *)
  rb_cs : contact_space m n;
  rb_tgrav : 'cV[R]_n;           (* torque_grav_ *)
  rb_PC : 'cV[R]_m               (* P_C *)
}.

(* A_inv_ : src/dwbc.cpp:306 (llt().solve(Identity); only called with a mass matrix, which
   is positive definite, for which it is the inverse);
   CalcContactConstraint : src/dwbc.cpp:456-478 ; CalcGravCompensation : 875-884.
   Simplified: A_ and G_, which UpdateKinematics obtains from RBDL, are inputs. *)
Definition UpdateRobot m n (A : 'M[R]_(6 + n)) (J_C : 'M[R]_(m, 6 + n)) (G : 'cV[R]_(6 + n))
  : option (robot m n) :=
  if inverse A is Some A_inv then
    if CalculateContactConstraint J_C A_inv is Some cs then
      let (torque_grav, P_C) :=
        CalculateGravityCompensation A_inv (cs_Winv cs) (cs_NC cs) (cs_JCinvT cs) G in
      Some (Robot A_inv cs torque_grav P_C)
    else None
  else None.

(* src/dwbc.cpp:891-896 *)
Definition getContactForce m n (rb : robot m n) (command_torque : 'cV[R]_n) : 'cV[R]_m :=
  CalculateContactForce command_torque (cs_JCinvT (rb_cs rb)) (rb_PC rb).

End DynModel.
