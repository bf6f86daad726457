(* Model of the task space of the reduced model: src/dwbc.cpp:3152-3252 (ReducedCalcTaskSpace, update_task_space =
   false), src/task.cpp:95-137 and 213-222 (CalcJKT_R, CalcNullMatrix_R) and src/wbd.cpp:220-226 (CalculateJKT_R).

   c = co_dof, n = nc_dof, as in RedM_Model.  None is an out-of-range access, a product of mismatched sizes or
   the inverse() of a singular matrix.  Simplified: double arithmetic is exact. *)
From mathcomp Require Import all_ssreflect all_algebra.
From Verif Require Import LinAlg DMat Dyn_Model RedM_Model Red_Model Cone_Model QP_Model RTq_Model.
Set Implicit Arguments.
Unset Strict Implicit.
Unset Printing Implicit Defensive.
Import GRing.Theory Num.Theory.
Local Open Scope ring_scope.

Section RTSModel.
Variable R : realFieldType.

(* src/wbd.cpp:220-226: returns (J_kt_R, lambda_task_R) *)
Definition CalculateJKT_R t k (J_task_R : 'M[R]_(t, 6 + k)) (A_R_inv_N_CR : 'M[R]_(6 + k)) (W_R_inv : 'M[R]_k)
  : option ('M[R]_(k, t) * 'M[R]_t) :=
  if inverse (J_task_R *m A_R_inv_N_CR *m J_task_R^T) is Some lambda then
    let Q := rsubmx (lambda *m J_task_R *m A_R_inv_N_CR) in
    Some (W_R_inv *m Q^T *m mpinv (Q *m W_R_inv *m Q^T), lambda)
  else None.

Variables c n : nat.

(* include/dwbc_task.h:117-170: a task whose J_task_ and f_star_ are up to date.  s_fl: its type, links and the flags;
   s_old: the members as earlier calls left them *)
Record stask := ST { s_dof : nat; s_J : 'M[R]_(s_dof, 6 + c + n); s_f : 'cV[R]_s_dof; s_fl : red_task; s_old : rtask R }.

(* what CalcJKT_R leaves in J_task_R_, Lambda_task_R_, J_kt_R_, Lambda_task_ and J_task_NC_ *)
Record jktr (t : nat) := JR {
  k_JR : 'M[R]_(t, 6 + c + 6);
  k_LamR : 'M[R]_t;
  k_Jkt : 'M[R]_(c + 6, t);
  k_Lam : dm R;
  k_JNC : dm R
}.

(* src/task.cpp:95-137; fl are the flags after the classification.  In the two undefined combinations
   Lambda_task_ and J_task_NC_ stay as they were *)
Definition CalcJKT_R (A_inv_N_C : 'M[R]_(6 + c + n)) (A_R_inv_N_CR : 'M[R]_(6 + (c + 6))) (W_R_inv : 'M[R]_(c + 6))
    (J_I_NC_INV_T : 'M[R]_(6, n)) (fl : red_task) (s : stask) : option (jktr (s_dof s)) :=
  let J := s_J s in
  let whole : 'M[R]_(s_dof s, 6 + c + 6) := row_mx (lsubmx J) (rsubmx J *m J_I_NC_INV_T^T) in
  if rt_cmm fl then
    omap (fun r => JR whole r.2 r.1 (of_mx r.2) (u_JNC (s_old s)))
      (CalculateJKT_R (whole : 'M_(_, 6 + (c + 6))) A_R_inv_N_CR W_R_inv)
  else if rt_reduced fl && ~~ rt_noncont fl then
    let left : 'M[R]_(s_dof s, 6 + c + 6) := row_mx (lsubmx J) 0 in
    omap (fun r => JR left r.2 r.1 (of_mx r.2) (u_JNC (s_old s)))
      (CalculateJKT_R (left : 'M_(_, 6 + (c + 6))) A_R_inv_N_CR W_R_inv)
  else if ~~ rt_reduced fl && rt_noncont fl then
    omap (fun L => JR whole 0 0 (of_mx L) (of_mx (rsubmx J))) (inverse (J *m A_inv_N_C *m J^T))
  else Some (JR 0 0 0 (u_Lam (s_old s)) (u_JNC (s_old s))).

(* the task afterwards *)
Definition filled (fl : red_task) (s : stask) (r : jktr (s_dof s)) (Null : dm R) : rtask R :=
  let o := s_old s in
  RT (rt_noncont fl) (rt_nch fl) (of_mx (s_J s)) (k_JNC r) (k_Lam r) (of_mx (s_f s)) (of_mx (k_Jkt r)) Null
     (u_fqp o) (u_cqp o) (u_err o) (u_nullR o) (u_nullNC o).

(* src/dwbc.cpp:3227-3250.  prev is ts_[i - 1].Null_task_R_ (None for i = 0: ts_[-1] if the task is non-contact, the
   identity otherwise, src/task.cpp:218-222); the last task keeps its Null_task_R_ *)
Fixpoint space_loop (A_inv_N_C : 'M[R]_(6 + c + n)) (A_R_inv_N_CR : 'M[R]_(6 + (c + 6))) (W_R_inv : 'M[R]_(c + 6))
    (J_I_NC_INV_T : 'M[R]_(6, n)) (prev : option 'M[R]_(c + 6)) (ts : seq (red_task * stask)) : option (seq (rtask R)) :=
  if ts is (fl, s) :: ts' then
    r <- CalcJKT_R A_inv_N_C A_R_inv_N_CR W_R_inv J_I_NC_INV_T fl s ;;
    if ts' is [::] then Some [:: filled fl r (u_Null (s_old s))] else
    N <- (if rt_noncont fl then prev else
            Some (CalculateTaskNullSpace (k_Jkt r) (k_LamR r) (k_JR r : 'M_(_, 6 + (c + 6))) A_R_inv_N_CR
                    (if prev is Some N then N else 1%:M))) ;;
    l <- space_loop A_inv_N_C A_R_inv_N_CR W_R_inv J_I_NC_INV_T (Some N) ts' ;;
    Some (filled fl r (of_mx N) :: l)
  else Some [::].

(* src/dwbc.cpp:3152-3252.  link_num, co_link, left, right: what the classification reads (Red_Model); jac0:
   link_[0].jac_, of which leftCols(reduced_system_dof_) takes 6 + c + 6 columns.  Yields A_inv_N_C, J_base_R_kt_ and
   the tasks *)
Definition ReducedCalcTaskSpace m (link_num : nat) (co_link : seq nat) (left right : nat -> bool) (jac0 : 'M[R]_(6, 6 + c + n))
    (A_inv N_C : 'M[R]_(6 + c + n)) (cR : contact_space R m (c + 6)) (rd : reduced R c n) (ts : seq stask)
  : option ('M[R]_(6 + c + n) * 'M[R]_(c + 6, 6) * seq (rtask R)) :=
  let A_inv_N_C := A_inv *m N_C in
  if (6 + c + 6 <= 6 + c + n)%N then
    let J_base_R : 'M[R]_(6, 6 + (c + 6)) := \matrix_(i, j) ent (of_mx jac0) i j in
    b <- CalculateJKT_R J_base_R (cs_AinvNC cR) (cs_Winv cR) ;;
    let fls := classify link_num co_link left right 0 0 [seq s_fl s | s <- ts] in
    l <- space_loop A_inv_N_C (cs_AinvNC cR) (cs_Winv cR) (rd_JIinvT rd) None (zip fls ts) ;;
    Some (A_inv_N_C, b.1, l)
  else None.

(* src/dwbc.cpp:3104, 3110: N_C as ReducedCalcContactConstraint leaves it, with the Lambda of the reduced model *)
Definition ReducedN_C m (A_inv : 'M[R]_(6 + c + n)) (J_C : 'M[R]_(m, 6 + c + n)) (cR : contact_space R m (c + 6)) : 'M[R]_(6 + c + n) :=
  1%:M - J_C^T *m (cs_lambda cR *m J_C *m A_inv).

(* the robot with these members *)
Definition with_space (rb : rrobot R) (x : 'M[R]_(6 + c + n) * 'M[R]_(c + 6, 6) * seq (rtask R)) : rrobot R :=
  RR (w_m rb) (w_co rb) (w_nc rb) (w_vc rb) (w_rm rb) (w_cc rb) (w_lset rb) (w_lim rb) (w_NwJw rb) (w_JcT rb) (w_PC rb) (w_grav rb)
     (of_mx x.1.2) (w_JIT rb) (w_JI rb) (w_NI rb) (of_mx x.1.1) (w_rot rb) x.2.
End RTSModel.
