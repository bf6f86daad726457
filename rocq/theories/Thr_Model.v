(* Model of CalcTaskSpaceTorqueHQPWithThreaded (no thread is actually started), in two parts: the
   task-space matrices (as in Dyn_Model.v) and the torque loop with its QPs (as in QP_Model.v). *)
From mathcomp Require Import all_ssreflect all_algebra.
From Verif Require Import LinAlg DMat Cone_Model QP_Model Dyn_Model.
Set Implicit Arguments.
Unset Strict Implicit.
Unset Printing Implicit Defensive.
Import Order.TTheory GRing.Theory Num.Theory.
Local Open Scope ring_scope.

Section ThrSpace.
Variable R : realFieldType.

(* src/wbd.cpp:233-241 CalculateJKTThreaded: returns (Q, Q_temp, lambda_task). *)
Definition CalculateJKTThreaded t n (J_task : 'M[R]_(t, 6 + n)) (A_inv N_C : 'M[R]_(6 + n)) (W_inv : 'M[R]_n)
  : option ('M[R]_(t, n) * 'M[R]_t * 'M[R]_t) :=
  if inverse (J_task *m A_inv *m N_C *m J_task^T) is Some lambda_task then
    let Q := rsubmx (lambda_task *m J_task *m A_inv *m N_C) in
    Some (Q, Q *m W_inv *m Q^T, lambda_task)
  else None.

(* src/dwbc.cpp:1299-1307 (J_kt_, Lambda_task_) and 1341-1342 with src/task.cpp:207-211 (Null_task_).
   Simplified: all levels get a null matrix, the code skips that of the last, which nothing reads. *)
Fixpoint ThreadedTaskSpace m n (A_inv : 'M[R]_(6 + n)) (cs : contact_space R m n) (ts : seq (task R n))
  : option (seq (level R n)) :=
  if ts is tk :: ts' then
    if CalculateJKTThreaded (tk_J tk) A_inv (cs_NC cs) (cs_Winv cs) is Some (Q, Q_temp, Lambda) then
      let J_kt := cs_Winv cs *m Q^T *m mpinv Q_temp in
      let Null := CalculateTaskNullSpace J_kt Lambda (tk_J tk) (cs_AinvNC cs) 1%:M in
      if ThreadedTaskSpace A_inv cs ts' is Some ls
      then Some (Level J_kt Lambda Null :: ls) else None
    else None
  else Some [::].

End ThrSpace.

Section ThrLoop.
Variable R : realFieldType.
Local Notation dm := (dm R).
Variable solver : nat -> qp R -> option (nat -> R).

(* src/dwbc.cpp:1325-1343: the loop over the levels.  prev is ts_[i-1].Null_task_ (None for i = 0);
   the return value of CalcSingleTaskTorqueWithQP is not looked at; torque_prev is torque_grav_ at
   every level.  Simplified: Null_task_, which the code fills in at the end of each pass, is an input. *)
Fixpoint thr_loop (rd : rdata R) (i : nat) (prev : option dm) (ttask : dm) (ts : seq (tspace R))
  : option (dm * seq (tspace R)) :=
  match ts with
  | [::] => Some (ttask, [::])
  | s :: ts' =>
      let Nprev := if prev is Some N then N else dident R (r_m rd) in
      r <- CalcSingleTaskTorqueWithQP solver rd i s Nprev (r_grav rd) ;;
      let '(s1, _) := r in
      f <- dadd (t_fstar s1) (t_fqp s1) ;;
      JL <- dmul (t_Jkt s1) (t_Lam s1) ;;
      th <- dmul JL f ;;
      ttask1 <- (if prev is Some N then (Nh <- dmul N th ;; dadd ttask Nh) else Some th) ;;
      r' <- thr_loop rd i.+1 (Some (t_Null s1)) ttask1 ts' ;;
      let '(tk, l) := r' in
      Some (tk, s1 :: l)
  end.

(* src/dwbc.cpp:1288-1344.  ts_[0] is accessed (line 1313) whatever the number of tasks.  torque_contact_
   is not assigned; nothing is returned. *)
Definition CalcTaskSpaceTorqueHQPWithThreaded (rd : rdata R) : option (rdata R) :=
  if r_ts rd is [::] then None else
  r <- thr_loop rd 0 None (r_task rd) (r_ts rd) ;;
  let '(tk, l) := r in
  Some (RD (r_m rd) (r_cc rd) (r_cln rd) (r_lset rd) (r_lim rd) (r_NwJw rd) (r_JcT rd) (r_PC rd)
           (r_grav rd) tk (r_con rd) l).

End ThrLoop.
