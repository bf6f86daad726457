(* Model of the hierarchical torque of the reduced model: src/dwbc.cpp:3255-3445
   (ReducedCalcTaskControlTorque, calc_task_space = false), 3447-3599 (CalcSingleTaskTorqueWithQP_R)
   and 3601-3757 (CalcSingleTaskTorqueWithQP_R_NC).

   None is an out-of-range access or a product / sum of mismatched sizes.  Simplified: double
   arithmetic is exact; heirarchy_ is the position in ts_ (C63 is about that); members written but not
   read afterwards (torque_h_, torque_null_h_, nc_qp_contact_, qp_error of the non-contact QP) are left
   out. *)
From mathcomp Require Import all_ssreflect all_algebra.
From Verif Require Import DMat Cone_Model QP_Model.
Set Implicit Arguments.
Unset Strict Implicit.
Unset Printing Implicit Defensive.
Import Order.TTheory GRing.Theory Num.Theory.
Local Open Scope ring_scope.

Section RTqModel.
Variable R : realFieldType.
Local Notation dm := (dm R).

(* include/dwbc_task.h:117-170, the members used here *)
Record rtask := RT {
  u_nc : bool;        (* noncont_task *)
  u_nch : nat;        (* nc_heirarchy_ *)
  u_J : dm;           (* J_task_ *)
  u_JNC : dm;         (* J_task_NC_; empty (0 x 0) until CalcJKT_R of a non-contact task sets it *)
  u_Lam : dm;         (* Lambda_task_ *)
  u_f : dm;           (* f_star_ *)
  u_Jkt : dm;         (* J_kt_R_ *)
  u_Null : dm;        (* Null_task_R_ *)
  u_fqp : dm;         (* f_star_qp_ *)
  u_cqp : dm;         (* contact_qp_ *)
  u_err : bool;       (* qp_error *)
  u_nullR : dm;       (* torque_null_h_R_ *)
  u_nullNC : dm       (* torque_null_h_nc_ *)
}.

(* include/dwbc.h:60-200, the members used here *)
Record rrobot := RR {
  w_m : nat;          (* model_dof_ *)
  w_co : nat;         (* co_dof *)
  w_nc : nat;         (* nc_dof *)
  w_vc : nat;         (* vc_dof *)
  w_rm : nat;         (* reduced_model_dof_ *)
  w_cc : seq (pcontact R);  (* cc_ *)
  w_lset : bool;      (* torque_limit_set_ *)
  w_lim : dm;         (* torque_limit_ *)
  w_NwJw : dm;        (* NwJw_R *)
  w_JcT : dm;         (* J_CR_INV_T *)
  w_PC : dm;          (* P_CR *)
  w_grav : dm;        (* torque_grav_R_ *)
  w_Jb : dm;          (* J_base_R_kt_ *)
  w_JIT : dm;         (* J_I_nc_inv_T *)
  w_JI : dm;          (* J_I_nc_ *)
  w_NI : dm;          (* N_I_nc_ *)
  w_AN : dm;          (* A_inv_N_C *)
  w_rot : 'M[R]_3;    (* link_[0].rotm *)
  w_ts : seq rtask    (* ts_ *)
}.

Variable solver : nat -> qp R -> option (nat -> R).

(* The reduced members in the places CalcSingleTaskTorqueWithQP has the full ones *)
Definition rd_of (rb : rrobot) : rdata R :=
  RD (w_rm rb) (w_cc rb) 0 (w_lset rb) (w_lim rb) (w_NwJw rb) (w_JcT rb) (w_PC rb) (w_grav rb)
     (dzero R (w_rm rb) 1) (dzero R (w_rm rb) 1) [::].

(* src/dwbc.cpp:3447-3599.  Line by line the code of CalcSingleTaskTorqueWithQP2 (1129-1279) with model_size =
   reduced_model_dof_ and the reduced members; the parameters NwJw, J_C_INV_T, P_C are not used, NwJw_R,
   J_CR_INV_T and P_CR are.  (Ntorque_task is task_null_matrix_ * (J_kt_R_ * Lambda_task_) here; the
   product is taken to be associative.)  A failure keeps the old contact_qp_. *)
Definition CalcSingleTaskTorqueWithQP_R (rb : rrobot) (i : nat) (s : rtask) (Nprev tprev : dm) : option (rtask * bool) :=
  r <- CalcSingleTaskTorqueWithQP2 solver (rd_of rb) i
         (TS (u_f s) (u_Jkt s) (u_Lam s) (u_Null s) (u_fqp s) (u_cqp s) (dzero R 0 1) (u_err s)) Nprev tprev ;;
  let '(t, ok) := r in
  Some (RT (u_nc s) (u_nch s) (u_J s) (u_JNC s) (u_Lam s) (u_f s) (u_Jkt s) (u_Null s) (t_fqp t) (t_cqp t) (t_err t)
           (u_nullR s) (u_nullNC s), ok).

(* src/dwbc.cpp:3601-3757: the same with task_dof = 6, force_on_nc_r_ for f_star_ and J_base_R_kt_ for
   J_kt_R_ * Lambda_task_; yields force_on_nc_R_qp_ *)
Definition CalcSingleTaskTorqueWithQP_R_NC (rb : rrobot) (first : nat) (force Nprev tprev : dm) : option (dm * bool) :=
  r <- CalcSingleTaskTorqueWithQP2 solver (rd_of rb) first
         (TS force (w_Jb rb) (dident R 6) (dzero R (w_rm rb) (w_rm rb)) (dzero R 0 1) (dzero R 0 1) (dzero R 0 1) false) Nprev tprev ;;
  let '(t, ok) := r in Some (t_fqp t, ok).

(* Vector6d (a, rotm * b) for the first six entries (a, b) of temp_torque_ : 3296-3297, 3381-3382 *)
Definition turned (rb : rrobot) (v : dm) : option dm :=
  a <- seg v 0 3 ;;
  b <- seg v 3 3 ;;
  rb3 <- dmul (of_mx (w_rot rb)) b ;;
  f <- segw (dzero R 6 1) 0 3 a ;;
  segw f 3 3 rb3.

(* src/dwbc.cpp:3293-3331 and 3378-3413 (the same statements): a non-contact task.  prev is ts_[i - 1].
   Yields torque_null_h_R_, torque_null_h_nc_ and the change of force_on_nc_r_ *)
Definition nc_torque (rb : rrobot) (prev : option rtask) (s : rtask) : option (dm * dm * dm) :=
  Lf <- dmul (u_Lam s) (u_f s) ;;
  temp <- dmul (dtr (u_J s)) Lf ;;
  tnc <- seg temp (w_vc rb) (w_nc rb) ;;
  force <- turned rb temp ;;
  Jt <- dblock (w_Jb rb) 0 0 (w_co rb) (nc (w_Jb rb)) ;;
  a <- dmul Jt force ;;
  h1 <- segw (dzero R (w_rm rb) 1) 0 (w_co rb) a ;;
  b <- dmul (w_JIT rb) tnc ;;
  h <- segw h1 (w_co rb) 6 b ;;
  p <- prev ;;
  if u_nch s == 0%N then
    nR <- dmul (u_Null p) h ;;
    Some (nR, tnc, force)
  else
    x1 <- dmul (w_AN rb) temp ;;
    x2 <- dmul (u_J p) x1 ;;
    null_force <- dmul (u_Lam p) x2 ;;
    temp2 <- dmul (dtr (u_J p)) null_force ;;
    t2 <- seg temp2 (w_vc rb) (w_nc rb) ;;
    nNC <- dsub tnc t2 ;;
    force2 <- turned rb temp2 ;;
    hc <- seg h 0 (w_co rb) ;;
    y1 <- dmul Jt force2 ;;
    y2 <- dsub hc y1 ;;
    n1 <- segw (dzero R (w_rm rb) 1) 0 (w_co rb) y2 ;;
    z1 <- dmul (dtr (u_JNC p)) null_force ;;
    z2 <- dsub tnc z1 ;;
    z3 <- dmul (w_JIT rb) z2 ;;
    n2 <- segw n1 (w_co rb) 6 z3 ;;
    nR <- dmul (u_Null p) n2 ;;
    df <- dsub force force2 ;;
    Some (nR, nNC, df).

Definition with_null (s : rtask) (nR nNC : dm) : rtask :=
  RT (u_nc s) (u_nch s) (u_J s) (u_JNC s) (u_Lam s) (u_f s) (u_Jkt s) (u_Null s) (u_fqp s) (u_cqp s) (u_err s) nR nNC.

(* the state of the loop: torque_task_R_, torque_task_NC_, first_nc_TaskSpace_idx_ (None is -1),
   force_on_nc_r_, the tasks done so far (last first) *)
Record lstate := LS { l_R : dm; l_NC : dm; l_first : option nat; l_force : dm; l_done : seq rtask }.

(* J_kt_R_ * Lambda_task_ * f *)
Definition level (s : rtask) (f : dm) : option dm := JL <- dmul (u_Jkt s) (u_Lam s) ;; dmul JL f.

(* torque_h_R_ for the first task, Null_task_R_ of ts_[i-1] times torque_h_R_ for the others:
   3346-3347, 3358-3359, 3415-3425 *)
Definition below (prev : option rtask) (h : dm) : option dm := if prev is Some p then dmul (u_Null p) h else Some h.

(* src/dwbc.cpp:3280-3365 (hqp) and 3367-3417: one task.  Yields the new state, the updated task and the
   return value of the QP *)
Definition one (hqp : bool) (rb : rrobot) (i : nat) (st : lstate) (s : rtask) : option (lstate * bool) :=
  let prev := ohead (l_done st) in
  let z := dzero R (w_nc rb) 1 in
  if u_nc s then
    r <- nc_torque rb prev s ;;
    let '(nR, nNC, df) := r in
    let s1 := with_null s nR nNC in
    let first := if u_nch s == 0%N then Some i else l_first st in
    if hqp then
      F <- dadd (l_force st) df ;;
      Some (LS (l_R st) (l_NC st) first F (s1 :: l_done st), true)
    else
      tR <- dadd (l_R st) nR ;;
      tN <- dadd (l_NC st) nNC ;;
      Some (LS tR tN first (l_force st) (s1 :: l_done st), true)
  else if hqp then
    tprev <- (if prev is Some _ then dadd (w_grav rb) (l_R st) else Some (w_grav rb)) ;;
    r <- CalcSingleTaskTorqueWithQP_R rb i s (if prev is Some p then u_Null p else dident R (w_rm rb)) tprev ;;
    let '(s1, ok) := r in
    if ok then
      f <- dadd (u_f s1) (u_fqp s1) ;;
      h <- level s1 f ;;
      nR <- below prev h ;;
      tR <- dadd (l_R st) nR ;;
      tN <- dadd (l_NC st) z ;;
      Some (LS tR tN (l_first st) (l_force st) (with_null s1 nR z :: l_done st), true)
    else Some (LS (l_R st) (l_NC st) (l_first st) (l_force st)
                  (with_null s1 (dzero R (w_rm rb) 1) z :: l_done st), false)
  else
    h <- level s (u_f s) ;;
    nR <- below prev h ;;
    tR <- dadd (l_R st) nR ;;
    tN <- dadd (l_NC st) z ;;
    Some (LS tR tN (l_first st) (l_force st) (with_null s nR z :: l_done st), true).

(* the loop; the rest of the tasks after a failed QP is left as it was *)
Fixpoint levels (hqp : bool) (rb : rrobot) (i : nat) (st : lstate) (ts : seq rtask) : option (lstate * seq rtask * bool) :=
  match ts with
  | [::] => Some (st, [::], true)
  | s :: ts' =>
      r <- one hqp rb i st s ;;
      let '(st', ok) := r in
      if ok then levels hqp rb i.+1 st' ts' else Some (st', ts', false)
  end.

(* src/dwbc.cpp:3430-3437: adds the torques of the non-contact tasks from index first on *)
Fixpoint add_nc (ts : seq rtask) (tR tN : dm) : option (dm * dm) :=
  match ts with
  | [::] => Some (tR, tN)
  | s :: ts' =>
      if u_nc s then
        tR' <- dadd tR (u_nullR s) ;;
        tN' <- dadd tN (u_nullNC s) ;;
        add_nc ts' tR' tN'
      else add_nc ts' tR tN
  end.

(* src/dwbc.cpp:3442-3443: torque_task_ *)
Definition spread (rb : rrobot) (tR tN tqp : dm) : option dm :=
  a <- seg tR 0 (w_co rb) ;;
  b <- seg tqp 0 (w_co rb) ;;
  c <- dadd a b ;;
  t1 <- segw (dzero R (w_m rb) 1) 0 (w_co rb) c ;;
  d <- seg tR (w_co rb) 6 ;;
  e <- dmul (dtr (w_JI rb)) d ;;
  g <- dmul (w_NI rb) tN ;;
  k <- dadd e g ;;
  segw t1 (w_co rb) (w_nc rb) k.

(* what is left behind: torque_task_, torque_task_R_, force_on_nc_R_qp_ if a non-contact QP was solved,
   ts_, the return value *)
Record rresult := RRes { z_task : dm; z_R : dm; z_fqp : option dm; z_ts : seq rtask; z_ok : bool }.

(* src/dwbc.cpp:3255-3445 *)
Definition ReducedCalcTaskControlTorque (hqp : bool) (rb : rrobot) : option rresult :=
  let z := dzero R (w_m rb) 1 in
  r <- levels hqp rb 0 (LS (dzero R (w_rm rb) 1) (dzero R (w_nc rb) 1) None (dzero R 6 1) [::]) (w_ts rb) ;;
  let '(st, rest, ok) := r in
  let ts := rev (l_done st) ++ rest in
  if ok then
    match (if hqp then l_first st else None) with
    | Some k =>
        p <- (if k is k'.+1 then ohead (drop k' ts) else None) ;;
        tprev <- dadd (w_grav rb) (l_R st) ;;
        r <- CalcSingleTaskTorqueWithQP_R_NC rb k (l_force st) (u_Null p) tprev ;;
        let '(fq, ok2) := r in
        if ok2 then
          a <- add_nc (drop k ts) (l_R st) (l_NC st) ;;
          Jt <- dblock (w_Jb rb) 0 0 (w_co rb) (nc (w_Jb rb)) ;;
          tqp <- dmul Jt fq ;;
          t <- spread rb a.1 a.2 tqp ;;
          Some (RRes t a.1 (Some fq) ts true)
        else Some (RRes z (l_R st) (Some fq) ts false)
    | None =>
        t <- spread rb (l_R st) (l_NC st) (dzero R (w_rm rb) 1) ;;
        Some (RRes t (l_R st) None ts true)
    end
  else Some (RRes z (l_R st) None ts false).
End RTqModel.
