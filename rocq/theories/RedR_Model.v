(* Model of CalcContactRedistributeR (src/dwbc.cpp:4762-4992), the QP branch (hqp = true).

   The record rdata of QP_Model.v is reused with the members of the reduced model in place of
   those of the full one: r_m is reduced_model_dof_, r_NwJw is NwJw_R, r_JcT is J_CR_INV_T,
   r_PC is P_CR, r_grav / r_task / r_con are torque_grav_R_, torque_task_R_, torque_contact_R_.
   torque_limit_ (r_lim) belongs to both models.

   Simplified: a contact has no contact_type_ here; contact_dof_ = 6 stands for CONTACT_6D and
   contact_dof_ = 3 for CONTACT_POINT (the values given by the constructors,
   src/contact_constraint.cpp:19-33).  The vectors vec_origin, vec_target and AxisTransform2V of
   lines 4826-4829 are left out: line 4831 overwrites their result by the identity.  The branch
   hqp = false is in RedC_Model.v.  init only affects messages and the solver object. *)
From mathcomp Require Import all_ssreflect all_algebra.
From Verif Require Import DMat Cone_Model QP_Model.
Set Implicit Arguments.
Unset Strict Implicit.
Unset Printing Implicit Defensive.
Import Order.TTheory GRing.Theory Num.Theory.
Local Open Scope ring_scope.

Section RedRModel.
Variable R : realFieldType.
Local Notation dm := (dm R).
Local Notation pcontact := (pcontact R).

(* src/dwbc.cpp:4834-4845: crot_matrix and RotW for one active contact; cm = identity (4831).
   Other contact types leave the matrices and the offset alone. *)
Definition frame_step (c : pcontact) (acc : nat) (C W : dm) : option (dm * dm * nat) :=
  let rt := of_mx (p_rotm c)^T in
  if p_dof c == 6%N then
    C1 <- blockw C (acc + 3) (acc + 3) 3 3 rt ;;
    C2 <- blockw C1 acc acc 3 3 rt ;;
    W1 <- blockw W (acc + 2) (acc + 2) 1 1 (dzero R 1 1) ;;
    Some (C2, W1, acc + p_dof c)%N
  else if p_dof c == 3%N then
    C1 <- blockw C acc acc 3 3 rt ;;
    W1 <- blockw W (acc + 2) (acc + 2) 1 1 (dzero R 1 1) ;;
    Some (C1, W1, acc + p_dof c)%N
  else Some (C, W, acc).

(* src/dwbc.cpp:4822-4848 *)
Fixpoint frame_loop (cc : seq pcontact) (acc : nat) (C W : dm) : option (dm * dm) :=
  match cc with
  | [::] => Some (C, W)
  | c :: cc' =>
      if p_on c then
        r <- frame_step c acc C W ;;
        let '(C', W', acc') := r in frame_loop cc' acc' C' W'
      else frame_loop cc' acc C W
  end.

(* src/dwbc.cpp:4860-4872: the torque limit rows; both halves are written to rows 0 .. m-1 *)
Definition limit_rows_R (m c : nat) (NwJw lim tin : dm) (A ub : dm) (lb : lbv R)
  : option (dm * dm * lbv R) :=
  A1 <- blockw A 0 0 m c NwJw ;;
  u <- dsub lim tin ;;
  ub1 <- segw ub 0 m u ;;
  A2 <- blockw A1 0 0 m c (dopp NwJw) ;;
  v <- dadd lim tin ;;
  ub2 <- segw ub1 0 m v ;;
  lb1 <- lsetinf lb 0 (2 * m) ;;
  Some (A2, ub2, lb1).

(* src/dwbc.cpp:4776-4908: the problem handed to the solver, contact_dof = c > 0.
   g is a row vector assigned to a column: Eigen transposes it. *)
Definition RedisQPR (rd : rdata R) (tin : dm) : option (qp R) :=
  let m := r_m rd in
  let tot := total_contact_dof (r_cc rd) in
  let ccs := contact_constraint_size (r_cc rd) in
  let c := (tot - 6)%N in
  let tl := if r_lset rd then (2 * m)%N else 0%N in
  let nrow := (ccs + tl)%N in
  cw <- frame_loop (r_cc rd) 0 (dzero R tot tot) (dident R tot) ;;
  let '(crot, RotW) := cw in
  WC <- dmul RotW crot ;;
  JR <- rightCols (r_JcT rd) m ;;
  WCJ <- dmul WC JR ;;
  Ht <- dmul WCJ (r_NwJw rd) ;;
  H <- dmul (dtr Ht) Ht ;;
  Jt <- dmul JR tin ;;
  f0 <- dsub Jt (r_PC rd) ;;
  v0 <- dmul WC f0 ;;
  gT <- dmul (dtr v0) Ht ;;
  let g := dtr gT in
  r <- (if r_lset rd
        then limit_rows_R m c (r_NwJw rd) (r_lim rd) tin (dzero R nrow c) (dzero R nrow 1) (lzero R nrow)
        else Some (dzero R nrow c, dzero R nrow 1, lzero R nrow)) ;;
  let '(A0, ub0, lb0) := r in
  ab <- constraint_loop (r_cc rd) 0 0 (dzero R ccs tot) (dzero R tot tot) ;;
  let '(A_const, A_rot) := ab in
  AR <- dmul A_const A_rot ;;
  Atemp <- dmul AR JR ;;
  RP <- dmul A_rot (r_PC rd) ;;
  CRP <- dmul A_const RP ;;
  At <- dmul Atemp tin ;;
  bA <- dsub CRP At ;;
  AW <- dmul (dopp Atemp) (r_NwJw rd) ;;
  A1 <- blockw A0 tl 0 ccs c AW ;;
  lb1 <- lsetinf lb0 tl ccs ;;
  ub1 <- segw ub0 tl ccs (dopp bA) ;;
  Some (QP H g A1 lb1 ub1).

Variable solver : nat -> qp R -> option (nat -> R).

(* src/dwbc.cpp:4776-4946, hqp = true: torque_contact_R_ is assigned, not accumulated *)
Definition CalcContactRedistributeRWith (slot : nat) (rd : rdata R) (tin : dm) : option (rdata R * bool) :=
  let c := (total_contact_dof (r_cc rd) - 6)%N in
  if (0 < c)%N then
    q <- RedisQPR rd tin ;;
    match solver slot q with
    | Some x => Nx <- dmul (r_NwJw rd) (vec c x) ;; Some (with_con rd Nx, true)
    | None => Some (with_con rd (dzero R (r_m rd) 1), false)
    end
  else Some (with_con rd (dzero R (r_m rd) 1), true).

(* the robot: the members of the reduced model and, of the full one, model_dof_, contact_dof_
   and torque_contact_ (include/dwbc.h:60-200) *)
Record rrobot := RR { rr_rd : rdata R; rr_dof : nat; rr_cdof : nat; rr_tc : dm }.

(* src/dwbc.cpp:4762-4774 (ReducedCalcContactRedistribute, 3759-3771, is the same text), hqp = true *)
Definition CalcContactRedistributeR (slot : nat) (rr : rrobot) : option (rrobot * bool) :=
  if (6 < rr_cdof rr)%N then
    tin <- dadd (r_grav (rr_rd rr)) (r_task (rr_rd rr)) ;;
    r <- CalcContactRedistributeRWith slot (rr_rd rr) tin ;;
    let '(rd', b) := r in
    s <- seg (r_con rd') 0 (rr_cdof rr) ;;
    tc <- segw (dzero R (rr_dof rr) 1) 0 (rr_cdof rr) s ;;
    Some (RR rd' (rr_dof rr) (rr_cdof rr) tc, b)
  else Some (rr, false).
End RedRModel.
