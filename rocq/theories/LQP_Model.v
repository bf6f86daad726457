(* Model of the configuration of the "LQP" controllers, src/dwbc.cpp:4304-4476 and 4504-4626, on
   top of the hierarchical QP of HQP_Model.

   None is an out-of-range access, a failed assert, a product / sum / block of mismatched sizes,
   or a division by A_.norm() = 0 (NaN in the code).
   Simplified: double arithmetic is exact; the return value is always 0 and left out; the variable
   size a level remembers (variable_size_) is read off as the number of columns of its B_, which
   has been allocated with that size and is only assigned after the assert on that size. *)
From mathcomp Require Import all_ssreflect all_algebra.
From Verif Require Import DMat Cone_Model QP_Model HQP_Model.
Set Implicit Arguments.
Unset Strict Implicit.
Unset Printing Implicit Defensive.
Import Order.TTheory GRing.Theory Num.Theory.
Local Open Scope ring_scope.

Section LQPModel.
Variable R : rcfType.
Local Notation dm := (dm R).
Local Notation level := (level R).

(* include/task.h, class TaskSpace: task_dof_, J_task_, f_star_, noncont_task *)
Record ltask := LTK { k_dof : nat; k_J : dm; k_fstar : dm; k_noncont : bool }.

(* include/dwbc_wbd.h / dwbc.h, class RobotData: the members read by ConfigureLQP and ConfigureLQP_R *)
Record lrobot := LRB {
  q_nv : nat; q_m : nat;                   (* system_dof_, model_dof_ *)
  q_cdof : nat; q_cln : nat;               (* contact_dof_, contact_link_num_ *)
  q_A : dm; q_Ainv : dm; q_B : dm;         (* A_, A_inv_, B_ *)
  q_JC : dm;                               (* J_C *)
  q_cc : seq (pcontact R);                 (* cc_ *)
  q_lim : dm;                              (* torque_limit_, set by SetTorqueLimit *)
  q_ts : seq ltask;                        (* ts_ *)
  q_rnv : nat; q_rm : nat;                 (* reduced_system_dof_, reduced_model_dof_ *)
  q_AR : dm; q_ARinv : dm; q_GR : dm;      (* A_R, A_R_inv, G_R *)
  q_JCR : dm; q_JRinvT : dm                (* J_CR, J_R_INV_T *)
}.

(* the quantities the two functions put in the same places: acc_size, torque_size, contact_size,
   inertia, its inverse, gravity, contact Jacobian *)
Record lqdata := LQD { d_nv : nat; d_m : nat; d_c : nat; d_A : dm; d_Ainv : dm; d_G : dm; d_J : dm }.

(* src/dwbc.cpp:4329-4332 *)
Definition dataLQP (rb : lrobot) : lqdata :=
  LQD (q_nv rb) (q_m rb) (q_cdof rb) (q_A rb) (q_Ainv rb) (q_B rb) (q_JC rb).
(* src/dwbc.cpp:4525-4528 *)
Definition dataLQP_R (rb : lrobot) : lqdata :=
  LQD (q_rnv rb) (q_rm rb) (q_cdof rb) (q_AR rb) (q_ARinv rb) (q_GR rb) (q_JCR rb).

(* M.topRows(k), M.bottomRows(k) *)
Definition topRows (M : dm) (k : nat) : option dm := dblock M 0 0 k (nc M).
Definition bottomRows (M : dm) (k : nat) : option dm :=
  if (k <= nr M)%N then dblock M (nr M - k) 0 k (nc M) else None.

(* M.norm() of a matrix: Frobenius *)
Definition frob (M : dm) : R :=
  Num.sqrt (\sum_(0 <= i < nr M) \sum_(0 <= j < nc M) ent M i j ^+ 2).

(* M / nrm * 5 *)
Definition scaled (M : dm) (nrm : R) : option dm :=
  if nrm == 0 then None else Some (DM (nr M) (nc M) (fun i j => ent M i j / nrm * 5%:R)).

(* src/dwbc.cpp:4338-4341, 4534-4537: cost_h; both divide by A_.norm() *)
Definition cost_h (D : lqdata) (nrm : R) : option dm :=
  let n := (d_nv D + d_c D)%N in
  S <- scaled (d_A D) nrm ;;
  blockw (dzero R n n) 0 0 (d_nv D) (d_nv D) S.

(* variable_size_ of a level *)
Definition lvars (l : level) : nat := nc (l_B l).

(* hqp.hqp_hs_[i].<updates> *)
Definition updAt (hs : seq level) (i : nat) (f : level -> option level) : option (seq level) :=
  let d := initLevel R 0 0 0 in
  if (i < size hs)%N then l <- f (nth d hs i) ;; Some (set_nth d hs i l) else None.

(* src/dwbc.cpp:4355-4357, 4549-4551: B, b of priority 1 *)
Definition base_rows (D : lqdata) : option (dm * dm) :=
  let n := (d_nv D + d_c D)%N in
  At <- topRows (d_A D) 6 ;;
  B1 <- blockw (dzero R 6 n) 0 0 6 (d_nv D) At ;;
  Jt <- topRows (dtr (d_J D)) 6 ;;
  B2 <- blockw B1 0 (d_nv D) 6 (d_c D) Jt ;;
  Gt <- seg (d_G D) 0 6 ;;
  b <- segw (dzero R 6 1) 0 6 Gt ;;
  Some (B2, b).

(* src/dwbc.cpp:4359-4369, 4558-4567: A, a of priority 1; tlim is the vector of limits *)
Definition torque_rows (D : lqdata) (tlim : dm) : option (dm * dm) :=
  let n := (d_nv D + d_c D)%N in
  let m := d_m D in
  Ab <- bottomRows (d_A D) m ;;
  A1 <- blockw (dzero R (m * 2) n) 0 0 m (d_nv D) Ab ;;
  Jb <- bottomRows (dtr (d_J D)) m ;;
  A2 <- blockw A1 0 (d_nv D) m (d_c D) Jb ;;
  A3 <- blockw A2 m 0 m (d_nv D) (dopp Ab) ;;
  A4 <- blockw A3 m (d_nv D) m (d_c D) (dopp Jb) ;;
  Gt <- tail (d_G D) m ;;
  u <- dadd (dopp tlim) Gt ;;
  a1 <- segw (dzero R (m * 2) 1) 0 m u ;;
  w <- dsub (dopp tlim) Gt ;;
  a2 <- tailw a1 m w ;;
  Some (A4, a2).

(* src/dwbc.cpp:4343-4380, 4539-4578: priority 1 *)
Definition priority1 (D : lqdata) (tlim : dm) (hs : seq level) : option (seq level) :=
  let n := (d_nv D + d_c D)%N in
  let m := d_m D in
  let hs1 := addHierarchy n hs (m * 2) 6 in
  Bb <- base_rows D ;;
  Aa <- torque_rows D tlim ;;
  y0 <- dmul (dopp (d_Ainv D)) (d_G D) ;;
  updAt hs1 0 (fun l =>
    l1 <- updateConstraintMatrix (lvars l) l Aa.1 Aa.2 Bb.1 Bb.2 ;;
    let l2 := normalizeConstraintMatrix l1 in
    y <- segw (l_y l2) 0 (d_nv D) y0 ;;
    Some (setAns l2 y (dzero R (m * 2) 1) (dzero R 6 1) (l_ans l2))).

(* src/dwbc.cpp:4389-4397, 4587-4595: A, a of priority 2; C = getContactConstraintMatrix(),
   ccs = contact_constraint_size; alim = 5 *)
Definition contact_rows (D : lqdata) (C : dm) (ccs : nat) : option (dm * dm) :=
  let n := (d_nv D + d_c D)%N in
  let m := d_m D in
  let nin := (ccs + m * 2)%N in
  A1 <- blockw (dzero R nin n) 0 (d_nv D) ccs (d_c D) C ;;
  A2 <- blockw A1 ccs 6 m m (dident R m) ;;
  A3 <- blockw A2 (ccs + m) 6 m m (dopp (dident R m)) ;;
  let alim := DM m 1 (fun _ _ => - 5%:R) in
  a1 <- segw (dzero R nin 1) ccs m alim ;;
  a2 <- segw a1 (ccs + m) m alim ;;
  Some (A3, a2).

(* src/dwbc.cpp:4382-4407, 4580-4604: priority 2 *)
Definition priority2 (D : lqdata) (rb : lrobot) (H : dm) (hs : seq level) : option (seq level) :=
  let n := (d_nv D + d_c D)%N in
  let ccs := (q_cln rb * 10)%N in
  let nin := (ccs + d_m D * 2)%N in
  let hs1 := addHierarchy n hs nin (d_c D) in
  C <- getContactConstraintMatrix (q_cc rb) (q_cln rb) (q_cdof rb) ;;
  Aa <- contact_rows D C ccs ;;
  B <- blockw (dzero R (d_c D) n) 0 0 (d_c D) (d_nv D) (d_J D) ;;
  updAt hs1 1 (fun l =>
    l1 <- updateConstraintMatrix (lvars l) l Aa.1 Aa.2 B (dzero R (d_c D) 1) ;;
    l2 <- updateCostMatrix (lvars l) l1 H (dzero R n 1) ;;
    Some (normalizeConstraintMatrix l2)).

(* src/dwbc.cpp:4409-4427, 4610-4626: one task.  J is ts_[i].J_task_ (times J_R_INV_T^T in the
   reduced case); A, a are left over from above and are not used since there are no inequality
   rows; the level written is 2 + i *)
Definition task_level (D : lqdata) (H : dm) (i : nat) (t : ltask) (J : dm) (hs : seq level) : option (seq level) :=
  let n := (d_nv D + d_c D)%N in
  let hs1 := addHierarchy n hs 0 (k_dof t) in
  B <- blockw (dzero R (k_dof t) n) 0 0 (k_dof t) (d_nv D) J ;;
  b <- segw (dzero R (k_dof t) 1) 0 (k_dof t) (dopp (k_fstar t)) ;;
  updAt hs1 (2 + i) (fun l =>
    l1 <- updateConstraintMatrix (lvars l) l (dzero R 0 0) (dzero R 0 1) B b ;;
    l2 <- updateCostMatrix (lvars l) l1 H (dzero R n 1) ;;
    Some (normalizeConstraintMatrix l2)).

(* src/dwbc.cpp:4409-4427, the loop over ts_ *)
Fixpoint tasks_loop (D : lqdata) (H : dm) (i : nat) (ts : seq ltask) (hs : seq level) : option (seq level) :=
  match ts with
  | [::] => Some hs
  | t :: ts' => hs1 <- task_level D H i t (k_J t) hs ;; tasks_loop D H i.+1 ts' hs1
  end.

(* src/dwbc.cpp:4608-4626, the loop over ts_ of the reduced version *)
Fixpoint tasks_loop_R (D : lqdata) (JRinvT : dm) (H : dm) (i : nat) (ts : seq ltask) (hs : seq level) : option (seq level) :=
  match ts with
  | [::] => Some hs
  | t :: ts' =>
      hs1 <- (if k_noncont t then Some hs
              else J <- dmul (k_J t) (dtr JRinvT) ;; task_level D H i t J hs) ;;
      tasks_loop_R D JRinvT H i.+1 ts' hs1
  end.

(* the two vectors of torque limits, src/dwbc.cpp:4359 and 4553-4556 *)
Definition tlimLQP (m : nat) : dm := DM m 1 (fun _ _ => 200%:R).
Definition tlimLQP_R (m : nat) : option dm :=
  if (4 <= m)%N then Some (DM m 1 (fun i _ => if i == (m - 4)%N then 600%:R else 200%:R)) else None.

Variable getNullSpace : dm -> dm.

(* src/dwbc.cpp:4304-4432, RobotData::ConfigureLQP; hs is hqp.hqp_hs_ on entry: hqp.initialize
   sets the three sizes only *)
Definition ConfigureLQP (rb : lrobot) (hs : seq level) : option (seq level) :=
  let D := dataLQP rb in
  H <- cost_h D (frob (q_A rb)) ;;
  hs1 <- priority1 D (tlimLQP (d_m D)) hs ;;
  hs2 <- priority2 D rb H hs1 ;;
  hs3 <- tasks_loop D H 0 (q_ts rb) hs2 ;;
  prepare getNullSpace hs3.

(* src/dwbc.cpp:4504-4631, RobotData::ConfigureLQP_R *)
Definition ConfigureLQP_R (rb : lrobot) (hs : seq level) : option (seq level) :=
  let D := dataLQP_R rb in
  H <- cost_h D (frob (q_A rb)) ;;
  tl <- tlimLQP_R (d_m D) ;;
  hs1 <- priority1 D tl hs ;;
  hs2 <- priority2 D rb H hs1 ;;
  hs3 <- tasks_loop_R D (q_JRinvT rb) H 0 (q_ts rb) hs2 ;;
  prepare getNullSpace hs3.

(* src/dwbc.cpp:4434-4455 and 4456-4476, CalcControlTorqueLQP, CalcControlTorqueLQP_R: the rest
   is timing *)
Definition CalcControlTorqueLQP (osqp : nat -> bool -> oqp R -> nat -> R) (hs : seq level) (init : bool) :=
  solveSequential osqp hs init.
End LQPModel.
