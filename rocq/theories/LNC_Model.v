(* Model of the second stage of the reduced LQP controller, src/dwbc.cpp:4479-4503 and 4634-4757:
   the hierarchical QP for the joints of the non-contact links, on top of HQP_Model and LQP_Model.

   None is an out-of-range access, a failed assert, a product / sum / block of mismatched sizes,
   or a division by a norm 0 (NaN in the code).
   Simplified: double arithmetic is exact; the return value is always 0 and left out, and so are
   the timers; the variable size a level remembers is read off its B_ as in LQP_Model; a negative
   link id is not modelled (AddTaskSpace refuses unknown links). *)
From mathcomp Require Import all_ssreflect all_algebra.
From Verif Require Import DMat Geo_Model Cone_Model QP_Model HQP_Model LQP_Model Jacc_Model.
Set Implicit Arguments.
Unset Strict Implicit.
Unset Printing Implicit Defensive.
Import Order.TTheory GRing.Theory Num.Theory.
Local Open Scope ring_scope.

Section LNCModel.
Variable R : rcfType.
Local Notation dm := (dm R).
Local Notation level := (level R).

(* include/dwbc_task.h:117-170, class TaskSpace: task_link_[i].link_id_, J_task_, f_star_ *)
Record ntask := NTK { t_links : seq nat; t_J : dm; t_f : dm }.

(* include/dwbc.h:60-200, class RobotData: the members ConfigureLQP_R_NC reads, and torque_limit_
   which it does not *)
Record nrobot := NRB {
  n_nc : nat;                    (* nc_dof *)
  n_ANC : dm; n_GNC : dm;        (* A_NC, G_NC *)
  n_JI : dm;                     (* J_I_nc_ *)
  n_xpos : seq ('cV[R]_3);       (* link_[i].xpos *)
  n_ts : seq ntask;              (* ts_ *)
  n_lim : dm                     (* torque_limit_, set by SetTorqueLimit *)
}.

(* v[i], M.bottomRightCorner(k, k), M.rightCols(k) *)
Definition at_ (T : Type) (s : seq T) (i : nat) : option T := nth None [seq Some x | x <- s] i.
Definition corner (M : dm) (k : nat) : option dm :=
  if ((k <= nr M) && (k <= nc M))%N then dblock M (nr M - k) (nc M - k) k k else None.
Definition rightCols (M : dm) (k : nat) : option dm :=
  if (k <= nc M)%N then dblock M 0 (nc M - k) (nr M) k else None.

(* [ I; -I ] over [ p; q ], written block by block as in lines 4667-4670 and 4744-4748 with M, u, w
   on the right hand sides, over the matrices A0, a0 *)
Definition two_blocks (n : nat) (A0 a0 M u w : dm) : option (dm * dm) :=
  A1 <- blockw A0 0 0 n n M ;;
  a1 <- segw a0 0 n u ;;
  A2 <- blockw A1 (1 * n) 0 n n (dopp M) ;;
  a2 <- segw a1 (1 * n) n w ;;
  Some (A2, a2).

(* src/dwbc.cpp:4650-4674: level 0; g6 = q_acc.tail(6) *)
Definition nc_level0 (rb : nrobot) (g6 H : dm) (hs : seq level) : option (seq level * (dm * dm)) :=
  let n := n_nc rb in
  let hs1 := addHierarchy n hs (2 * n) 6 in
  B <- blockw (dzero R 6 n) 0 0 6 n (n_JI rb) ;;
  b <- segw (dzero R 6 1) 0 6 (dopp g6) ;;
  let tlim := DM n 1 (fun _ _ => 200%:R) in
  M <- corner (n_ANC rb) n ;;
  u <- dadd (dopp tlim) (n_GNC rb) ;;
  w <- dsub (dopp tlim) (n_GNC rb) ;;
  Aa <- two_blocks n (dzero R (2 * n) n) (dzero R (2 * n) 1) M u w ;;
  hs2 <- updAt hs1 0 (fun l =>
    l1 <- updateConstraintMatrix (lvars l) l Aa.1 Aa.2 B b ;;
    updateCostMatrix (lvars l) l1 H (dzero R n 1)) ;;
  Some (hs2, Aa).

(* src/dwbc.cpp:4728-4735: the desired acceleration of level 1; fstar_local = Ja * (f_star_ - fstar_base)
   with ts_[1] and the first link of ts_[1]; b6 = q_acc.head(6) *)
Definition nc_reference (rb : nrobot) (t : ntask) (b6 : dm) : option dm :=
  id <- at_ (t_links t) 0 ;;
  x <- at_ (n_xpos rb) id ;;
  x0 <- at_ (n_xpos rb) 0 ;;
  df <- dsub (t_f t) b6 ;;
  dmul (of_mx (jJa (x - x0))) df.

(* src/dwbc.cpp:4728-4752: level 1; A_nc and a_nc are written over *)
Definition nc_level1 (rb : nrobot) (b6 H : dm) (Aa : dm * dm) (hs : seq level) : option (seq level) :=
  let n := n_nc rb in
  let hs1 := addHierarchy n hs (2 * n) 6 in
  t <- at_ (n_ts rb) 1 ;;
  fl <- nc_reference rb t b6 ;;
  Jn <- rightCols (t_J t) n ;;
  B <- blockw (dzero R 6 n) 0 0 6 n Jn ;;
  b <- segw (dzero R 6 1) 0 6 (dopp fl) ;;
  let alim := DM n 1 (fun _ _ => - 5%:R) in
  Aa' <- two_blocks n Aa.1 Aa.2 (dident R n) alim alim ;;
  updAt hs1 1 (fun l =>
    l1 <- updateConstraintMatrix (lvars l) l Aa'.1 Aa'.2 B b ;;
    updateCostMatrix (lvars l) l1 H (dzero R n 1)).

Variable getNullSpace : dm -> dm.

(* src/dwbc.cpp:4634-4757, RobotData::ConfigureLQP_R_NC; hs is hqp_nc_.hqp_hs_ on entry *)
Definition ConfigureLQP_R_NC (rb : nrobot) (q_acc : dm) (hs : seq level) : option (seq level) :=
  g6 <- tail q_acc 6 ;;
  b6 <- seg q_acc 0 6 ;;
  M <- corner (n_ANC rb) (n_nc rb) ;;
  H <- scaled M (frob M) ;;
  r <- nc_level0 rb g6 H hs ;;
  hs2 <- nc_level1 rb b6 H r.2 r.1 ;;
  prepare getNullSpace hs2.

(* src/dwbc.cpp:4479-4503, RobotData::CalcControlTorqueLQP_R_NC: the rest is timing.  n is the
   number of decision variables hqp_nc_ was initialised with, nc_dof *)
Definition CalcControlTorqueLQP_R_NC (osqp : nat -> bool -> oqp R -> nat -> R) (n : nat) (hs : seq level) (init : bool)
  : option (seq level) :=
  hs1 <- solvefirst osqp n hs init ;;
  solveSequential osqp hs1 init.
End LNCModel.
