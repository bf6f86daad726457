(* Model of the acceleration-level QPs, src/dwbc.cpp:3772-4302: CalcSingleTaskTorqueWithJACC_QP,
   CalcSingleTaskTorqueWithJACC_QP_R and CalcSingleTaskTorqueWithJACC_QP_R_NC.

   None is an out-of-range access or an assignment / product / sum of mismatched sizes.
   Simplified: double arithmetic is exact; qpOASES is an oracle that receives the problem and
   either fails or returns a vector (the wrapper that carries the problem is in QPW_Model.v); a
   negative heirarchy_ is not modelled. *)
From mathcomp Require Import all_ssreflect all_algebra.
From Verif Require Import DMat Geo_Model Cone_Model QP_Model.
Set Implicit Arguments.
Unset Strict Implicit.
Unset Printing Implicit Defensive.
Import Order.TTheory GRing.Theory Num.Theory.
Local Open Scope ring_scope.

Section JaccModel.
Variable R : realFieldType.
Local Notation dm := (dm R).
Local Notation lbv := (lbv R).

(* include/dwbc_qp_wrapper.h:3-9: min 1/2 x'Hx + g'x s.t. lbA <= A x <= ubA and lb <= x <= ub.
   None in a bound is -INFTY / INFTY. *)
Record bqp := BQP { b_H : dm; b_g : dm; b_A : dm; b_lbA : lbv; b_ubA : dm; b_lb : lbv; b_ub : lbv }.

(* include/dwbc_task.h:117-170, class TaskSpace: heirarchy_, task_dof_, J_task_, f_star_,
   f_star_qp_, acc_qp_, torque_qp_, contact_qp_, gacc_qp_, task_link_[0].link_id_ (None: no link) *)
Record jtask := JT {
  j_h : nat; j_dof : nat; j_J : dm; j_f : dm; j_fqp : dm;
  j_acc : dm; j_tq : dm; j_cqp : dm; j_gacc : dm; j_link : option nat }.

(* include/dwbc.h:60-200, class RobotData *)
Record jrobot := JR {
  jr_nv : nat; jr_m : nat;                 (* system_dof_, model_dof_ *)
  jr_cdof : nat; jr_cln : nat;             (* contact_dof_, contact_link_num_ *)
  jr_A : dm; jr_G : dm; jr_JC : dm;        (* A_, G_, J_C *)
  jr_cc : seq (pcontact R);                (* cc_ *)
  jr_lset : bool; jr_lim : dm;             (* torque_limit_set_, torque_limit_ *)
  jr_ts : seq jtask; jr_nqp : nat;         (* ts_, qp_task_.size() *)
  jr_rnv : nat; jr_rm : nat;               (* reduced_system_dof_, reduced_model_dof_ *)
  jr_AR : dm; jr_GR : dm; jr_JCR : dm;     (* A_R, G_R, J_CR *)
  jr_JRinvT : dm;                          (* J_R_INV_T *)
  jr_nc : nat; jr_vc : nat;                (* nc_dof, vc_dof *)
  jr_ANC : dm; jr_JI : dm;                 (* A_NC, J_I_nc_ *)
  jr_xpos : seq ('cV[R]_3)                 (* link_[i].xpos *)
}.

(* v.segment(i, h) = w and v.segment(i, h).setConstant(x) on a bound vector *)
Definition lput (l : lbv) (i h : nat) (w : dm) : option lbv :=
  if [&& (i + h <= lsize l)%N, nr w == h & nc w == 1%N]
  then Some (LBV (lsize l) (fun k => if (i <= k < i + h)%N then Some (ent w (k - i) 0) else lent l k)) else None.
Definition lconst (l : lbv) (i h : nat) (x : R) : option lbv :=
  if (i + h <= lsize l)%N
  then Some (LBV (lsize l) (fun k => if (i <= k < i + h)%N then Some x else lent l k)) else None.
(* v.setConstant(n, INFTY) *)
Definition linf (n : nat) : lbv := LBV n (fun _ => None).

(* k * Identity(n, n) *)
Definition dscal (n : nat) (k : R) : dm := DM n n (fun i j => if i == j then k else 0).

(* the quantities the two functions put in the same places: _acc_dof, _torque_dof, _contact_dof,
   inertia, gravity, contact Jacobian *)
Record jdata := JD { d_nv : nat; d_m : nat; d_c : nat; d_A : dm; d_G : dm; d_J : dm }.
(* src/dwbc.cpp:3775-3777, 3841-3847 *)
Definition dataJ (rb : jrobot) : jdata := JD (jr_nv rb) (jr_m rb) (jr_cdof rb) (jr_A rb) (jr_G rb) (jr_JC rb).
(* src/dwbc.cpp:3949-3951, 4011-4017 *)
Definition dataJR (rb : jrobot) : jdata := JD (jr_rnv rb) (jr_rm rb) (jr_cdof rb) (jr_AR rb) (jr_GR rb) (jr_JCR rb).

(* src/dwbc.cpp:3804-3809, 3975-3980: the cost *)
Definition jcost (D : jdata) (t : nat) : option dm :=
  let ti := (d_nv D + d_m D + d_c D)%N in
  let n := (ti + t)%N in
  H <- blockw (dzero R n n) 0 0 (d_nv D) (d_nv D) (d_A D) ;;
  blockw H ti ti t t (dscal t 100%:R).

(* src/dwbc.cpp:3832-3839, 4003-4009: the equation of motion and the contacts *)
Definition jmotion (D : jdata) (n : nat) (Aeq lb : dm) : option (dm * dm) :=
  let nv := d_nv D in
  ST <- blockw (dzero R nv (d_m D)) 6 0 (d_m D) (d_m D) (dident R (d_m D)) ;;
  A1 <- blockw Aeq 0 0 nv nv (d_A D) ;;
  A2 <- blockw A1 0 nv nv (d_m D) (dopp ST) ;;
  A3 <- blockw A2 0 (nv + d_m D) nv (d_c D) (dtr (d_J D)) ;;
  lb1 <- segw lb 0 nv (dopp (d_G D)) ;;
  A4 <- blockw A3 nv 0 (d_c D) nv (d_J D) ;;
  Some (A4, lb1).

(* src/dwbc.cpp:3841-3850, 4011-4020: the tasks above.  Each is its dimension, Jacobian and
   f_star_ + f_star_qp_ *)
Fixpoint jprev (nv : nat) (prev : seq (nat * dm * dm)) (idx : nat) (Aeq lb : dm) : option (dm * dm * nat) :=
  match prev with
  | [::] => Some (Aeq, lb, idx)
  | (p, J, f) :: prev' =>
      A1 <- blockw Aeq idx 0 p nv J ;;
      lb1 <- segw lb idx p f ;;
      jprev nv prev' (idx + p) A1 lb1
  end.

(* src/dwbc.cpp:3781-3915, 3955-4085: the problem of one level.  C: the contact rows; ccs:
   contact_constraint_size; tb: how many of the torques are bounded *)
Definition JaccQP (D : jdata) (C : dm) (ccs tb : nat) (prev : seq (nat * dm * dm)) (t : nat) (J f : dm)
  : option bqp :=
  let nv := d_nv D in
  let m := d_m D in
  let c := d_c D in
  let ci := (nv + m)%N in
  let ti := (ci + c)%N in
  let n := (ti + t)%N in
  let eq := (nv + c + sumn [seq p.1.1 | p <- prev] + t)%N in
  H <- jcost D t ;;
  r1 <- jmotion D n (dzero R eq n) (dzero R eq 1) ;;
  r2 <- jprev nv prev (nv + c) r1.1 r1.2 ;;
  let '(A2, lb2, idx) := r2 in
  A3 <- blockw A2 idx 0 t nv J ;;
  A4 <- blockw A3 idx ti t t (dopp (dident R t)) ;;
  lb3 <- segw lb2 idx t f ;;
  Ai <- blockw (dzero R ccs n) 0 ci ccs c C ;;
  B1 <- blockw (dzero R (eq + ccs) n) 0 0 eq n A4 ;;
  B2 <- blockw B1 eq 0 ccs n Ai ;;
  l1 <- lput (lzero R (eq + ccs)) 0 eq lb3 ;;
  l2 <- lsetinf l1 eq ccs ;;
  u1 <- segw (dzero R (eq + ccs) 1) 0 eq lb3 ;;
  u2 <- segw u1 eq ccs (dzero R ccs 1) ;;
  x1 <- lconst (linf n) 6 m (- 10%:R) ;;
  y1 <- lconst (linf n) 6 m 10%:R ;;
  x2 <- lconst x1 nv tb (- 200%:R) ;;
  y2 <- lconst y1 nv tb 200%:R ;;
  Some (BQP H (dzero R n 1) B2 l2 u2 x2 y2).

(* ts_[0 .. h-1] with their rows *)
Definition jabove (rb : jrobot) (Jof : jtask -> option dm) (h : nat) : option (seq (nat * dm * dm)) :=
  if (h <= size (jr_ts rb))%N then
    foldr (fun s acc => J <- Jof s ;; f <- dadd (j_f s) (j_fqp s) ;; r <- acc ;; Some ((j_dof s, J, f) :: r))
          (Some [::]) (take h (jr_ts rb))
  else None.

(* src/dwbc.cpp:3860-3878, 4031-4049: A_const_a and A_rot *)
Definition jcone (rb : jrobot) : option (dm * dm) :=
  constraint_loop (jr_cc rb) 0 0 (dzero R (contact_constraint_size (jr_cc rb)) (jr_cdof rb))
                  (dzero R (jr_cdof rb) (jr_cdof rb)).

(* src/dwbc.cpp:3772-3915.  A_const_a is computed but getContactConstraintMatrix() is used *)
Definition problemJ (rb : jrobot) (s : jtask) : option bqp :=
  prev <- jabove rb (fun s => Some (j_J s)) (j_h s) ;;
  AR <- jcone rb ;;
  C <- getContactConstraintMatrix (jr_cc rb) (jr_cln rb) (jr_cdof rb) ;;
  JaccQP (dataJ rb) C (contact_constraint_size (jr_cc rb)) (jr_m rb) prev (j_dof s) (j_J s) (j_f s).

(* src/dwbc.cpp:3946-4085.  Torques: reduced_model_dof_ - 6 of them are bounded; a negative number
   of them is out of range *)
Definition redJ (rb : jrobot) (s : jtask) : option dm := dmul (j_J s) (dtr (jr_JRinvT rb)).
Definition problemJR (rb : jrobot) (s : jtask) : option bqp :=
  prev <- jabove rb (redJ rb) (j_h s) ;;
  J <- redJ rb s ;;
  AR <- jcone rb ;;
  C <- dmul (dopp AR.1) AR.2 ;;
  if (6 <= jr_rm rb)%N
  then JaccQP (dataJR rb) C (contact_constraint_size (jr_cc rb)) (jr_rm rb - 6) prev (j_dof s) J (j_f s)
  else None.

(* the solver: qp_task_[h].SolveQPoases(300, qpres); None is return value 0 *)
Variable solver : nat -> bqp -> option (nat -> R).

(* src/dwbc.cpp:3929-3942, 4099-4120: the members of lts written after a solve *)
Definition jstore (D : jdata) (s : jtask) (x : nat -> R) : jtask :=
  let nv := d_nv D in
  let ti := (nv + d_m D + d_c D)%N in
  JT (j_h s) (j_dof s) (j_J s) (j_f s) (vec (j_dof s) (fun i => x (ti + i)%N)) (vec nv x)
     (vec (d_m D) (fun i => x (nv + i)%N)) (vec (d_c D) (fun i => x (nv + d_m D + i)%N)) (j_gacc s) (j_link s).

(* ts_[k] = s *)
Definition set_task (rb : jrobot) (k : nat) (s : jtask) : jrobot :=
  JR (jr_nv rb) (jr_m rb) (jr_cdof rb) (jr_cln rb) (jr_A rb) (jr_G rb) (jr_JC rb) (jr_cc rb) (jr_lset rb) (jr_lim rb)
     (set_nth s (jr_ts rb) k s) (jr_nqp rb) (jr_rnv rb) (jr_rm rb) (jr_AR rb) (jr_GR rb) (jr_JCR rb) (jr_JRinvT rb)
     (jr_nc rb) (jr_vc rb) (jr_ANC rb) (jr_JI rb) (jr_xpos rb).

(* one call with lts = ts_[k]; qp_task_[heirarchy_] must exist *)
Definition jcall (problem : jrobot -> jtask -> option bqp) (data : jrobot -> jdata) (rb : jrobot) (k : nat)
  : option (jrobot * bool) :=
  s <- nth None [seq Some s | s <- jr_ts rb] k ;;
  q <- problem rb s ;;
  if (j_h s < jr_nqp rb)%N then
    match solver (j_h s) q with
    | Some x => Some (set_task rb k (jstore (data rb) s x), true)
    | None => Some (rb, false)
    end
  else None.

(* src/dwbc.cpp:3772-3944 *)
Definition CalcSingleTaskTorqueWithJACC_QP (rb : jrobot) (k : nat) := jcall problemJ dataJ rb k.
(* src/dwbc.cpp:3946-4122 *)
Definition CalcSingleTaskTorqueWithJACC_QP_R (rb : jrobot) (k : nat) := jcall problemJR dataJR rb k.

(* the levels 0 .. size ts_ - 1 in order, as in tests/sp_test/dof_comparison_jacc.cpp:297-300; the
   result is the conjunction of the return values *)
Fixpoint jloop (call : jrobot -> nat -> option (jrobot * bool)) (rb : jrobot) (k todo : nat) : option (jrobot * bool) :=
  match todo with
  | 0 => Some (rb, true)
  | todo'.+1 =>
      r <- call rb k ;;
      r' <- jloop call r.1 k.+1 todo' ;;
      Some (r'.1, r.2 && r'.2)
  end.
Definition jrun (call : jrobot -> nat -> option (jrobot * bool)) (rb : jrobot) := jloop call rb 0 (size (jr_ts rb)).

(* src/dwbc.cpp:4147-4149: Ja *)
Definition jJa (r : 'cV[R]_3) : 'M[R]_(3 + 3) := block_mx 1%:M (skew r) 0 1%:M.

(* src/dwbc.cpp:4147-4245: the problem for the non-contact joints.  Vector6d on both sides: f_star_
   and the segment of length task_dof_ it is written to must have six entries *)
Definition problemNC (rb : jrobot) (s : jtask) (pa : dm) : option bqp :=
  let a := jr_nc rb in
  let t := j_dof s in
  let gi := (a + a)%N in
  let ti := (gi + 6)%N in
  let n := (ti + t)%N in
  let eq := (a + 6 + t)%N in
  id <- j_link s ;;
  x <- nth None [seq Some x | x <- jr_xpos rb] id ;;
  x0 <- nth None [seq Some x | x <- jr_xpos rb] 0 ;;
  base <- seg pa 0 6 ;;
  gacc <- (if (6 <= nr pa)%N then seg pa (nr pa - 6) 6 else None) ;;
  df <- dsub (j_f s) base ;;
  fl <- dmul (of_mx (jJa (x - x0))) df ;;
  H1 <- blockw (dzero R n n) gi gi 6 6 (dident R 6) ;;
  H <- blockw H1 ti ti t t (dscal t 5%:R) ;;
  M <- (if ((a <= nr (jr_ANC rb)) && (a <= nc (jr_ANC rb)))%N
        then dblock (jr_ANC rb) (nr (jr_ANC rb) - a) (nc (jr_ANC rb) - a) a a else None) ;;
  A1 <- blockw (dzero R eq n) 0 0 a a M ;;
  A2 <- blockw A1 0 a a a (dopp (dident R a)) ;;
  G <- seg (jr_G rb) (jr_vc rb) a ;;
  l1 <- segw (dzero R eq 1) 0 a (dopp G) ;;
  A3 <- blockw A2 a 0 6 a (jr_JI rb) ;;
  A4 <- blockw A3 a gi 6 6 (dopp (dident R 6)) ;;
  l2 <- segw l1 a 6 gacc ;;
  Jn <- (if (a <= nc (j_J s))%N then dblock (j_J s) 0 (nc (j_J s) - a) (nr (j_J s)) a else None) ;;
  A5 <- blockw A4 (a + 6) 0 t a Jn ;;
  A6 <- blockw A5 (a + 6) ti t t (dopp (dident R t)) ;;
  l3 <- segw l2 (a + 6) t fl ;;
  l4 <- lput (lzero R eq) 0 eq l3 ;;
  Some (BQP H (dzero R n 1) A6 l4 l3 (linf n) (linf n)).

(* src/dwbc.cpp:4124-4302, lts = ts_[k]; the bounds lb, ub are computed but DeleteSubjectToX is
   called *)
Definition CalcSingleTaskTorqueWithJACC_QP_R_NC (rb : jrobot) (k : nat) (pa : dm) : option (jrobot * bool) :=
  s <- nth None [seq Some s | s <- jr_ts rb] k ;;
  if nr pa != jr_rnv rb then Some (rb, false) else
  q <- problemNC rb s pa ;;
  if (j_h s < jr_nqp rb)%N then
    match solver (j_h s) q with
    | Some x =>
        let a := jr_nc rb in
        let s' := JT (j_h s) (j_dof s) (j_J s) (j_f s) (vec (j_dof s) (fun i => x (a + a + 6 + i)%N)) (vec a x)
                     (vec a (fun i => x (a + i)%N)) (j_cqp s) (vec 6 (fun i => x (a + a + i)%N)) (j_link s) in
        Some (set_task rb k s', true)
    | None => Some (rb, false)
    end
  else None.
End JaccModel.
