(* Model of the task-level QP, of the hierarchical loop and of the QP contact redistribution.

   None is an out-of-range access or a product / sum of mismatched sizes.
   Simplified: double arithmetic is exact; COMPILE_QPSWIFT is not defined (the default); the
   QP solver is an oracle that receives the problem and either fails or returns a vector; the
   wrapper object that carries the problem to the solver is in QPW_Model.v. *)
From mathcomp Require Import all_ssreflect all_algebra.
From Verif Require Import DMat Cone_Model.
Set Implicit Arguments.
Unset Strict Implicit.
Unset Printing Implicit Defensive.
Import Order.TTheory GRing.Theory Num.Theory.
Local Open Scope ring_scope.

Notation "x <- e ;; k" := (match e with Some x => k | None => None end)
  (at level 60, e at next level, right associativity).

Section QPModel.
Variable R : realFieldType.
Local Notation dm := (dm R).
Local Notation pcontact := (pcontact R).

(* A lower bound vector.  None stands for -INFTY, which qpOASES treats as "no bound". *)
Record lbv := LBV { lsize : nat; lent : nat -> option R }.
Definition lzero (n : nat) : lbv := LBV n (fun _ => Some 0).              (* lbA.setZero(n) *)
Definition lsetinf (l : lbv) (i h : nat) : option lbv :=                  (* segment(i,h).setConstant(-INFTY) *)
  if (i + h <= lsize l)%N
  then Some (LBV (lsize l) (fun k => if (i <= k < i + h)%N then None else lent l k)) else None.

(* min 1/2 x'Hx + g'x  s.t.  lbA <= A x <= ubA ; include/dwbc_qp_wrapper.h:3-9 *)
Record qp := QP { q_H : dm; q_g : dm; q_A : dm; q_lb : lbv; q_ub : dm }.

(* include/dwbc_task.h:117-170, the members used here *)
Record tspace := TS {
  t_fstar : dm;       (* f_star_ *)
  t_Jkt : dm;         (* J_kt_ *)
  t_Lam : dm;         (* Lambda_task_ *)
  t_Null : dm;        (* Null_task_ *)
  t_fqp : dm;         (* f_star_qp_ *)
  t_cqp : dm;         (* contact_qp_ *)
  t_h : dm;           (* torque_h_ *)
  t_err : bool        (* qp_error *)
}.

(* include/dwbc.h:60-200, the members used here *)
Record rdata := RD {
  r_m : nat;                 (* model_dof_ *)
  r_cc : seq pcontact;       (* cc_ *)
  r_cln : nat;               (* contact_link_num_ *)
  r_lset : bool;             (* torque_limit_set_ *)
  r_lim : dm;                (* torque_limit_ *)
  r_NwJw : dm; r_JcT : dm; r_PC : dm;       (* NwJw, J_C_INV_T, P_C *)
  r_grav : dm; r_task : dm; r_con : dm;     (* torque_grav_, torque_task_, torque_contact_ *)
  r_ts : seq tspace          (* ts_ *)
}.

(* M.rightCols(m) *)
Definition rightCols (M : dm) (m : nat) : option dm :=
  if (m <= nc M)%N then dblock M 0 (nc M - m) (nr M) m else None.

(* v.segment(i, h) = s *)
Definition segw (v : dm) (i h : nat) (s : dm) : option dm := blockw v i 0 h 1 s.

(* src/dwbc.cpp:967-974 (and 1153-1160, 1397-1414): sizes summed over active contacts *)
Definition total_contact_dof (cc : seq pcontact) : nat := sumn [seq p_dof c | c <- cc & p_on c].
Definition contact_constraint_size (cc : seq pcontact) : nat := sumn [seq p_num c | c <- cc & p_on c].

(* src/dwbc.cpp:1001-1016: the torque limit rows.  A, ubA, lbA are updated. *)
Definition limit_rows (m t c : nat) (Nt NwJw lim tp : dm) (A ub : dm) (lb : lbv)
  : option (dm * dm * lbv) :=
  A1 <- blockw A 0 0 m t Nt ;;
  A2 <- (if (0 < c)%N then blockw A1 0 t m c NwJw else Some A1) ;;
  u <- dsub lim tp ;;
  ub1 <- segw ub 0 m u ;;
  A3 <- blockw A2 m 0 m t (dopp Nt) ;;
  A4 <- (if (0 < c)%N then blockw A3 m t m c (dopp NwJw) else Some A3) ;;
  v <- dadd lim tp ;;
  ub2 <- segw ub1 m m v ;;
  lb1 <- lsetinf lb 0 (2 * m) ;;
  Some (A4, ub2, lb1).

(* src/dwbc.cpp:941-1057 (and 1129-1246, the same code): the problem built for one task level.
   Simplified: lines 1009 and 1013 add torque_limit_, torque_prev and Ntorque_task * f_star_ in
   a different order; sums of doubles are taken to be associative. *)
Definition TaskQP (rd : rdata) (ts : tspace) (Nprev tprev : dm) : option qp :=
  let m := r_m rd in
  let t := nr (t_fstar ts) in
  let tot := total_contact_dof (r_cc rd) in
  let ccs := contact_constraint_size (r_cc rd) in
  let c := (tot - 6)%N in              (* max(0, total_contact_dof - 6), lines 975-980 *)
  let nv := (t + c)%N in
  let tl := if r_lset rd then (2 * m)%N else 0%N in
  let nrow := (ccs + tl)%N in
  H <- blockw (dzero R nv nv) 0 0 t t (dident R t) ;;
  let g := dzero R nv 1 in
  N1 <- dmul Nprev (t_Jkt ts) ;;
  Nt <- dmul N1 (t_Lam ts) ;;
  Nf <- dmul Nt (t_fstar ts) ;;
  tp <- dadd tprev Nf ;;
  r <- (if r_lset rd
        then limit_rows m t c Nt (r_NwJw rd) (r_lim rd) tp (dzero R nrow nv) (dzero R nrow 1) (lzero nrow)
        else Some (dzero R nrow nv, dzero R nrow 1, lzero nrow)) ;;
  let '(A0, ub0, lb0) := r in
  ab <- constraint_loop (r_cc rd) 0 0 (dzero R ccs tot) (dzero R tot tot) ;;
  let '(A_const, A_rot) := ab in
  JR <- rightCols (r_JcT rd) m ;;
  AR <- dmul A_const A_rot ;;
  Atemp <- dmul AR JR ;;
  AN <- dmul (dopp Atemp) Nt ;;
  A1 <- blockw A0 tl 0 ccs t AN ;;
  A2 <- (if (0 < c)%N
         then (AW <- dmul (dopp Atemp) (r_NwJw rd) ;; blockw A1 tl t ccs c AW) else Some A1) ;;
  RP <- dmul A_rot (r_PC rd) ;;
  CRP <- dmul A_const RP ;;
  At <- dmul Atemp tp ;;
  bA <- dsub CRP At ;;
  lb1 <- lsetinf lb0 tl ccs ;;
  ub1 <- segw ub0 tl ccs (dopp bA) ;;
  Some (QP H g A2 lb1 ub1).

(* the solver: qp_task_[ts_.heirarchy_].SolveQPoases, one problem object per level, or
   qp_contact_.SolveQPoases.  None is return value 0. *)
Variable solver : nat -> qp -> option (nat -> R).

(* x as a vector; x.segment(i, h) *)
Definition vec (n : nat) (x : nat -> R) : dm := DM n 1 (fun i _ => x i).
Definition seg (v : dm) (i h : nat) : option dm := dblock v i 0 h 1.

(* src/dwbc.cpp:1059-1126: solve and store the result *)
Definition CalcSingleTaskTorqueWithQP (rd : rdata) (h : nat) (ts : tspace) (Nprev tprev : dm)
  : option (tspace * bool) :=
  q <- TaskQP rd ts Nprev tprev ;;
  let t := nr (t_fstar ts) in
  let c := (total_contact_dof (r_cc rd) - 6)%N in
  match solver h q with
  | Some x =>
      f <- seg (vec (t + c) x) 0 t ;;
      g <- seg (vec (t + c) x) t c ;;
      Some (TS (t_fstar ts) (t_Jkt ts) (t_Lam ts) (t_Null ts) f g (t_h ts) false, true)
  | None =>
      Some (TS (t_fstar ts) (t_Jkt ts) (t_Lam ts) (t_Null ts) (dzero R t 1) (dzero R c 1) (t_h ts) true, false)
  end.

(* src/dwbc.cpp:1252-1279 (CalcSingleTaskTorqueWithQP2): a failure keeps the old contact_qp_ *)
Definition CalcSingleTaskTorqueWithQP2 (rd : rdata) (h : nat) (ts : tspace) (Nprev tprev : dm)
  : option (tspace * bool) :=
  q <- TaskQP rd ts Nprev tprev ;;
  let t := nr (t_fstar ts) in
  let c := (total_contact_dof (r_cc rd) - 6)%N in
  match solver h q with
  | Some x =>
      f <- seg (vec (t + c) x) 0 t ;;
      g <- seg (vec (t + c) x) t c ;;
      Some (TS (t_fstar ts) (t_Jkt ts) (t_Lam ts) (t_Null ts) f g (t_h ts) false, true)
  | None =>
      Some (TS (t_fstar ts) (t_Jkt ts) (t_Lam ts) (t_Null ts) (dzero R t 1) (t_cqp ts) (t_h ts) true, false)
  end.

(* src/dwbc.cpp:830-852: the loop over the levels.  prev is ts_[i-1].Null_task_ (None for
   i = 0); returns torque_task_, torque_contact_, the updated tasks and the return value. *)
Fixpoint hqp_loop (rd : rdata) (i : nat) (prev : option dm) (ttask tcon : dm) (ts : seq tspace)
  : option (dm * dm * seq tspace * bool) :=
  match ts with
  | [::] => Some (ttask, tcon, [::], true)
  | s :: ts' =>
      let Nprev := if prev is Some N then N else dident R (r_m rd) in
      tprev <- (if prev is Some _ then dadd (r_grav rd) ttask else Some (r_grav rd)) ;;
      r <- CalcSingleTaskTorqueWithQP rd i s Nprev tprev ;;
      let '(s1, ok) := r in
      if ok then
        f <- dadd (t_fstar s1) (t_fqp s1) ;;
        JL <- dmul (t_Jkt s1) (t_Lam s1) ;;
        th <- dmul JL f ;;
        ttask1 <- (if prev is Some N then (Nh <- dmul N th ;; dadd ttask Nh) else Some th) ;;
        tcon1 <- dmul (r_NwJw rd) (t_cqp s1) ;;
        r' <- hqp_loop rd i.+1 (Some (t_Null s1)) ttask1 tcon1 ts' ;;
        let '(tk, tc, l, b) := r' in
        Some (tk, tc, TS (t_fstar s1) (t_Jkt s1) (t_Lam s1) (t_Null s1) (t_fqp s1) (t_cqp s1) th (t_err s1) :: l, b)
      else Some (ttask, tcon, s1 :: ts', false)
  end.

(* src/dwbc.cpp:818-855, hqp = true, update_task_space = false *)
Definition CalcTaskControlTorqueHQP (rd : rdata) : option (rdata * bool) :=
  r <- hqp_loop rd 0 None (dzero R (r_m rd) 1) (dzero R (r_m rd) 1) (r_ts rd) ;;
  let '(tk, tc, l, b) := r in
  Some (RD (r_m rd) (r_cc rd) (r_cln rd) (r_lset rd) (r_lim rd) (r_NwJw rd) (r_JcT rd) (r_PC rd)
           (r_grav rd) tk tc l, b).

(* src/dwbc.cpp:1454-1516: the redistribution problem; c = contact_dof > 0 *)
Definition RedisQP (rd : rdata) (tin : dm) : option qp :=
  let m := r_m rd in
  let tot := total_contact_dof (r_cc rd) in
  let ccs := contact_constraint_size (r_cc rd) in
  let c := (tot - 6)%N in
  let tl := if r_lset rd then (2 * m)%N else 0%N in
  let nrow := (r_cln rd * ccs + tl)%N in
  let H := dident R c in
  let g := dzero R c 1 in
  r <- (if r_lset rd then
          A1 <- blockw (dzero R nrow c) 0 0 m c (r_NwJw rd) ;;
          u <- dsub (r_lim rd) tin ;;
          ub1 <- segw (dzero R nrow 1) 0 m u ;;
          A2 <- blockw A1 m 0 m c (dopp (r_NwJw rd)) ;;
          v <- dadd (r_lim rd) tin ;;
          ub2 <- segw ub1 m m v ;;
          lb1 <- lsetinf (lzero nrow) 0 (2 * m) ;;
          Some (A2, ub2, lb1)
        else Some (dzero R nrow c, dzero R nrow 1, lzero nrow)) ;;
  let '(A0, ub0, lb0) := r in
  ab <- constraint_loop (r_cc rd) 0 0 (dzero R ccs tot) (dzero R tot tot) ;;
  let '(A_const, A_rot) := ab in
  CM <- dmul (dopp A_const) A_rot ;;
  JR <- rightCols (r_JcT rd) m ;;
  CJ <- dmul CM JR ;;
  CW <- dmul CJ (r_NwJw rd) ;;
  A1 <- blockw A0 tl 0 ccs c CW ;;
  lb1 <- lsetinf lb0 tl ccs ;;
  CP <- dmul CM (r_PC rd) ;;
  CT <- dmul CJ tin ;;
  b <- dsub CP CT ;;
  ub1 <- segw ub0 tl ccs b ;;
  Some (QP H g A1 lb1 ub1).

Definition with_con (rd : rdata) (tc : dm) : rdata :=
  RD (r_m rd) (r_cc rd) (r_cln rd) (r_lset rd) (r_lim rd) (r_NwJw rd) (r_JcT rd) (r_PC rd)
     (r_grav rd) (r_task rd) tc (r_ts rd).

(* src/dwbc.cpp:1377-1567, hqp = true.  The solver object is numbered by `slot`. *)
Definition CalcContactRedistributeWith (slot : nat) (rd : rdata) (tin : dm) : option (rdata * bool) :=
  let c := (total_contact_dof (r_cc rd) - 6)%N in
  if (0 < c)%N then
    q <- RedisQP rd tin ;;
    match solver slot q with
    | Some x =>
        Nx <- dmul (r_NwJw rd) (vec c x) ;;
        tc <- dadd (r_con rd) Nx ;;
        Some (with_con rd tc, true)
    | None => Some (with_con rd (dzero R (r_m rd) 1), false)
    end
  else Some (with_con rd (dzero R (r_m rd) 1), true).

(* src/dwbc.cpp:1372-1375, hqp = true *)
Definition CalcContactRedistributeHQP (slot : nat) (rd : rdata) : option (rdata * bool) :=
  gt <- dadd (r_grav rd) (r_task rd) ;;
  tin <- dadd gt (r_con rd) ;;
  CalcContactRedistributeWith slot rd tin.

End QPModel.
