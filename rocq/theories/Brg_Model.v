(* Model of the Python bridge RlWBCBridge (src/pybind/rl_wbc_bridge.cpp): constructor, UpdateKinematics, SetContact,
   SetTaskSpace, CalcTorque, Reset, getTorqueCommand, on top of the members of RobotData they use.

   n = rd_.model_dof_ (33 for the robot loaded there), system_dof_ = 6 + n, q has n + 7 entries.
   Not modelled: RBDL (argument `phys`); the conversion of the command to float; reflectAction (empty).
   Numbers as in Redis_Model.v. *)
From mathcomp Require Import all_ssreflect all_algebra.
From Verif Require Import LinAlg Geo_Model Dyn_Model Redis_Model.
Set Implicit Arguments.
Unset Strict Implicit.
Unset Printing Implicit Defensive.
Import Order.TTheory GRing.Theory Num.Theory.
Local Open Scope ring_scope.

Section BrgModel.
Variable R : rcfType.
Variable zs : bool.    (* sign of a zero divisor, see Redis_Model.v *)
Variable n : nat.
Local Notation vec := 'cV[R]_3.

(* py::array_t<double>, one-dimensional: the memory it lives in (None: outside of any allocation), the address of its
   first element, the distance between elements (in elements), and its size *)
Record pyarr := PyArr { pa_mem : int -> option R; pa_ptr : int; pa_stride : int; pa_size : nat }.

(* ((double* ) a.request().ptr)[i], src/pybind/rl_wbc_bridge.cpp:84-86, 118 *)
Definition ptr_at (a : pyarr) (i : nat) : option R := pa_mem a (pa_ptr a + i%:Z).
(* the k values ptr[0] ... ptr[k - 1] *)
Fixpoint reads (a : pyarr) (i k : nat) : option (seq R) :=
  if k is k'.+1 then
    if ptr_at a i is Some x then omap (cons x) (reads a i.+1 k') else None
  else Some [::].

(* The members UpdateKinematics and the updates of contacts and tasks take from RBDL at one state: A_, G_; the contact
   Jacobians and positions of the two feet (contacts of links 6 and 12, lines 34-35); com_pos; cos and sin of
   link_[0].rpy(2); jac_ of link 0 and the rotation rows of jac_ of link 15 (the tasks of lines 37-38). *)
Record snap := Snap {
  sn_A : 'M[R]_(6 + n); sn_G : 'cV[R]_(6 + n);
  sn_Jl : 'M[R]_(6, 6 + n); sn_Jr : 'M[R]_(6, 6 + n); sn_pl : vec; sn_pr : vec;
  sn_com : vec; sn_c : R; sn_s : R;
  sn_Jp : 'M[R]_(6, 6 + n); sn_Jt : 'M[R]_(3, 6 + n) }.
Variable phys : seq R -> seq R -> seq R -> snap.
(* the rows of V2 found by PinvCODWB for W, see Dyn_Model.left_null_basis *)
Variable codV2 : 'M[R]_n -> {k : nat & 'M[R]_(k, n)}.

(* What CalcContactConstraint leaves (J_C_INV_T, N_C, A_inv_N_C, W, W_inv, V2): one foot or two feet *)
Inductive cont := OneFoot of contact_space R 6 n | TwoFoot of contact_space R (6 + 6) n.

(* include/pybind/rl_wbc_bridge.h:67-76 and the members of rd_ *)
Record brg := Brg {
  b_q : seq R; b_qd : seq R; b_qdd : seq R;       (* q, qdot, qddot *)
  b_now : snap; b_Ainv : 'M[R]_(6 + n);           (* rd_ after its UpdateKinematics *)
  b_on : bool * bool;                             (* cc_[0].contact, cc_[1].contact *)
  b_feet : vec * vec;                             (* cc_[i].xc_pos, as of the last SetContact *)
  b_con : option cont;                            (* None: CalcContactConstraint not yet called *)
  b_f0 : seq R; b_f1 : seq R;                     (* ts_[0].f_star_, ts_[1].f_star_ *)
  b_tq : torques R n;                             (* torque_grav_, torque_task_, torque_contact_ *)
  b_lim : 'cV[R]_n;                               (* torque_limit_ *)
  b_init : bool }.                                (* task_init *)

(* src/pybind/rl_wbc_bridge.cpp:7-43.  q0 stands for the forty numbers of lines 22-28; src/task.cpp:63 for the
   references, src/dwbc.cpp:269-274 for the torques.  None: A_.llt().solve of a singular matrix. *)
Definition binit (q0 : seq R) : option brg :=
  let qd := nseq (6 + n) 0 in
  let sn := phys q0 qd qd in
  if inverse (sn_A sn) is Some Ainv then
    Some (Brg q0 qd qd sn Ainv (false, false) (0, 0) None (nseq 6 0) (nseq 3 0) (Torques 0 0 0) (const_mx 300%:R) false)
  else None.

(* src/pybind/rl_wbc_bridge.cpp:88-98 : the writes to q, in order *)
Definition fill_q (q p : seq R) : seq R :=
  let q := set_nth 0 q 0 (nth 0 p 0) in
  let q := set_nth 0 q 1 (nth 0 p 1) in
  let q := set_nth 0 q 2 (nth 0 p 2) in
  let q := set_nth 0 q 3 (nth 0 p 4) in
  let q := set_nth 0 q 4 (nth 0 p 5) in
  let q := set_nth 0 q 5 (nth 0 p 6) in
  let q := set_nth 0 q (6 + n) (nth 0 p 3) in
  foldl (fun q j => set_nth 0 q (j + 6) (nth 0 p (j + 7))) q (iota 0 n).
(* src/pybind/rl_wbc_bridge.cpp:100-104 *)
Definition fill_v (v p : seq R) : seq R := foldl (fun v j => set_nth 0 v j (nth 0 p j)) v (iota 0 (6 + n)).

(* src/pybind/rl_wbc_bridge.cpp:82-107.  None: read outside of an allocation, or a singular mass matrix *)
Definition UpdateKinematics (s : brg) (qpos qvel qacc : pyarr) : option brg :=
  if reads qpos 0 (n + 7) is Some p then
  if reads qvel 0 (6 + n) is Some v then
  if reads qacc 0 (6 + n) is Some a then
    let q := fill_q (b_q s) p in
    let qd := fill_v (b_qd s) v in
    let qdd := fill_v (b_qdd s) a in
    let sn := phys q qd qdd in
    if inverse (sn_A sn) is Some Ainv then
      Some (Brg q qd qdd sn Ainv (b_on s) (b_feet s) (b_con s) (b_f0 s) (b_f1 s) (b_tq s) (b_lim s) (b_init s))
    else None
  else None else None else None.

(* src/pybind/rl_wbc_bridge.cpp:109-114: SetContact (include/dwbc.h:432-474), CalcContactConstraint (src/dwbc.cpp:456-478).
   None: V2.setZero with the negative row number contact_dof_ - 6 (src/dwbc.cpp:468-470) for no foot, inverse() of a
   singular or (src/wbd.cpp:133) non-square matrix.  CalcTaskSpace (line 113) is left out: CalcTorque calls it again and
   reads nothing of what it left. *)
Definition SetContact (s : brg) (left right : bool) : option brg :=
  let sn := b_now s in
  let con :=
    match left, right with
    | false, false => None
    | true, false => omap OneFoot (CalculateContactConstraint (sn_Jl sn) (b_Ainv s))
    | false, true => omap OneFoot (CalculateContactConstraint (sn_Jr sn) (b_Ainv s))
    | true, true =>
      if CalculateContactConstraint (col_mx (sn_Jl sn) (sn_Jr sn)) (b_Ainv s) is Some cs
      then if projT1 (codV2 (cs_W cs)) == 6%N then Some (TwoFoot cs) else None
      else None
    end in
  if con is Some c then
    Some (Brg (b_q s) (b_qd s) (b_qdd s) sn (b_Ainv s) (left, right) (sn_pl sn, sn_pr sn) (Some c)
      (b_f0 s) (b_f1 s) (b_tq s) (b_lim s) (b_init s))
  else None.

(* src/pybind/rl_wbc_bridge.cpp:116-121, src/dwbc.cpp:662-680.  J_task_ is overwritten too, and recomputed by every
   CalcTaskSpace.  None: ts_[heirarchy] out of range, read outside of an allocation *)
Definition SetTaskSpace (s : brg) (heirarchy : int) (f_star : pyarr) : option brg :=
  if reads f_star 0 (pa_size f_star) is Some f then
    let upd f0 f1 := Some (Brg (b_q s) (b_qd s) (b_qdd s) (b_now s) (b_Ainv s) (b_on s) (b_feet s) (b_con s) f0 f1
      (b_tq s) (b_lim s) (b_init s)) in
    if heirarchy == 0 then upd f (b_f1 s) else if heirarchy == 1 then upd (b_f0 s) f else None
  else None.

(* ts_ after UpdateTaskSpace (src/dwbc.cpp:687-793); None: Lambda_task_ * f_star_ with the wrong size *)
Definition tasks (s : brg) : option (seq (task R n)) :=
  if (size (b_f0 s) == 6%N) && (size (b_f1 s) == 3%N) then
    Some [:: Task (sn_Jp (b_now s)) (\col_(i < 6) nth 0 (b_f0 s) i); Task (sn_Jt (b_now s)) (\col_(i < 3) nth 0 (b_f1 s) i)]
  else None.

(* CalcGravCompensation() and CalcTaskControlTorque(false), src/dwbc.cpp:875-884 and 818-873, followed by `red` *)
Definition torque_steps (s : brg) m (cs : contact_space R m n) (red : robot R m n -> torques R n -> option (torques R n))
    : option (torques R n) :=
  let: (torque_grav, P_C) :=
    CalculateGravityCompensation (b_Ainv s) (cs_Winv cs) (cs_NC cs) (cs_JCinvT cs) (sn_G (b_now s)) in
  if tasks s is Some ts then
    if CalcTaskSpace (b_Ainv s) cs None ts is Some ls then
      red (Robot (b_Ainv s) cs torque_grav P_C) (Torques torque_grav (CalcTaskControlTorque ls) 0)
    else None
  else None.

(* src/pybind/rl_wbc_bridge.cpp:123-129.  task_init = false is the argument hqp of both calls.
   None: not a number, or undefined *)
Definition CalcTorque (s : brg) : option brg :=
  let ft := Feet [:: ((b_on s).1, (b_feet s).1); ((b_on s).2, (b_feet s).2)] (sn_com (b_now s)) (sn_c (b_now s)) (sn_s (b_now s)) in
  let tq :=
    match b_con s with
    | Some (OneFoot cs) => torque_steps s cs (fun _ t => Some (CalcContactRedistributeElse t))
    | Some (TwoFoot cs) => torque_steps s cs (fun rb t => CalcContactRedistribute12 zs rb (projT2 (codV2 (cs_W cs))) ft t)
    | None => None
    end in
  if tq is Some t then
    Some (Brg (b_q s) (b_qd s) (b_qdd s) (b_now s) (b_Ainv s) (b_on s) (b_feet s) (b_con s) (b_f0 s) (b_f1 s) t (b_lim s) false)
  else None.

(* src/pybind/rl_wbc_bridge.cpp:141-144 *)
Definition Reset (s : brg) : brg :=
  Brg (b_q s) (b_qd s) (b_qdd s) (b_now s) (b_Ainv s) (b_on s) (b_feet s) (b_con s) (b_f0 s) (b_f1 s) (b_tq s) (b_lim s) true.

(* src/pybind/rl_wbc_bridge.cpp:131-139, without the conversion to float *)
Definition getTorqueCommand (s : brg) : 'cV[R]_n := tq_grav (b_tq s) + tq_task (b_tq s) + tq_con (b_tq s).

(* The calls a Python program can make (lines 148-157) *)
Inductive call :=
| KUpdate of pyarr & pyarr & pyarr
| KContact of bool & bool
| KTask of int & pyarr
| KTorque
| KReset.
Definition step (s : brg) (o : call) : option brg :=
  match o with
  | KUpdate qpos qvel qacc => UpdateKinematics s qpos qvel qacc
  | KContact l r => SetContact s l r
  | KTask h f => SetTaskSpace s h f
  | KTorque => CalcTorque s
  | KReset => Some (Reset s)
  end.
Fixpoint run (s : brg) (os : seq call) : option brg :=
  if os is o :: os' then (if step s o is Some s' then run s' os' else None) else Some s.
End BrgModel.
Arguments KContact {R}.
Arguments KTorque {R}.
Arguments KReset {R}.
