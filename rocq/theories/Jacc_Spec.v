(* Specification vocabulary for the acceleration-level QPs: what a plan is. *)
From mathcomp Require Import all_ssreflect all_algebra.
From Verif Require Import DMat DMatL Geo_Spec Cone_Model Cone_Spec QP_Model Jacc_Model.
Set Implicit Arguments.
Unset Strict Implicit.
Unset Printing Implicit Defensive.
Import Order.TTheory GRing.Theory Num.Theory.
Local Open Scope ring_scope.

Section JaccSpec.
Variable R : realFieldType.
Local Notation dm := (dm R).
Local Notation bqp := (bqp R).
Local Notation jdata := (jdata R).
Local Notation jrobot := (jrobot R).
Local Notation jtask := (jtask R).

(* lbA <= A x <= ubA and lb <= x <= ub *)
Definition bqp_feasible (q : bqp) (x : nat -> R) : Prop :=
  (forall i, (i < nr (b_A q))%N ->
     (forall l, lent (b_lbA q) i = Some l -> l <= rowdot (b_A q) i x) /\ rowdot (b_A q) i x <= ent (b_ubA q) i 0) /\
  (forall i, (i < nc (b_A q))%N ->
     (forall l, lent (b_lb q) i = Some l -> l <= x i) /\ (forall u, lent (b_ub q) i = Some u -> x i <= u)).

(* 1/2 x'Hx + g'x *)
Definition bqp_cost (q : bqp) (x : nat -> R) : R :=
  1 / 2%:R * (\sum_(0 <= i < nr (b_H q)) \sum_(0 <= j < nc (b_H q)) x i * ent (b_H q) i j * x j)
  + \sum_(0 <= i < nr (b_g q)) ent (b_g q) i 0 * x i.

Definition bqp_optimal (q : bqp) (x : nat -> R) : Prop :=
  bqp_feasible q x /\ forall y, bqp_feasible q y -> bqp_cost q x <= bqp_cost q y.

(* the four parts of a decision vector: accelerations x 0 .. x (nv-1), then joint torques, contact
   forces and the deviation from the task *)
Definition trq (D : jdata) (x : nat -> R) : nat -> R := fun i => x (d_nv D + i)%N.
Definition frc (D : jdata) (x : nat -> R) : nat -> R := fun i => x (d_nv D + d_m D + i)%N.
Definition slk (D : jdata) (x : nat -> R) : nat -> R := fun i => x (d_nv D + d_m D + d_c D + i)%N.

(* row r of J qdd *)
Definition jaccel (nv : nat) (J : dm) (x : nat -> R) (r : nat) : R := \sum_(0 <= j < nv) ent J r j * x j.

(* A qdd + J'f + B = (0; tau) with the generalised force B *)
Definition motion (D : jdata) (B : nat -> R) (x : nat -> R) : Prop :=
  forall i, (i < d_nv D)%N ->
    jaccel (d_nv D) (d_A D) x i + \sum_(0 <= j < d_c D) ent (d_J D) j i * frc D x j + B i =
    (if (i < 6)%N then 0 else trq D x (i - 6)).
Definition gravity (D : jdata) : nat -> R := fun i => ent (d_G D) i 0.

(* the contact wrenches of x are in the cones of the active contacts *)
Definition cones (cc : seq (pcontact R)) (F : nat -> R) : Prop :=
  forall c0 k, (k < size (actives cc))%N -> in_cone (nth c0 (actives cc) k) (blk3 F (6 * k)) (blk3 F (6 * k + 3)).

(* a whole-body plan: gravity and contact forces only, contacts at rest, forces in the cones, joint
   accelerations within 10, the first tb torques within 200 *)
Definition plan (D : jdata) (cc : seq (pcontact R)) (tb : nat) (x : nat -> R) : Prop :=
  [/\ motion D (gravity D) x, forall r, (r < d_c D)%N -> jaccel (d_nv D) (d_J D) x r = 0, cones cc (frc D x),
      forall r, (r < d_m D)%N -> `|x (6 + r)%N| <= 10%:R & forall r, (r < tb)%N -> `|trq D x r| <= 200%:R].

(* every task (p, J, f) of a list has J qdd = f *)
Definition kept (nv : nat) (prev : seq (nat * dm * dm)) (x : nat -> R) : Prop :=
  List.Forall (fun p => forall r, (r < p.1.1)%N -> jaccel nv p.1.2 x r = ent p.2 r 0) prev.

(* J qdd = f + deviation *)
Definition follows (D : jdata) (t : nat) (J f : dm) (x : nat -> R) : Prop :=
  forall r, (r < t)%N -> jaccel (d_nv D) J x r = ent f r 0 + slk D x r.

(* row r of the task acceleration: J_task qdd, and J_task (J_R_INV_T' qdd_R) in the reduced model *)
Definition taskacc (nv : nat) (s : jtask) (x : nat -> R) (r : nat) : R := jaccel nv (j_J s) x r.
Definition taskaccR (T : dm) (s : jtask) (x : nat -> R) (r : nat) : R :=
  jaccel (nc T) (j_J s) (fun k => \sum_(0 <= j < nr T) ent T j k * x j) r.

(* task k of ts_ *)
Definition task (rb : jrobot) (k : nat) : option jtask := nth None [seq Some s | s <- jr_ts rb] k.

(* the task acceleration is the commanded one plus the stored deviation f_star_qp_; plus the
   deviation in x *)
Definition met (acc : jtask -> (nat -> R) -> nat -> R) (s : jtask) (x : nat -> R) : Prop :=
  forall r, (r < j_dof s)%N -> acc s x r = ent (j_f s) r 0 + ent (j_fqp s) r 0.
Definition tracks (D : jdata) (acc : jtask -> (nat -> R) -> nat -> R) (s : jtask) (x : nat -> R) : Prop :=
  forall r, (r < j_dof s)%N -> acc s x r = ent (j_f s) r 0 + slk D x r.

(* the tasks above level k are met as stored *)
Definition above_met (acc : jtask -> (nat -> R) -> nat -> R) (rb : jrobot) (k : nat) (x : nat -> R) : Prop :=
  forall i s, (i < k)%N -> task rb i = Some s -> met acc s x.

(* a floating base robot with m joints and c contact force components *)
Definition jd_ok (D : jdata) (m c : nat) : Prop :=
  [/\ d_nv D = (6 + m)%N, d_m D = m, d_c D = c, dims (d_A D) (6 + m) (6 + m) &
  dims (d_G D) (6 + m) 1 /\ dims (d_J D) c (6 + m)].

Definition contacts_ok (rb : jrobot) : Prop :=
  [/\ List.Forall (fun c => p_on c -> plane c) (jr_cc rb), jr_cln rb = size (actives (jr_cc rb)) &
      jr_cdof rb = (6 * size (actives (jr_cc rb)))%N].

(* task k is at level k, its Jacobian and desired acceleration have task_dof_ rows, and there is a
   solver object for it *)
Definition levels_ok (rb : jrobot) (nv : nat) : Prop :=
  (size (jr_ts rb) <= jr_nqp rb)%N /\
  forall k s, task rb k = Some s ->
    [/\ j_h s = k, dims (j_J s) (j_dof s) nv & dims (j_f s) (j_dof s) 1].

(* the mechanism a problem is about: sizes, inertia, gravity, contact Jacobian of the full robot and
   of the reduced model *)
Definition full_of (rb : jrobot) : jdata := JD (jr_nv rb) (jr_m rb) (jr_cdof rb) (jr_A rb) (jr_G rb) (jr_JC rb).
Definition reduced_of (rb : jrobot) : jdata := JD (jr_rnv rb) (jr_rm rb) (jr_cdof rb) (jr_AR rb) (jr_GR rb) (jr_JCR rb).
(* all parts of a problem of n variables and k rows have matching sizes *)
Definition bqp_sized (q : bqp) (n k : nat) : Prop :=
  [/\ dims (b_H q) n n, dims (b_g q) n 1, dims (b_A q) k n, dims (b_ubA q) k 1 /\ lsize (b_lbA q) = k &
      lsize (b_lb q) = n /\ lsize (b_ub q) = n].

(* robots as UpdateKinematics, SetContact and AddTaskSpace leave them: full and reduced *)
Definition jrobot_ok (rb : jrobot) (m : nat) : Prop :=
  [/\ contacts_ok rb, jd_ok (full_of rb) m (jr_cdof rb) & levels_ok rb (6 + m)].
Definition jrobotR_ok (rb : jrobot) (m nv : nat) : Prop :=
  [/\ contacts_ok rb, jd_ok (reduced_of rb) m (jr_cdof rb), (6 <= m)%N, dims (jr_JRinvT rb) (6 + m) nv & levels_ok rb nv].

(* the tasks above level k have been solved: f_star_qp_ has task_dof_ rows *)
Definition solved_above (rb : jrobot) (k : nat) : Prop :=
  forall i s, (i < k)%N -> task rb i = Some s -> dims (j_fqp s) (j_dof s) 1.

(* what the members acc_qp_, torque_qp_, contact_qp_, f_star_qp_ of a task hold is the decision vector x *)
Definition holds (D : jdata) (s : jtask) (x : nat -> R) : Prop :=
  [/\ dims (j_acc s) (d_nv D) 1 /\ (forall i, (i < d_nv D)%N -> ent (j_acc s) i 0 = x i),
      dims (j_tq s) (d_m D) 1 /\ (forall i, (i < d_m D)%N -> ent (j_tq s) i 0 = trq D x i),
      dims (j_cqp s) (d_c D) 1 /\ (forall i, (i < d_c D)%N -> ent (j_cqp s) i 0 = frc D x i) &
      dims (j_fqp s) (j_dof s) 1 /\ (forall i, (i < j_dof s)%N -> ent (j_fqp s) i 0 = slk D x i)].

(* everything about a task but the members the solve writes *)
Definition same_input (s s' : jtask) : Prop :=
  [/\ j_h s' = j_h s, j_dof s' = j_dof s, j_J s' = j_J s, j_f s' = j_f s & j_link s' = j_link s].

(* of the robot, only task k has changed: it is now s' *)
Definition only_task (rb rb' : jrobot) (k : nat) (s' : jtask) : Prop :=
  [/\ rb' = JR (jr_nv rb) (jr_m rb) (jr_cdof rb) (jr_cln rb) (jr_A rb) (jr_G rb) (jr_JC rb) (jr_cc rb) (jr_lset rb)
        (jr_lim rb) (jr_ts rb') (jr_nqp rb) (jr_rnv rb) (jr_rm rb) (jr_AR rb) (jr_GR rb) (jr_JCR rb) (jr_JRinvT rb)
        (jr_nc rb) (jr_vc rb) (jr_ANC rb) (jr_JI rb) (jr_xpos rb),
      task rb' k = Some s' & forall i, i <> k -> task rb' i = task rb i].

(* qdd' A qdd *)
Definition energy (D : jdata) (x : nat -> R) : R :=
  \sum_(0 <= i < d_nv D) \sum_(0 <= j < d_nv D) x i * ent (d_A D) i j * x j.
Definition deviation (D : jdata) (t : nat) (x : nat -> R) : R := \sum_(0 <= r < t) slk D x r ^+ 2.
(* the inertia is symmetric positive definite *)
Definition spd (D : jdata) : Prop :=
  (forall i j, (i < d_nv D)%N -> (j < d_nv D)%N -> ent (d_A D) i j = ent (d_A D) j i) /\
  (forall x, (exists2 i, (i < d_nv D)%N & x i != 0) -> 0 < energy D x).

(* the solver never answers with a point that violates the constraints; it answers whenever there
   is a point *)
Definition sound (solver : nat -> bqp -> option (nat -> R)) : Prop :=
  forall h q x, solver h q = Some x -> bqp_feasible q x.
Definition complete (solver : nat -> bqp -> option (nat -> R)) : Prop :=
  forall h q, (exists x, bqp_feasible q x) -> exists x, solver h q = Some x.

(* ---- the step for the non-contact joints ---- *)
(* sizes: a non-contact joints of a robot with nv velocities, a six-dimensional task on a link, the
   accelerations of the reduced model *)
Definition nc_ok (rb : jrobot) (s : jtask) (pa : dm) (a nv : nat) (x x0 : 'cV[R]_3) : Prop :=
  [/\ [/\ jr_nc rb = a, (jr_vc rb + a)%N = nv & (6 <= jr_rnv rb)%N],
      dims (jr_G rb) nv 1 /\ (exists p, dims (jr_ANC rb) (p + a) (p + a)) /\ dims (jr_JI rb) 6 a,
      dims pa (jr_rnv rb) 1,
      j_dof s = 6%N /\ dims (j_f s) 6 1 /\ dims (j_J s) 6 nv &
      exists2 id, j_link s = Some id &
        nth None [seq Some v | v <- jr_xpos rb] id = Some x /\ nth None [seq Some v | v <- jr_xpos rb] 0 = Some x0].

(* the four parts of its decision vector: joint accelerations x 0 .. x (a-1), torques, deviation of
   the rate of centroidal momentum, deviation from the task *)
Definition nc_trq (a : nat) (x : nat -> R) : nat -> R := fun i => x (a + i)%N.
Definition nc_gdev (a : nat) (x : nat -> R) : nat -> R := fun i => x (a + a + i)%N.
Definition nc_tdev (a : nat) (x : nat -> R) : nat -> R := fun i => x (a + a + 6 + i)%N.

(* the joints move as M qdd + G = tau with the lower right corner M of A_NC *)
Definition nc_motion (rb : jrobot) (a : nat) (x : nat -> R) : Prop :=
  forall i, (i < a)%N ->
    \sum_(0 <= j < a) ent (jr_ANC rb) (nr (jr_ANC rb) - a + i) (nc (jr_ANC rb) - a + j) * x j
    + ent (jr_G rb) (jr_vc rb + i) 0 = nc_trq a x i.
(* J_I_nc_ qdd = the last six of prev_acc plus the deviation *)
Definition nc_momentum (rb : jrobot) (pa : dm) (a : nat) (x : nat -> R) : Prop :=
  forall r, (r < 6)%N -> jaccel a (jr_JI rb) x r = ent pa (nr pa - 6 + r) 0 + nc_gdev a x r.

(* the first and last three of a six-vector *)
Definition upper (v : dm) : 'cV[R]_3 := blk3 (fun i => ent v i 0) 0.
Definition lower (v : dm) : 'cV[R]_3 := blk3 (fun i => ent v i 0) 3.

(* acceleration of the task link by the non-contact joints alone: (linear, angular) *)
Definition nc_part (s : jtask) (nv a : nat) (x : nat -> R) (k : nat) : 'cV[R]_3 :=
  \col_i \sum_(0 <= j < a) ent (j_J s) (k + i) (nv - a + j) * x j.

(* acceleration of a link at offset r from the base when the base accelerates with (bl, ba) and
   the joints contribute (jl, ja) (velocity products are not part of the QP) *)
Definition link_lin (r bl ba jl : 'cV[R]_3) : 'cV[R]_3 := bl + crossp ba r + jl.
Definition link_ang (ba ja : 'cV[R]_3) : 'cV[R]_3 := ba + ja.
End JaccSpec.
