(* Specification vocabulary for the LQP controllers: what the decision variables mean. *)
From mathcomp Require Import all_ssreflect all_algebra.
From Verif Require Import DMat DMatL Cone_Model Cone_Spec QP_Model QP_Spec HQP_Model HQP_Spec LQP_Model.
Set Implicit Arguments.
Unset Strict Implicit.
Unset Printing Implicit Defensive.
Import Order.TTheory GRing.Theory Num.Theory.
Local Open Scope ring_scope.

Section LQPSpec.
Variable R : rcfType.
Local Notation dm := (dm R).
Local Notation level := (level R).

(* a floating base robot with m joints and c contact force components *)
Definition lq_ok (D : lqdata R) (m c : nat) : Prop :=
  [/\ d_nv D = (6 + m)%N, d_m D = m, d_c D = c, dims (d_A D) (6 + m) (6 + m) &
  [/\ dims (d_Ainv D) (6 + m) (6 + m), dims (d_G D) (6 + m) 1 & dims (d_J D) c (6 + m)]].

(* the decision variables x: accelerations x 0 .. x (5+m), then contact forces.
   Row i of the equation of motion: A qdd + J' f + G, which has to be 0 in the six rows of the
   floating base and the joint torque in the others. *)
Definition genforce (D : lqdata R) (x : nat -> R) (i : nat) : R :=
  \sum_(0 <= j < d_nv D) ent (d_A D) i j * x j + \sum_(0 <= j < d_c D) ent (d_J D) j i * x (d_nv D + j)%N
  + ent (d_G D) i 0.
Definition base_dynamics (D : lqdata R) (x : nat -> R) : Prop := forall r, (r < 6)%N -> genforce D x r = 0.
Definition torque (D : lqdata R) (x : nat -> R) (r : nat) : R := genforce D x (6 + r).

(* J qdd for a Jacobian with nv columns *)
Definition accel (nv : nat) (J : dm) (x : nat -> R) (r : nat) : R := \sum_(0 <= j < nv) ent J r j * x j.

(* the answer y_ans_ of a level *)
Definition answer (l : level) : nat -> R := fun i => ent (l_y l) i 0.

(* the last level's answer *)
Definition final (hs : seq level) : nat -> R := answer (last (initLevel R 0 0 0) hs).

(* CalcControlTorqueLQP called any number of times, the first time with init = true *)
Inductive solved (osqp : nat -> bool -> oqp R -> nat -> R) (hs : seq level) : seq level -> Prop :=
| solved_first hs' : CalcControlTorqueLQP osqp hs true = Some hs' -> solved osqp hs hs'
| solved_again h1 h2 init : solved osqp hs h1 -> CalcControlTorqueLQP osqp h1 init = Some h2 -> solved osqp hs h2.

(* task Jacobians and desired accelerations of the announced sizes *)
Definition task_ok (nv : nat) (t : ltask R) (J : dm) : Prop := dims J (k_dof t) nv /\ dims (k_fstar t) (k_dof t) 1.

(* J qdd = f_star *)
Definition task_met (nv : nat) (t : ltask R) (J : dm) (x : nat -> R) : Prop :=
  forall r, (r < k_dof t)%N -> accel nv J x r = ent (k_fstar t) r 0.

(* all active contacts are plane contacts and the two counters are those SetContact leaves *)
Definition contacts_ok (rb : lrobot R) : Prop :=
  [/\ List.Forall (fun c => p_on c -> plane c) (q_cc rb), q_cln rb = size (actives (q_cc rb)) &
      q_cdof rb = (6 * size (actives (q_cc rb)))%N].

(* the inverse of the inertia really is one *)
Definition inverse_ok (D : lqdata R) : Prop :=
  mx_of (d_nv D) (d_nv D) (d_A D) *m mx_of (d_nv D) (d_nv D) (d_Ainv D) = 1%:M.

(* What a hierarchy configured from the data D with limits tl, cost H and tasks ts looks like:
   the meaning of its levels as constraints on the decision variables. *)
Definition means_eq (l : level) (P : (nat -> R) -> Prop) : Prop :=
  forall x, (forall r, (r < l_neq l)%N -> rowdot (l_B l) r x + ent (l_b l) r 0 = 0) <-> P x.
Definition means_ineq (l : level) (P : (nat -> R) -> Prop) : Prop :=
  forall x, (forall r, (r < l_nin l)%N -> rowdot (l_A l) r x + ent (l_a l) r 0 <= 0) <-> P x.

Record lq_conf (D : lqdata R) (tl : nat -> R) (C H : dm) (ts : seq (ltask R * dm)) (hs : seq level) : Prop := {
  cf_size : size hs = (2 + size ts)%N;
  cf_shaped : forall i, (i < size hs)%N -> shaped (d_nv D + d_c D) (nth (initLevel R 0 0 0) hs i);
  cf_prepared : prepared (d_nv D + d_c D) (initLevel R 0 0 0) hs;
  cf_eq0 : means_eq (nth (initLevel R 0 0 0) hs 0) (base_dynamics D);
  cf_in0 : means_ineq (nth (initLevel R 0 0 0) hs 0) (fun x => forall r, (r < d_m D)%N -> `|torque D x r| <= tl r);
  cf_v0 : forall r, ent (l_v (nth (initLevel R 0 0 0) hs 0)) r 0 = 0;
  cf_y0 : forall i, (i < d_nv D + d_c D)%N -> answer (nth (initLevel R 0 0 0) hs 0) i =
    if (i < d_nv D)%N then - rowdot (d_Ainv D) i (fun j => ent (d_G D) j 0) else 0;
  cf_n0 : l_nin (nth (initLevel R 0 0 0) hs 0) = (d_m D * 2)%N /\ l_neq (nth (initLevel R 0 0 0) hs 0) = 6%N;
  cf_eq1 : means_eq (nth (initLevel R 0 0 0) hs 1) (fun x => forall r, (r < d_c D)%N -> accel (d_nv D) (d_J D) x r = 0);
  cf_in1 : means_ineq (nth (initLevel R 0 0 0) hs 1) (fun x =>
    (forall r, (r < nr C)%N -> rowdot C r (fun j => x (d_nv D + j)%N) <= 0) /\
    (forall r, (r < d_m D)%N -> `|x (6 + r)%N| <= 5%:R));
  cf_n1 : l_nin (nth (initLevel R 0 0 0) hs 1) = (nr C + d_m D * 2)%N /\ l_neq (nth (initLevel R 0 0 0) hs 1) = d_c D;
  cf_cost1 : l_cost (nth (initLevel R 0 0 0) hs 1) /\ l_H (nth (initLevel R 0 0 0) hs 1) = H;
  cf_task : forall k t J, nth None [seq Some p | p <- ts] k = Some (t, J) ->
    let l := nth (initLevel R 0 0 0) hs (2 + k) in
    [/\ l_nin l = 0%N, l_neq l = k_dof t, means_eq l (task_met (d_nv D) t J), l_cost l & l_H l = H]
}.

(* a robot as UpdateKinematics and SetContact leave it: m joints, plane contacts only, sizes that
   fit, an inertia with its inverse, tasks of the announced sizes *)
Definition robot_ok (rb : lrobot R) (m : nat) : Prop :=
  [/\ contacts_ok rb, lq_ok (dataLQP rb) m (q_cdof rb), inverse_ok (dataLQP rb) &
      List.Forall (fun t => task_ok (6 + m) t (k_J t)) (q_ts rb)].

(* the contact forces of the decision variables; all of them in the cone of their contact *)
Definition forces (nv : nat) (x : nat -> R) : nat -> R := fun j => x (nv + j)%N.
Definition in_cones (rb : lrobot R) (nv : nat) (x : nat -> R) : Prop :=
  forall c0 k, (k < size (actives (q_cc rb)))%N ->
    in_cone (nth c0 (actives (q_cc rb)) k) (blk3 (forces nv x) (6 * k)) (blk3 (forces nv x) (6 * k + 3)).

(* x'Ax over the accelerations *)
Definition quad (D : lqdata R) (x : nat -> R) : R :=
  \sum_(0 <= i < d_nv D) \sum_(0 <= j < d_nv D) x i * ent (d_A D) i j * x j.
(* the inertia is symmetric positive definite *)
Definition inertia_spd (D : lqdata R) : Prop :=
  (forall i j, (i < d_nv D)%N -> (j < d_nv D)%N -> ent (d_A D) i j = ent (d_A D) j i) /\
  (forall x, (exists i, (i < d_nv D)%N /\ x i <> 0) -> 0 < quad D x).

(* one call of CalcControlTorqueLQP: the first one, or a later one with any init flag *)
Definition call (osqp : nat -> bool -> oqp R -> nat -> R) (hs : seq level) (init : bool) (hs2 : seq level) : Prop :=
  exists hs1, (hs1 = hs /\ init \/ solved osqp hs hs1) /\ CalcControlTorqueLQP osqp hs1 init = Some hs2.

(* the solver returned an admissible point for every level that has one *)
Definition found_feasible (hs2 : seq level) : Prop :=
  forall i, (0 < i < size hs2)%N -> let l := nth (initLevel R 0 0 0) hs2 i in
    (exists x, oqp_feasible (osqp_problem l) x) -> oqp_feasible (osqp_problem l) (ans_of l).

(* level i of hs2 has been solved exactly: the problem handed to OSQP lost no coefficient and the
   answer is optimal *)
Definition exactly_solved (hs2 : seq level) (i : nat) : Prop :=
  let l := nth (initLevel R 0 0 0) hs2 i in
  [/\ nothing_dropped (l_qA l), nothing_dropped (l_qH l) & oqp_optimal (osqp_problem l) (ans_of l)].

(* standing still is possible: zero acceleration, the base in balance, the torques within 200,
   every contact force in its cone *)
Definition can_stand_still (rb : lrobot R) (x : nat -> R) : Prop :=
  let D := dataLQP rb in
  [/\ forall j, (j < d_nv D)%N -> x j = 0, base_dynamics D x,
      forall r, (r < d_m D)%N -> `|torque D x r| <= 200%:R & in_cones rb (d_nv D) x].

(* the same for the reduced model: m reduced joints, J_R_INV_T with as many rows as the reduced
   model has velocities and nv columns, contact tasks with nv columns *)
Definition robotR_ok (rb : lrobot R) (m nv : nat) : Prop :=
  [/\ contacts_ok rb, lq_ok (dataLQP_R rb) m (q_cdof rb), dims (q_JRinvT rb) (6 + m) nv, frob (q_A rb) != 0 &
      List.Forall (fun t => k_noncont t \/ task_ok nv t (k_J t)) (q_ts rb)].

(* no contact task after a non-contact one *)
Definition contact_first (ts : seq (ltask R)) : Prop :=
  exists ts1 ts2, [/\ ts = ts1 ++ ts2, List.Forall (fun t => k_noncont t = false) ts1 & List.Forall (fun t => k_noncont t) ts2].

(* J_task * J_R_INV_T^T qdd_R *)
Definition accelR (JRinvT : dm) (J : dm) (x : nat -> R) (r : nat) : R :=
  \sum_(0 <= k < nc J) ent J r k * \sum_(0 <= j < nr JRinvT) ent JRinvT j k * x j.
End LQPSpec.
