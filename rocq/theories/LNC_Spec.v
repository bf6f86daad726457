(* Specification vocabulary for the hierarchical QP of the non-contact joints. *)
From mathcomp Require Import all_ssreflect all_algebra.
From Verif Require Import DMat DMatL Geo_Model Geo_Spec Cone_Model Cone_Spec QP_Model QP_Spec HQP_Model HQP_Spec LQP_Model LQP_Spec Jacc_Model Jacc_Spec LNC_Model.
Set Implicit Arguments.
Unset Strict Implicit.
Unset Printing Implicit Defensive.
Import Order.TTheory GRing.Theory Num.Theory.
Local Open Scope ring_scope.

Section LNCSpec.
Variable R : rcfType.
Local Notation dm := (dm R).
Local Notation level := (level R).
Local Notation d0 := (initLevel R 0 0 0).

(* the decision variables x 0 .. x (n-1) are the accelerations of the n non-contact joints *)

(* M qdd with the lower right corner M of A_NC *)
Definition nc_inertia (rb : nrobot R) (i j : nat) : R :=
  ent (n_ANC rb) (nr (n_ANC rb) - n_nc rb + i) (nc (n_ANC rb) - n_nc rb + j).
(* the torque of joint i: M qdd + G *)
Definition nc_torque (rb : nrobot R) (x : nat -> R) (i : nat) : R :=
  \sum_(0 <= j < n_nc rb) nc_inertia rb i j * x j + ent (n_GNC rb) i 0.
(* qdd' M qdd *)
Definition nc_energy (rb : nrobot R) (x : nat -> R) : R :=
  \sum_(0 <= i < n_nc rb) \sum_(0 <= j < n_nc rb) x i * nc_inertia rb i j * x j.
(* J_I_nc_ qdd: the acceleration of the group of non-contact links the joints produce *)
Definition nc_rate (rb : nrobot R) (x : nat -> R) (r : nat) : R := \sum_(0 <= j < n_nc rb) ent (n_JI rb) r j * x j.
(* what the reduced model asks of it: the last six of its accelerations *)
Definition rate_wanted (q : dm) (r : nat) : R := ent q (nr q - 6 + r) 0.
(* J_task qdd by the non-contact joints: three rows from row k on *)
Definition nc_link (rb : nrobot R) (t : ntask R) (x : nat -> R) (k : nat) : 'cV[R]_3 :=
  \col_i \sum_(0 <= j < n_nc rb) ent (t_J t) (k + i) (nc (t_J t) - n_nc rb + j) * x j.

(* sizes: n > 0 joints, A_NC with at least n rows and columns and a corner that is not zero, G_NC
   and J_I_nc_ for these joints, at least six accelerations *)
Definition nc_sized (rb : nrobot R) (q : dm) : Prop :=
  [/\ (exists p, dims (n_ANC rb) (p + n_nc rb) (p + n_nc rb)), dims (n_GNC rb) (n_nc rb) 1,
      dims (n_JI rb) 6 (n_nc rb), (exists p, dims q (6 + p) 1) &
      exists i j, [/\ (i < n_nc rb)%N, (j < n_nc rb)%N & nc_inertia rb i j <> 0]].

(* the second task: a task of six rows on a link at xl, the base link at x0 *)
Definition second_task (rb : nrobot R) (t : ntask R) (xl x0 : 'cV[R]_3) : Prop :=
  [/\ exists t0 ts, n_ts rb = t0 :: t :: ts,
      exists id ids, t_links t = id :: ids /\ at_ (n_xpos rb) id = Some xl,
      at_ (n_xpos rb) 0 = Some x0, dims (t_f t) 6 1 & exists p, dims (t_J t) 6 (p + n_nc rb)].

(* the corner of A_NC is symmetric positive definite *)
Definition nc_spd (rb : nrobot R) : Prop :=
  (forall i j, (i < n_nc rb)%N -> (j < n_nc rb)%N -> nc_inertia rb i j = nc_inertia rb j i) /\
  (forall x, (exists i, (i < n_nc rb)%N /\ x i <> 0) -> 0 < nc_energy rb x).

(* the cost matrix of a level: 5 M / |M| *)
Definition nc_norm (rb : nrobot R) : R :=
  Num.sqrt (\sum_(0 <= i < n_nc rb) \sum_(0 <= j < n_nc rb) nc_inertia rb i j ^+ 2).
Definition nc_cost (rb : nrobot R) (l : level) : Prop :=
  [/\ l_cost l, dims (l_H l) (n_nc rb) (n_nc rb) & forall i j, (i < n_nc rb)%N -> (j < n_nc rb)%N -> ent (l_H l) i j = nc_inertia rb i j / nc_norm rb * 5%:R].

(* a hierarchy for the non-contact joints: its two levels as constraints on the accelerations *)
Record nc_conf (rb : nrobot R) (q : dm) (t : ntask R) (r : 'cV[R]_3) (hs : seq level) : Prop := {
  nf_size : size hs = 2%N;
  nf_shaped : forall i, (i < 2)%N -> shaped (n_nc rb) (nth d0 hs i);
  nf_prepared : prepared (n_nc rb) d0 hs;
  nf_n : forall i, (i < 2)%N -> l_nin (nth d0 hs i) = (2 * n_nc rb)%N /\ l_neq (nth d0 hs i) = 6%N;
  nf_weights : forall i, (i < 2)%N -> l_V (nth d0 hs i) = dident R (2 * n_nc rb) /\ l_W (nth d0 hs i) = dident R 6;
  nf_eq0 : means_eq (nth d0 hs 0) (fun x => forall k, (k < 6)%N -> nc_rate rb x k = rate_wanted q k);
  nf_in0 : means_ineq (nth d0 hs 0) (fun x => forall k, (k < n_nc rb)%N -> `|nc_torque rb x k| <= 200%:R);
  nf_eq1 : means_eq (nth d0 hs 1) (fun x =>
    nc_link rb t x 0 = upper (t_f t) - upper q + crossp r (lower (t_f t) - lower q) /\
    nc_link rb t x 3 = lower (t_f t) - lower q);
  nf_in1 : means_ineq (nth d0 hs 1) (fun x => forall k, (k < n_nc rb)%N -> `|x k| <= 5%:R);
  nf_cost : forall i, (i < 2)%N -> nc_cost rb (nth d0 hs i);
  (* the rows of level 0 are not rescaled *)
  nf_rows : forall x k, (k < 6)%N -> rowdot (l_B (nth d0 hs 0)) k x + ent (l_b (nth d0 hs 0)) k 0 = nc_rate rb x k - rate_wanted q k;
  nf_ineqs : forall x k, (k < n_nc rb)%N ->
    rowdot (l_A (nth d0 hs 0)) k x + ent (l_a (nth d0 hs 0)) k 0 = nc_torque rb x k - 200%:R /\
    rowdot (l_A (nth d0 hs 0)) (n_nc rb + k) x + ent (l_a (nth d0 hs 0)) (n_nc rb + k)%N 0 = - nc_torque rb x k - 200%:R
}.

(* what level 0 weighs against each other: the deviation from the wanted rate, the excess v of the
   torques over 200 (the two sides of the bound of joint k are v k and v (n + k)), and the motion *)
Definition nc_excess (rb : nrobot R) (x v : nat -> R) : Prop :=
  forall k, (k < n_nc rb)%N -> nc_torque rb x k <= 200%:R + v k /\ - nc_torque rb x k <= 200%:R + v (n_nc rb + k)%N.
Definition nc_objective (rb : nrobot R) (q : dm) (x v : nat -> R) : R :=
  \sum_(0 <= k < 6) (nc_rate rb x k - rate_wanted q k) ^+ 2 + \sum_(0 <= k < 2 * n_nc rb) v k ^+ 2
  + 5%:R / nc_norm rb * nc_energy rb x.
(* the slacks v_ans_ of a level *)
Definition slack (l : level) : nat -> R := fun i => ent (l_v l) i 0.
(* gravity alone stays within 200 *)
Definition nc_holds (rb : nrobot R) : Prop := forall k, (k < n_nc rb)%N -> `|ent (n_GNC rb) k 0| <= 200%:R.

(* CalcControlTorqueLQP_R_NC called any number of times, the first time with init = true; the flag
   and the state before are those of the last call *)
Inductive nc_solved (osqp : nat -> bool -> oqp R -> nat -> R) (n : nat) (hs : seq level) : seq level -> Prop :=
| nc_first hs' : CalcControlTorqueLQP_R_NC osqp n hs true = Some hs' -> nc_solved osqp n hs hs'
| nc_again h1 h2 init : nc_solved osqp n hs h1 -> CalcControlTorqueLQP_R_NC osqp n h1 init = Some h2 -> nc_solved osqp n hs h2.
End LNCSpec.
