(* Model of CalcContactRedistributeR (src/dwbc.cpp:4762-4774, 4776-4800, 4942-4990), hqp = false: the closed-form
   redistribution between two feet, from the members of the reduced model.  ReducedCalcContactRedistribute
   (3759-3771) is the same text as 4762-4774.

   c = co_dof, n = nc_dof, m = contact_dof_; reduced_model_dof_ = c + 6, model_dof_ = c + n.
   Numbers as in Redis_Model.v.  The loop of lines 4794-4801 and `init` do not matter in this branch. *)
From mathcomp Require Import all_ssreflect all_algebra.
From Verif Require Import LinAlg Geo_Model Dyn_Model Redis_Model.
Set Implicit Arguments.
Unset Strict Implicit.
Unset Printing Implicit Defensive.
Import Order.TTheory GRing.Theory Num.Theory.
Local Open Scope ring_scope.

Section RedCModel.
Variable R : rcfType.
Variable zs : bool.    (* sign of a zero divisor, see Redis_Model.v *)
Variables c n m k : nat.

(* src/dwbc.cpp:4946-4983, once ContactForce_ has twelve rows: JT is J_CR_INV_T, PCR is P_CR, V2R is V2_R (k rows).
   None: not a number, inverse() of a singular or non-square matrix, or cc_[1] out of range *)
Definition TwoFeetR (JT : 'M[R]_(6 + 6, 6 + (c + 6))) (PCR : 'cV[R]_(6 + 6)) (V2R : 'M[R]_(k, c + 6)) (ft : feet R)
    (torque_input : 'cV[R]_(c + 6)) : option 'cV[R]_(c + 6) :=
  if ft_cc ft is c0 :: c1 :: _ then
    let ContactForce := rsubmx JT *m torque_input - PCR in
    let P1 := c0.2 - ft_com ft in
    let P2 := c1.2 - ft_com ft in
    let Rotyaw := rotZ (ft_c ft) (- ft_s ft) in      (* rotateWithZ(-rpy(2)) *)
    let F12 := force_rot_yaw Rotyaw *m ContactForce in
    let: (_, _, res) := ContactRedistributetwomod zs (99%:R / 100%:R) (26%:R / 100%:R) (1 / 10%:R) 1
      (9%:R / 10%:R) (9%:R / 10%:R) (Rotyaw *m P1) (Rotyaw *m P2) F12 in
    match @eqP _ k 6%N with
    | ReflectT e =>
      let V := castmx (e, erefl (c + 6)%N) V2R in
      if res is Some Result then
        let fc_redist := (force_rot_yaw Rotyaw)^T *m Result in
        let desired : 'cV[R]_6 := - dsubmx (ContactForce : 'cV[R]_(6 + 6)) + dsubmx (fc_redist : 'cV[R]_(6 + 6)) in
        if inverse (dsubmx (rsubmx JT) *m V^T) is Some Mi then Some (V^T *m Mi *m desired) else None
      else None
    | ReflectF _ => None
    end
  else None.

(* src/dwbc.cpp:4942-4990: torque_contact_R_ and the value returned.  The branch is chosen by co_dof; the assignment
   to the Vector12d ContactForce_ (4946) needs contact_dof_ = 12 *)
Definition CalcContactRedistributeRWith (cs : contact_space R m (c + 6)) (PCR : 'cV[R]_m) (V2R : 'M[R]_(k, c + 6))
    (ft : feet R) (torque_input : 'cV[R]_(c + 6)) : option ('cV[R]_(c + 6) * bool) :=
  if c == 12%N then
    match @eqP _ m (6 + 6)%N with
    | ReflectT e =>
      omap (fun tc => (tc, true))
        (TwoFeetR (castmx (e, erefl (6 + (c + 6))%N) (cs_JCinvT cs)) (castmx (e, erefl 1%N) PCR) V2R ft torque_input)
    | ReflectF _ => None
    end
  else Some (0, false).

(* torque_contact_.segment(0, m) = torque_contact_R_.segment(0, m) on a zero torque_contact_, src/dwbc.cpp:4769-4770 *)
Definition writeback (tcR : 'cV[R]_(c + 6)) : option 'cV[R]_(c + n) :=
  if (m <= c + 6)%N && (m <= c + n)%N then
    Some (\col_(i < c + n) if (i < m)%N then (if insub (val i) is Some j then tcR (j : 'I_(c + 6)) 0 else 0) else 0)
  else None.

(* torque_grav_R_, torque_task_R_, torque_contact_R_, torque_contact_ (include/dwbc.h) *)
Record rtorques := RT { rt_grav : 'cV[R]_(c + 6); rt_task : 'cV[R]_(c + 6); rt_conR : 'cV[R]_(c + 6); rt_con : 'cV[R]_(c + n) }.

(* src/dwbc.cpp:4762-4774, hqp = false *)
Definition CalcContactRedistributeR (cs : contact_space R m (c + 6)) (PCR : 'cV[R]_m) (V2R : 'M[R]_(k, c + 6))
    (ft : feet R) (t : rtorques) : option (rtorques * bool) :=
  if (6 < m)%N then
    obind (fun r => omap (fun tc => (RT (rt_grav t) (rt_task t) r.1 tc, r.2)) (writeback r.1))
      (CalcContactRedistributeRWith cs PCR V2R ft (rt_grav t + rt_task t))
  else Some (t, false).
End RedCModel.
