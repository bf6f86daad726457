(* Property theorems C12 - C21 (contact dynamics, gravity compensation, task torques).
   contact_motion, joint_acc, contacts_fix_base are defined in Dyn_Spec.v. *)
From mathcomp Require Import all_ssreflect all_algebra.
From Verif Require Import LinAlg Dyn_Model Dyn_Spec Dyn_Proofs Dyn_Ex.
Set Implicit Arguments.
Unset Strict Implicit.
Unset Printing Implicit Defensive.
Import Order.TTheory GRing.Theory Num.Theory.
Local Open Scope ring_scope.

(* The hypotheses shared by most theorems below are met by a two-footed robot with 7 joints
   (12 contact rows), and by a robot with one foot and 3 joints. *)
Example two_feet_ok : [/\ posdef (1%:M : 'M[rat]_(6 + (6 + 1))), row_free (J2 [realFieldType of rat]),
    contacts_fix_base (J2 [realFieldType of rat]) & dsubmx (lsubmx (J2 [realFieldType of rat])) \in unitmx].
Proof. by split; [exact: posdef1 | exact: J2_free | exact: J2_base | exact: J2_bottom]. Qed.

Example one_foot_ok : [/\ posdef (1%:M : 'M[rat]_(6 + 3)), row_free (J1 [realFieldType of rat])
   & contacts_fix_base (J1 [realFieldType of rat])].
Proof. by split; [exact: posdef1 | exact: J1_free | exact: J1_base]. Qed.

(* C12: after the update, for every torque the constrained equation of motion has exactly
   one solution, and its contact force is what getContactForce returns. *)
Theorem C12_contact_force_solves_motion (R : realFieldType) m n
    (A : 'M[R]_(6 + n)) (J : 'M[R]_(m, 6 + n)) (G : 'cV[R]_(6 + n)) :
  posdef A -> row_free J ->
  exists rb, UpdateRobot A J G = Some rb /\
  forall tau a f,
    contact_motion A J G tau a f <->
    a = cs_AinvNC (rb_cs rb) *m (actuate tau - G) /\ f = getContactForce rb tau.
Proof.
move=> hA hJ; have [rb [hrb _ _ _ _]] := UpdateRobotE G hA hJ.
by exists rb; split; [exact: hrb | exact: (rb_motion hA hJ hrb)].
Qed.
Print Assumptions C12_contact_force_solves_motion.

(* C13 *)
Theorem C13_contact_projector (R : realFieldType) m n
    (A : 'M[R]_(6 + n)) (J : 'M[R]_(m, 6 + n)) (G : 'cV[R]_(6 + n)) rb :
  posdef A -> row_free J -> UpdateRobot A J G = Some rb ->
  [/\ cs_NC (rb_cs rb) *m cs_NC (rb_cs rb) = cs_NC (rb_cs rb),
      cs_NC (rb_cs rb) *m J^T = 0,
      J *m rb_Ainv rb *m cs_NC (rb_cs rb) = 0,
      cs_JCinvT (rb_cs rb) *m J^T = 1%:M &
      psd (cs_AinvNC (rb_cs rb)) /\ psd (cs_W (rb_cs rb))].
Proof. exact: rb_projector. Qed.
Print Assumptions C13_contact_projector.

(* C14 *)
Theorem C14_gravity_compensation_still (R : realFieldType) m n
    (A : 'M[R]_(6 + n)) (J : 'M[R]_(m, 6 + n)) (G : 'cV[R]_(6 + n)) rb a f :
  posdef A -> row_free J -> UpdateRobot A J G = Some rb ->
  contact_motion A J G (rb_tgrav rb) a f ->
  joint_acc a = 0 /\
  (contacts_fix_base J ->
   a = 0 /\ f = getContactForce rb (rb_tgrav rb) /\ J^T *m f + G = actuate (rb_tgrav rb)).
Proof.
move=> hA hJ hrb hm; have [h1 h2] := rb_grav hA hJ hrb hm.
by split=> // /h2 [-> e]; have [_ ef] := (rb_motion hA hJ hrb _ _ _).1 hm.
Qed.
Print Assumptions C14_gravity_compensation_still.

(* C15 *)
Theorem C15_gravity_torque_least_norm (R : realFieldType) m n
    (A : 'M[R]_(6 + n)) (J : 'M[R]_(m, 6 + n)) (G : 'cV[R]_(6 + n)) rb tau :
  posdef A -> row_free J -> UpdateRobot A J G = Some rb ->
  (forall a f, contact_motion A J G tau a f -> joint_acc a = 0) ->
  dot (rb_tgrav rb) (rb_tgrav rb) <= dot tau tau /\
  (dot tau tau = dot (rb_tgrav rb) (rb_tgrav rb) -> tau = rb_tgrav rb).
Proof. by move=> hA hJ hrb; exact: (rb_grav_least hA hJ hrb). Qed.
Print Assumptions C15_gravity_torque_least_norm.

(* C16: c = contact_dof_ - 6.  The factorisation returns a basis V2 of the null space of W
   (k rows).  It has exactly c rows, so the code takes the "return 1" branch, and the matrix
   it inverts there is invertible exactly when the base block of the last six contact rows is. *)
Theorem C16_contact_null_dimension (R : realFieldType) c n
    (A : 'M[R]_(6 + n)) (J : 'M[R]_(c + 6, 6 + n)) (G : 'cV[R]_(6 + n)) rb k (V2 : 'M[R]_(k, n)) :
  posdef A -> row_free J -> contacts_fix_base J -> UpdateRobot A J G = Some rb ->
  left_null_basis (cs_W (rb_cs rb)) V2 ->
  [/\ k = c, CalculateNwJw (cs_JCinvT (rb_cs rb)) V2 <> NwJwNonSquare R n c &
     (exists Nw, CalculateNwJw (cs_JCinvT (rb_cs rb)) V2 = NwJwOk Nw)
     <-> dsubmx (lsubmx J) \in unitmx].
Proof.
move=> hA hJ hb hrb hV; have e := nwjw_square hA hJ hrb hV hb.
split=> //; last exact: (nwjw_ok_iff hA hJ hrb hV hb).
have [V [_ [_ ->]]] := CalculateNwJwE rb V2 e; by case: (inverse _).
Qed.
Print Assumptions C16_contact_null_dimension.

Example C16_basis_exists (W : 'M[rat]_7) : exists k (V2 : 'M[rat]_(k, 7)), left_null_basis W V2.
Proof. exact: left_null_basis_ex. Qed.

(* C17 *)
Theorem C17_null_torque_changes_internal_force_only (R : realFieldType) c n
    (A : 'M[R]_(6 + n)) (J : 'M[R]_(c + 6, 6 + n)) (G : 'cV[R]_(6 + n)) rb
    k (V2 : 'M[R]_(k, n)) Nw :
  posdef A -> row_free J -> UpdateRobot A J G = Some rb ->
  left_null_basis (cs_W (rb_cs rb)) V2 ->
  CalculateNwJw (cs_JCinvT (rb_cs rb)) V2 = NwJwOk Nw ->
  forall tau x a f a' f',
    contact_motion A J G tau a f -> contact_motion A J G (tau + Nw *m x) a' f' ->
    [/\ a' = a, usubmx f' = usubmx f + x & (lsubmx J)^T *m (f' - f) = 0].
Proof. by move=> hA hJ hrb hV hN tau x a f a' f'; exact: (nwjw_effect hA hJ hrb hV hN). Qed.
Print Assumptions C17_null_torque_changes_internal_force_only.

Theorem C17_null_basis_irrelevant (R : realFieldType) c n
    (A : 'M[R]_(6 + n)) (J : 'M[R]_(c + 6, 6 + n)) (G : 'cV[R]_(6 + n)) rb
    k k' (V2 : 'M[R]_(k, n)) (V2' : 'M[R]_(k', n)) Nw Nw' :
  posdef A -> row_free J -> contacts_fix_base J -> UpdateRobot A J G = Some rb ->
  left_null_basis (cs_W (rb_cs rb)) V2 -> left_null_basis (cs_W (rb_cs rb)) V2' ->
  CalculateNwJw (cs_JCinvT (rb_cs rb)) V2 = NwJwOk Nw ->
  CalculateNwJw (cs_JCinvT (rb_cs rb)) V2' = NwJwOk Nw' -> Nw = Nw'.
Proof. by move=> hA hJ hb hrb hV hV'; exact: (nwjw_basis_indep hA hJ hrb hV hV' hb). Qed.
Print Assumptions C17_null_basis_irrelevant.

(* C18 *)
Theorem C18_task_acceleration (R : realFieldType) m n t
    (A : 'M[R]_(6 + n)) (J : 'M[R]_(m, 6 + n)) (G : 'cV[R]_(6 + n)) rb (Jt : 'M[R]_(t, 6 + n)) :
  posdef A -> row_free J -> contacts_fix_base J -> UpdateRobot A J G = Some rb ->
  Jt *m rb_Ainv rb *m cs_NC (rb_cs rb) *m Jt^T \in unitmx ->
  exists Jkt Lt,
    CalculateJKT Jt (rb_Ainv rb) (cs_NC (rb_cs rb)) (cs_Winv (rb_cs rb)) = Some (Jkt, Lt) /\
    forall fstar a f,
      contact_motion A J G (rb_tgrav rb + Jkt *m Lt *m fstar) a f -> Jt *m a = fstar.
Proof.
move=> hA hJ hb hrb u; have [Jkt [Lt [h _ _ _]]] := jktE hA hJ hrb u.
by exists Jkt, Lt; split=> // fs a f; exact: (task_acc hA hJ hrb hb h).
Qed.
Print Assumptions C18_task_acceleration.

(* a joint task of the one-foot robot satisfies the hypothesis *)
Example C18_nonvacuous (G : 'cV[rat]_(6 + 3)) rb :
  UpdateRobot 1%:M (J1 _) G = Some rb ->
  exists Jkt Lt, CalculateJKT (row_mx 0 (row3 1 1 0)) (rb_Ainv rb) (cs_NC (rb_cs rb)) (cs_Winv (rb_cs rb))
    = Some (Jkt, Lt).
Proof.
move=> h; have nz : nrm (row3 (1 : rat) 1 0) != 0 by rewrite nrm3.
by have [Jkt [Lt [e _]]] := jktask h 0 nz; exists Jkt, Lt.
Qed.

(* C19: ts is any list of registered tasks, highest priority first.  `ref` is what each
   level tracks: the first theorem is CalcTaskControlTorque(hqp = false). *)
Theorem C19_top_priority_undisturbed (R : realFieldType) m n
    (A : 'M[R]_(6 + n)) (J : 'M[R]_(m, 6 + n)) (G : 'cV[R]_(6 + n)) rb tk ts ls a f :
  posdef A -> row_free J -> contacts_fix_base J -> UpdateRobot A J G = Some rb ->
  CalcTaskSpace (rb_Ainv rb) (rb_cs rb) None (tk :: ts) = Some ls ->
  contact_motion A J G (rb_tgrav rb + CalcTaskControlTorque ls) a f ->
  tk_J tk *m a = tk_fstar tk.
Proof.
move=> hA hJ hb hrb hc hm.
by have [l0 [ls' [_ <- ->]]] := top_priority hA hJ hrb hb hc hm.
Qed.
Print Assumptions C19_top_priority_undisturbed.

(* The same with arbitrary references at every level (the QP-modified f* of hqp = true). *)
Theorem C19_top_priority_undisturbed_any_reference (R : realFieldType) m n
    (A : 'M[R]_(6 + n)) (J : 'M[R]_(m, 6 + n)) (G : 'cV[R]_(6 + n)) rb tk ts ls ref a f :
  posdef A -> row_free J -> contacts_fix_base J -> UpdateRobot A J G = Some rb ->
  CalcTaskSpace (rb_Ainv rb) (rb_cs rb) None (tk :: ts) = Some ls ->
  contact_motion A J G (rb_tgrav rb + TaskTorqueLoop ref None 0 ls) a f ->
  exists l0 ls', [/\ ls = l0 :: ls', lv_task l0 = tk & tk_J (lv_task l0) *m a = ref l0].
Proof. by move=> hA hJ hb hrb; exact: (top_priority hA hJ hrb hb). Qed.
Print Assumptions C19_top_priority_undisturbed_any_reference.

(* C20 is false of the code: changing only the reference of the third task changes the
   acceleration of the second one. *)
Theorem C20_strict_priority_refuted (R : realFieldType) :
  exists (A : 'M[R]_(6 + 3)) (J : 'M[R]_(6, 6 + 3)) (G : 'cV[R]_(6 + 3))
    (t1 t2 : task R 3) (J3 : 'M[R]_(1, 6 + 3)) (f3 f3' : 'cV[R]_1)
    (rb : robot R 6 3) (ls ls' : seq (level R 3)) a g a' g',
    [/\ [/\ posdef A, row_free J & contacts_fix_base J],
      UpdateRobot A J G = Some rb,
      CalcTaskSpace (rb_Ainv rb) (rb_cs rb) None [:: t1; t2; Task J3 f3] = Some ls /\
      CalcTaskSpace (rb_Ainv rb) (rb_cs rb) None [:: t1; t2; Task J3 f3'] = Some ls',
      contact_motion A J G (rb_tgrav rb + CalcTaskControlTorque ls) a g /\
      contact_motion A J G (rb_tgrav rb + CalcTaskControlTorque ls') a' g' &
      tk_J t2 *m a != tk_J t2 *m a'].
Proof.
have [t1 [t2 [J3 [f3 [f3' [rb [ls [ls' [a [g [a' [g' [h1 h2 h3 h4 h5]]]]]]]]]]]]] :=
  strict_priority_fails R.
exists 1%:M, (J1 R), 0, t1, t2, J3, f3, f3', rb, ls, ls', a, g, a', g'; split=> //.
by split; [exact: posdef1 | exact: J1_free | exact: J1_base].
Qed.
Print Assumptions C20_strict_priority_refuted.

(* What does hold: a level keeps its reference, whatever the lower levels do, if no torque of
   a higher level alone accelerates its task.  Missing from C20: the coupled case. *)
Theorem C20_decoupled_levels_partial (R : realFieldType) m n
    (A : 'M[R]_(6 + n)) (J : 'M[R]_(m, 6 + n)) (G : 'cV[R]_(6 + n)) rb ts lpre l lpost a f :
  posdef A -> row_free J -> contacts_fix_base J -> UpdateRobot A J G = Some rb ->
  CalcTaskSpace (rb_Ainv rb) (rb_cs rb) None ts = Some (lpre ++ l :: lpost) ->
  (forall l' x a f, List.In l' lpre ->
     contact_motion A J G (rb_tgrav rb + lv_Jkt l' *m lv_Lambda l' *m x) a f ->
     tk_J (lv_task l) *m a = 0) ->
  contact_motion A J G (rb_tgrav rb + CalcTaskControlTorque (lpre ++ l :: lpost)) a f ->
  tk_J (lv_task l) *m a = tk_fstar (lv_task l).
Proof. by move=> hA hJ hb hrb; exact: (decoupled_priority hA hJ hrb hb). Qed.
Print Assumptions C20_decoupled_levels_partial.

(* C21 *)
Theorem C21_task_inverse_consistent (R : realFieldType) m n t
    (A : 'M[R]_(6 + n)) (J : 'M[R]_(m, 6 + n)) (G : 'cV[R]_(6 + n)) rb
    (Jt : 'M[R]_(t, 6 + n)) Jkt Lt :
  posdef A -> row_free J -> contacts_fix_base J -> UpdateRobot A J G = Some rb ->
  CalculateJKT Jt (rb_Ainv rb) (cs_NC (rb_cs rb)) (cs_Winv (rb_cs rb)) = Some (Jkt, Lt) ->
  [/\ (let P := Jkt *m Lt *m Jt *m rsubmx (cs_AinvNC (rb_cs rb)) in P *m P = P),
      (forall y a f, contact_motion A J G
         (rb_tgrav rb + CalculateTaskNullSpace Jkt Lt Jt (cs_AinvNC (rb_cs rb)) 1%:M *m y) a f ->
         Jt *m a = 0) &
      (forall tau fs, (forall a f, contact_motion A J G (rb_tgrav rb + tau) a f -> Jt *m a = fs) ->
         quad (cs_W (rb_cs rb)) (Jkt *m Lt *m fs) <= quad (cs_W (rb_cs rb)) tau)].
Proof. by move=> hA hJ hb hrb; exact: (jkt_consistent hA hJ hrb hb). Qed.
Print Assumptions C21_task_inverse_consistent.
