(* C60: the threaded variant of the hierarchical torque. *)
From mathcomp Require Import all_ssreflect all_algebra.
From Verif Require Import LinAlg DMat DMatL Cone_Model Cone_Spec Cone_Ex QP_Model QP_Spec QP_Proofs QP_Loop QP_Ex QP_Props Dyn_Model Dyn_Spec Dyn_Proofs Dyn_Ex Thr_Model Thr_Spec Thr_Proofs Thr_Ex.
Set Implicit Arguments.
Unset Strict Implicit.
Unset Printing Implicit Defensive.
Import Order.TTheory GRing.Theory Num.Theory.
Local Open Scope ring_scope.

(* J_kt_ and Lambda_task_ are those of CalcTaskSpace *)
Theorem C60_same_task_inverse_partial (R : realFieldType) m n (A_inv : 'M[R]_(6 + n)) (cs : contact_space R m n) ts ls :
  CalcTaskSpace A_inv cs None ts = Some ls ->
  exists ls', ThreadedTaskSpace A_inv cs ts = Some ls' /\
    List.Forall2 (fun l l' => exists N, l' = Level (lv_Jkt l) (lv_Lambda l) N) ls ls'.
Proof. exact: thr_levels. Qed.

(* with at most two levels the top task is undisturbed, as in C19 ... *)
Theorem C60_two_levels_partial (R : realFieldType) m n
    (A : 'M[R]_(6 + n)) (J : 'M[R]_(m, 6 + n)) (G : 'cV[R]_(6 + n)) rb tk ts ls ref a f :
  posdef A -> row_free J -> contacts_fix_base J -> UpdateRobot A J G = Some rb -> (size ts <= 1)%N ->
  ThreadedTaskSpace (rb_Ainv rb) (rb_cs rb) (tk :: ts) = Some ls ->
  contact_motion A J G (rb_tgrav rb + TaskTorqueLoop ref None 0 ls) a f ->
  exists l0 ls', [/\ ls = l0 :: ls', lv_task l0 = tk & tk_J (lv_task l0) *m a = ref l0].
Proof. by move=> hA hJ hb hrb; exact: thr_two. Qed.

(* ... with three it is disturbed *)
Theorem C60_priority_refuted (R : realFieldType) :
  exists (A : 'M[R]_(6 + 3)) (J : 'M[R]_(6, 6 + 3)) (G : 'cV[R]_(6 + 3)) (t1 t2 t3 : task R 3)
    (rb : robot R 6 3) (ls : seq (level R 3)) a g,
    [/\ [/\ posdef A, row_free J & contacts_fix_base J], UpdateRobot A J G = Some rb,
      ThreadedTaskSpace (rb_Ainv rb) (rb_cs rb) [:: t1; t2; t3] = Some ls,
      contact_motion A J G (rb_tgrav rb + CalcTaskControlTorque ls) a g &
      tk_J t1 *m a != tk_fstar t1].
Proof.
have [t1 [t2 [t3 [rb [ls [a [g [h1 h2 h3 h4]]]]]]]] := thr_priority_fails R.
exists 1%:M, (J1 R), 0, t1, t2, t3, rb, ls, a, g; split=> //.
by split; [exact: posdef1 | exact: J1_free | exact: J1_base].
Qed.

Section QPart.
Variable R : realFieldType.

(* every level on its own is admissible, with its own contact redistribution; a failure is only
   recorded in qp_error *)
Theorem C60_levels_alone_partial : forall solver (rd : rdata R) m K d,
  rd_sized rd m K -> tasks_sized m (r_ts rd) -> r_ts rd <> [::] ->
  (forall i q x, solver i q = Some x -> qp_feasible q x) ->
  let c := (6 * K - 6)%N in
  exists rd', [/\ CalcTaskSpaceTorqueHQPWithThreaded solver rd = Some rd',
    List.Forall2 (@same_task R) (r_ts rd) (r_ts rd'),
    r_grav rd' = r_grav rd /\ r_con rd' = r_con rd,
    mx_of m 1 (r_task rd') = sum_levels 1%:M (r_ts rd') &
    each_level (fun N s =>
      let df := mx_of (nr (t_fstar s)) 1 (t_fqp s) in
      if t_err s then df = 0 /\ mx_of c 1 (t_cqp s) = 0
      else admissible rd d K (mx_of m 1 (r_grav rd) + level_torque N s df
             + mx_of m c (r_NwJw rd) *m mx_of c 1 (t_cqp s))) 1%:M (r_ts rd')].
Proof.
move=> solver rd m K d h1 hts nts feas c.
have [tk [l [e dtk F2 mtk lr]]] := @thr_spec _ solver rd m K d h1 (r_ts rd) 0 None (r_task rd) hts nts.
rewrite /CalcTaskSpaceTorqueHQPWithThreaded e.
have -> : forall T (z : T), match r_ts rd with [::] => None | _ :: _ => Some z end = Some z.
  by move=> T z; case: (r_ts rd) nts.
eexists; split; [by reflexivity|by []|by []|by rewrite mtk add0r|rewrite /=].
have gen : forall l (N : 'M[R]_m) i, levels_ran solver rd K d N i l -> each_level (fun N s =>
      let df := mx_of (nr (t_fstar s)) 1 (t_fqp s) in
      if t_err s then df = 0 /\ mx_of c 1 (t_cqp s) = 0
      else admissible rd d K (mx_of m 1 (r_grav rd) + level_torque N s df
             + mx_of m c (r_NwJw rd) *m mx_of c 1 (t_cqp s))) N l; last exact: gen lr.
clear -feas; elim=> [|s l IH] // N i [lr lrs].
split; last exact: IH lrs.
case: lr => t [q [[[ef _] _ _] _ _ h hq]]; rewrite ef.
case es : (solver i q) hq => [x|] [-> h2 h3]; last by [].
by rewrite h2 h3; apply/h; apply: feas es.
Qed.
End QPart.

(* The total exceeds the limits although no level needed a correction *)
Theorem C60_limits_refuted : exists solver (rd rd' : rdata Q) m d,
  [/\ rd_sized rd m 0, tasks_sized m (r_ts rd),
    (forall i q x, solver i q = Some x -> qp_feasible q x),
    CalcTaskSpaceTorqueHQPWithThreaded solver rd = Some rd' /\
      List.Forall (fun s => t_err s = false /\ mx_of (nr (t_fstar s)) 1 (t_fqp s) = 0) (r_ts rd') &
    mx_of m 1 (r_grav rd) = 0 /\ mx_of m 1 (r_con rd') = 0 /\
    ~ admissible rd d 0 (mx_of m 1 (r_grav rd') + mx_of m 1 (r_task rd') + mx_of m 1 (r_con rd'))].
Proof.
have [tk [s1 [s2 [e mtk e1 e2 [r1 r2 [f1 f2]]]]]] := rd2_run.
have z21 : mx_of 2 1 (dzero Q 2 1) = 0 by apply/matrixP => i j; rewrite !mxE.
exists (xsolver (fun=> 0)), rd2; eexists; exists 2%N, dc.
split; [exact: rd2_sized|exact: rd2_ts|by move=> i q x; apply: xsolver_sound| |].
  split; first by rewrite /CalcTaskSpaceTorqueHQPWithThreaded e; reflexivity.
  by do 2 (constructor; first by []); constructor.
rewrite /= z21; split=> //; split=> //; rewrite add0r addr0.
move=> [/(_ isT 0) + _]; rewrite mtk !mxE /=; apply/negP.
by [].
Qed.

(* With contacts even one level is not enough: the redistribution that makes it admissible is
   computed but not commanded *)
Theorem C60_contact_torque_refuted : exists solver (rd rd' : rdata Q) m K d,
  [/\ rd_sized rd m K, tasks_sized m (r_ts rd) /\ size (r_ts rd) = 1%N,
    (forall i q x, solver i q = Some x -> qp_feasible q x),
    CalcTaskSpaceTorqueHQPWithThreaded solver rd = Some rd' /\
      List.Forall (fun s => t_err s = false /\ mx_of (nr (t_fstar s)) 1 (t_fqp s) = 0) (r_ts rd') &
    mx_of m 1 (r_grav rd) = 0 /\ mx_of m 1 (r_con rd) = 0 /\
    ~ admissible rd d K (mx_of m 1 (r_grav rd') + mx_of m 1 (r_task rd') + mx_of m 1 (r_con rd'))].
Proof.
have [tk [s1 [e mtk e1 r1 f1]]] := rd1c_run.
have z21 : mx_of 2 1 (dzero Q 2 1) = 0 by apply/matrixP => i j; rewrite !mxE.
exists (xsolver xc), rd1c; eexists; exists 2%N, 2%N, dc.
split; [exact: rd1c_sized|by split=> //; split=> //; exists 1%N|by move=> i q x; apply: xsolver_sound| |].
  split; first by rewrite /CalcTaskSpaceTorqueHQPWithThreaded e; reflexivity.
  by constructor=> //; constructor.
rewrite /= z21; split=> //; split=> //; rewrite add0r addr0.
move=> [/(_ isT 0) + _]; rewrite mtk !mxE /=; apply/negP.
by [].
Qed.

(* Without tasks the sequential function does nothing; this one reads ts_[0] *)
Theorem C60_no_task_refuted : forall solver (rd : rdata Q), r_ts rd = [::] ->
  CalcTaskSpaceTorqueHQPWithThreaded solver rd = None /\
  exists rd', CalcTaskControlTorqueHQP solver rd = Some (rd', true).
Proof.
move=> solver rd e; rewrite /CalcTaskSpaceTorqueHQPWithThreaded /CalcTaskControlTorqueHQP e /=.
by split=> //; eexists.
Qed.

(* the hypotheses of C60_levels_alone_partial, and the two-level run above *)
Example C60_ex : rd_sized rd2 2 0 /\ tasks_sized 2 (r_ts rd2) /\ r_ts rd2 <> [::] /\
  exists rd', CalcTaskSpaceTorqueHQPWithThreaded (xsolver (fun=> 0)) rd2 = Some rd' /\
    mx_of 2 1 (r_task rd') = \col_i (if i == 0 :> 'I_2 then 13%:R else 3%:R).
Proof.
split; first exact: rd2_sized. split; first exact: rd2_ts. split=> //.
have [tk [s1 [s2 [e mtk _ _ _]]]] := rd2_run.
by eexists; split; first by rewrite /CalcTaskSpaceTorqueHQPWithThreaded e.
Qed.

Print Assumptions C60_same_task_inverse_partial.
Print Assumptions C60_two_levels_partial.
Print Assumptions C60_priority_refuted.
Print Assumptions C60_levels_alone_partial.
Print Assumptions C60_limits_refuted.
Print Assumptions C60_contact_torque_refuted.
Print Assumptions C60_no_task_refuted.
