(* Witnesses and examples for the threaded torque loop. *)
From mathcomp Require Import all_ssreflect all_algebra.
From mathcomp Require Import ring.
From Verif Require Import LinAlg DMat DMatL Cone_Model Cone_Spec Cone_Ex QP_Model QP_Spec QP_Proofs QP_Loop QP_Ex Dyn_Model Dyn_Spec Dyn_Proofs Dyn_Ex Thr_Model Thr_Spec Thr_Proofs.
Set Implicit Arguments.
Unset Strict Implicit.
Unset Printing Implicit Defensive.
Import Order.TTheory GRing.Theory Num.Theory.
Local Open Scope ring_scope.

Section Gen.
Variable R : realFieldType.

Lemma thr_cascade3 (rb : robot R 6 3) G j1 j2 j3 f1 f2 f3 : UpdateRobot 1%:M (J1 R) G = Some rb ->
  nrm j1 != 0 -> nrm j2 != 0 -> nrm j3 != 0 ->
  exists ls, ThreadedTaskSpace (rb_Ainv rb) (rb_cs rb) [:: jtask j1 f1; jtask j2 f2; jtask j3 f3] = Some ls
  /\ CalcTaskControlTorque ls =
     (nrm j1)^-1 *: j1^T *m f1%:M
     + (1%:M - (nrm j1)^-1 *: (j1^T *m j1)) *m ((nrm j2)^-1 *: j2^T *m f2%:M)
     + (1%:M - (nrm j2)^-1 *: (j2^T *m j2)) *m ((nrm j3)^-1 *: j3^T *m f3%:M).
Proof.
move=> h n1 n2 n3; cbn [ThreadedTaskSpace].
have [K1 [L1 [+ e1]]] := jktask h f1 n1; rewrite thr_jkt; case: (CalculateJKTThreaded _ _ _ _) => [[[Q1 T1] l1]|] // [k1 m1].
have [K2 [L2 [+ e2]]] := jktask h f2 n2; rewrite thr_jkt; case: (CalculateJKTThreaded _ _ _ _) => [[[Q2 T2] l2]|] // [k2 m2].
have [K3 [L3 [+ e3]]] := jktask h f3 n3; rewrite thr_jkt; case: (CalculateJKTThreaded _ _ _ _) => [[[Q3 T3] l3]|] // [k3 m3].
eexists; split; first by reflexivity.
rewrite /CalcTaskControlTorque; cbn [TaskTorqueLoop lv_task lv_Jkt lv_Lambda lv_Null].
rewrite k1 k2 k3 m1 m2 m3.
by rewrite (jnull h _ _ e2) (jnull h _ _ e1) e1 e2 e3 !mul1mx.
Qed.

(* Level 3 disturbs level 1. *)
Lemma thr_priority_fails :
  exists (t1 t2 t3 : task R 3) (rb : robot R 6 3) (ls : seq (level R 3)) a g,
    [/\ UpdateRobot 1%:M (J1 R) 0 = Some rb,
      ThreadedTaskSpace (rb_Ainv rb) (rb_cs rb) [:: t1; t2; t3] = Some ls,
      contact_motion 1%:M (J1 R) 0 (rb_tgrav rb + CalcTaskControlTorque ls) a g &
      tk_J t1 *m a != tk_fstar t1].
Proof.
have [rb [hrb _]] := UpdateRobotE 0 (posdef1 R (6 + 3)) (J1_free R); move=> _ _ _.
pose j1 : 'rV[R]_3 := row3 1 0 0; pose j2 : 'rV[R]_3 := row3 0 1 0.
have n1 : nrm j1 = 1 by rewrite nrm3; ring.
have n2 : nrm j2 = 1 by rewrite nrm3; ring.
have z1 : nrm j1 != 0 by rewrite n1 oner_neq0.
have z2 : nrm j2 != 0 by rewrite n2 oner_neq0.
have [ls [h1 e1]] := thr_cascade3 0 0 1 hrb z1 z2 z1.
exists (jtask j1 0), (jtask j2 0), (jtask j1 1), rb, ls.
have [a [g m1]] := rb_motion_ex (posdef1 R _) (J1_free R) hrb (rb_tgrav rb + CalcTaskControlTorque ls).
exists a, g; split=> //.
have s0 : (0%:M : 'M[R]_1) = 0 by apply/matrixP=> i k; rewrite !mxE mul0rn.
rewrite (jacc hrb j1 0 m1) e1 /= !s0 !mulmx0 !addr0 ?mulmx0 ?add0r.
rewrite mulmx1 n1 n2 invr1 !scale1r mulmxA mulmxBr mulmx1 mulmxA row3M !mul0r !mulr0 !addr0 s0 mul0mx subr0 row3M.
rewrite !mulr0 !addr0 mulr1.
by apply/eqP=> /matrixP/(_ 0 0) /eqP; rewrite !mxE mulr1n oner_eq0.
Qed.
End Gen.

(* Two joints limited to 10, no contacts, no gravity.  Task 1 asks for (8, 8), task 2 for (5, -5),
   which is in the null space of task 1. *)
Definition tk1 : tspace Q :=
  TS (DM 1 1 (fun _ _ => 8%:R)) (DM 2 1 (fun _ _ => 1)) (DM 1 1 (fun _ _ => 1))
     (DM 2 2 (fun i j => if i == j then 2%:R^-1 else - 2%:R^-1)) (dzero Q 1 1) (dzero Q 0 1) (dzero Q 2 1) false.
Definition tk2 : tspace Q :=
  TS (DM 1 1 (fun _ _ => 5%:R)) (DM 2 1 (fun i _ => if i == 0%N then 1 else - 1)) (DM 1 1 (fun _ _ => 1))
     (dzero Q 0 0) (dzero Q 1 1) (dzero Q 0 1) (dzero Q 2 1) false.
Definition rd2 : rdata Q :=
  RD 2 [::] 0 true (DM 2 1 (fun _ _ => 10%:R)) (dzero Q 2 0) (dzero Q 0 8) (dzero Q 0 1)
     (dzero Q 2 1) (dzero Q 2 1) (dzero Q 2 1) [:: tk1; tk2].
Definition dc : pcontact Q := plane1 true.

Lemma rd2_sized : rd_sized rd2 2 0.
Proof. by split=> //; apply: List.Forall_nil. Qed.
Lemma rd2_ts : tasks_sized 2 (r_ts rd2).
Proof. by do 2 (split=> //; first by exists 1%N). Qed.

Lemma rd2_adm (tau : 'cV[Q]_2) : (forall i, `|tau i 0| <= 10%:R) -> admissible rd2 dc 0 tau.
Proof. by move=> h; split=> // _ i; apply: h. Qed.

Lemma lt1 s (x : 'cV[Q]_1) : same_task tk1 s -> level_torque (1%:M : 'M_2) s x = const_mx (8%:R + x 0 0).
Proof.
case=> ef eJ eL _; rewrite /level_torque ef eJ eL mul1mx; apply/matrixP => i j; rewrite ord1.
by rewrite ![LHS]mxE big_ord_recl big_ord0 addr0 !mxE big_ord_recl big_ord0 addr0 !mxE /= mulr1 mul1r.
Qed.
Lemma lt2 s s' (x : 'cV[Q]_1) : same_task tk1 s' -> same_task tk2 s ->
  level_torque (mx_of 2 2 (t_Null s')) s x = \col_i (if i == 0 :> 'I_2 then 5%:R + x 0 0 else - (5%:R + x 0 0)).
Proof.
case=> _ _ _ eN [ef eJ eL _]; rewrite /level_torque ef eJ eL eN; apply/matrixP => i j; rewrite ord1 [RHS]mxE.
rewrite ![LHS]mxE big_ord_recl big_ord0 addr0 !mxE big_ord_recl big_ord0 addr0 !mxE.
rewrite big_ord_recl big_ord_recl big_ord0 addr0 !mxE mulr1.
case: i => -[|[|//]] ? /=.
  have -> : (2%:R^-1 * 1 + - 2%:R^-1 * -1 : Q) = 1 by apply/eqP; vm_compute.
  by rewrite mul1r.
have -> : (- 2%:R^-1 * 1 + 2%:R^-1 * -1 : Q) = -1 by apply/eqP; vm_compute.
by rewrite mulN1r.
Qed.

(* One task asking for (2, 0) with limit 1 and two contacts, as in QP_Ex.v: the redistribution
   (-1, 0) makes it admissible. *)
Definition rd1c : rdata Q :=
  RD 2 [:: plane1 true; plane1 false; plane1 true] 2 true (DM 2 1 (fun _ _ => 1)) exW (exJ 2) (exP 2)
     (dzero Q 2 1) (dzero Q 2 1) (dzero Q 2 1) [:: extask].

Lemma rd1c_sized : rd_sized rd1c 2 2.
Proof. split=> //; first exact: (plane_all [:: true; false; true]). Qed.

(* a solver that tries only x0 *)
Definition xsolver (x0 : nat -> Q) (i : nat) (q : qp Q) : option (nat -> Q) :=
  if all (fun i => (if lent (q_lb q) i is Some l then l <= rowdot (q_A q) i x0 else true) &&
                   (rowdot (q_A q) i x0 <= ent (q_ub q) i 0)) (iota 0 (nr (q_A q)))
  then Some x0 else None.
Lemma xsolver_ok x0 i q : qp_feasible q x0 -> xsolver x0 i q = Some x0.
Proof.
move=> fs; rewrite /xsolver; case: allP => // -[] j; rewrite mem_iota /= add0n => lj; have [h1 h2] := fs j lj.
by rewrite h2 andbT; case e: (lent _ j) => [l|] //; apply: h1.
Qed.
Lemma xsolver_sound x0 i q x : xsolver x0 i q = Some x -> qp_feasible q x.
Proof.
rewrite /xsolver; case: allP => // h [<-] j lj.
have /andP[] := h j ltac:(by rewrite mem_iota); case: (lent _ j) => [l|] h1 h2; split=> //.
by move=> ? [<-].
Qed.
Definition xc : nat -> Q := fun j => if j == 1%N then -1 else 0.
Definition tau1 : 'cV[Q]_2 := \col_i (i == 0 :> 'I_2)%:R.

Lemma rd1c_force (j : nat) : (j < 12)%N -> contact_force rd1c 2 tau1 j =
  (if j == 2%N then 1 else 0) - (if (j %% 6 == 2)%N then 10%:R else 0).
Proof.
move=> lj; rewrite /contact_force (of_mxO _ (lj : (j < 6 * 2)%N) (isT : (0 < 1)%N)) !mxE /=.
congr (_ - _); rewrite big_split_ord big1 => [|k _]; last by rewrite col_mxEu [X in _ * X]mxE mulr0.
rewrite /= add0r !big_ord_recl big_ord0 addr0 /= !col_mxEd !mxE /=.
by case: (j == 2%N); rewrite /= ?mul1r ?mul0r ?addr0.
Qed.
Lemma rd1c_adm : admissible rd1c dc 2 tau1.
Proof.
split=> [_ i|k lk]; first by rewrite mxE /=; case: (i == 0).
have -> : nth dc (actives (r_cc rd1c)) k = plane1 true by case: k lk => [|[|]].
rewrite /in_cone /= trmx1 !mul1mx /vx /vy /vz !mxE !rd1c_force; case: k lk => [|[|k]] //.
Qed.

Lemma z21 : mx_of 2 1 (dzero Q 2 1) = 0.
Proof. by apply/matrixP => i j; rewrite !mxE. Qed.

Lemma rd2_run : exists tk s1 s2,
  [/\ thr_loop (xsolver (fun=> 0)) rd2 0 None (r_task rd2) (r_ts rd2) = Some (tk, [:: s1; s2]),
   mx_of 2 1 tk = \col_i (if i == 0 :> 'I_2 then 13%:R else 3%:R), same_task tk1 s1, same_task tk2 s2 &
   [/\ t_err s1 = false, t_err s2 = false & mx_of (nr (t_fstar s1)) 1 (t_fqp s1) = 0 /\ mx_of (nr (t_fstar s2)) 1 (t_fqp s2) = 0]].
Proof.
have nts : r_ts rd2 <> [::] by [].
have [tk [l [e dtk F2 mtk lr]]] := @thr_spec _ (xsolver (fun=> 0)) rd2 2 0 dc rd2_sized (r_ts rd2) 0 None (r_task rd2) rd2_ts nts.
have z0 : forall t, col_of t (fun=> 0 : Q) = 0 by move=> t; apply/matrixP => i j; rewrite !mxE.
have [s1 [s2 [el h1 h2]]] : exists s1 s2, [/\ l = [:: s1; s2], same_task tk1 s1 & same_task tk2 s2].
  by inversion F2 as [|? s1 ? l1 h1 F3]; inversion F3 as [|? s2 ? l2 h2 F4]; inversion F4; exists s1, s2.
subst l; exists tk, s1, s2; split=> //.
  move: lr; rewrite /Nof => -[[t [q [[[ef _] _ _] _ _ h hq]]] [[t' [q' [[[ef' _] _ _] _ _ h' hq']]] _]].
  have et : t = 1%N by rewrite -ef; case: h1 => ->.
  have et' : t' = 1%N by rewrite -ef'; case: h2 => ->.
  rewrite et in ef h hq; rewrite et' in ef' h' hq'.
  have fq : qp_feasible q (fun=> 0).
    by apply/h; apply: rd2_adm => i; rewrite !z0 mulmx0 addr0 z21 add0r lt1 // !mxE addr0.
  have fq' : qp_feasible q' (fun=> 0).
    by apply/h'; apply: rd2_adm => i; rewrite !z0 mulmx0 addr0 z21 add0r lt2 // !mxE addr0; case: ifP.
  move: hq hq'; rewrite !xsolver_ok // => -[_ hf _] [_ hf' _].
  rewrite mtk add0r /= ef ef' hf hf' z0 addr0 lt1 // lt2 //.
  by apply/matrixP => i j; rewrite !mxE !addr0; case: ifP.
move: lr; rewrite /Nof => -[[t [q [[[ef _] _ _] _ _ h hq]]] [[t' [q' [[[ef' _] _ _] _ _ h' hq']]] _]].
have et : t = 1%N by rewrite -ef; case: h1 => ->.
have et' : t' = 1%N by rewrite -ef'; case: h2 => ->.
rewrite et in ef h hq; rewrite et' in ef' h' hq'.
have fq : qp_feasible q (fun=> 0).
  by apply/h; apply: rd2_adm => i; rewrite !z0 mulmx0 addr0 z21 add0r lt1 // !mxE addr0.
have fq' : qp_feasible q' (fun=> 0).
  by apply/h'; apply: rd2_adm => i; rewrite !z0 mulmx0 addr0 z21 add0r lt2 // !mxE addr0; case: ifP.
move: hq hq'; rewrite !xsolver_ok // => -[-> hf _] [-> hf' _].
by rewrite ef ef' hf hf' z0.
Qed.

Lemma rd1c_run : exists tk s1,
  [/\ thr_loop (xsolver xc) rd1c 0 None (r_task rd1c) (r_ts rd1c) = Some (tk, [:: s1]),
   mx_of 2 1 tk = tau2, same_task extask s1, t_err s1 = false & mx_of (nr (t_fstar s1)) 1 (t_fqp s1) = 0].
Proof.
have nts : r_ts rd1c <> [::] by [].
have hts : tasks_sized 2 (r_ts rd1c) by split=> //; exists 1%N.
have [tk [l [e dtk F2 mtk lr]]] := @thr_spec _ (xsolver xc) rd1c 2 2 dc rd1c_sized (r_ts rd1c) 0 None (r_task rd1c) hts nts.
have [s1 [el h1]] : exists s1, l = [:: s1] /\ same_task extask s1.
  by inversion F2 as [|? s1 ? l1 h1 F3]; inversion F3; exists s1.
subst l; exists tk, s1.
move: lr; rewrite /Nof => -[[t [q [[[ef _] _ _] _ _ h hq]]] _].
have et : t = 1%N by rewrite -ef; case: h1 => ->.
rewrite et in ef h hq.
have z0 : col_of 1 xc = 0 by apply/matrixP => i j; rewrite ord1 !mxE.
have lt : level_torque (1%:M : 'M_2) s1 (0 : 'cV[Q]_1) = tau2.
  case: h1 => e1 e2 e3 _; rewrite /level_torque e1 e2 e3 mul1mx addr0; apply/matrixP => i j; rewrite ord1.
  rewrite ![LHS]mxE big_ord_recl big_ord0 addr0 !mxE big_ord_recl big_ord0 addr0 !mxE /= mulr1.
  by case: i => -[|[|//]] ?; rewrite /= ?mul1r ?mul0r.
have fq : qp_feasible q xc.
  apply/h; rewrite z0 z21 add0r lt.
  have -> : tau2 + mx_of 2 (6 * 2 - 6) (r_NwJw rd1c) *m col_of (6 * 2 - 6) (fun j => xc (1 + j)%N) = tau1; last exact: rd1c_adm.
  apply/matrixP => i j; rewrite ord1 !mxE !big_ord_recl big_ord0 !mxE /=.
  by case: i => -[|[|//]] ?; apply/eqP; vm_compute.
move: hq; rewrite xsolver_ok // => -[-> hf _]; split=> //; last by rewrite ef hf z0.
by rewrite mtk add0r /= ef hf z0 lt addr0.
Qed.
