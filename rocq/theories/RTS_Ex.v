(* Examples for RTS_Props on the robot of RTq_NCEx, and the refutation of C119 for three tasks on other limbs. *)
From mathcomp Require Import all_ssreflect all_algebra.
From mathcomp Require Import zify ring.
From Verif Require Import LinAlg Dyn_Model Dyn_Spec Dyn_Proofs RedM_Model RedM_Spec RedM_Proofs RedM_Props Red_Model Geo_Spec.
From Verif Require Import DMat DMatL Cone_Model QP_Model RTq_Model RTq_Spec RTq_Proofs RTq_Loop RTq_Props RTq_Ex RTq_NCEx RTq_NCProps.
From Verif Require Import RTS_Model RTS_Spec RTS_Acc RTS_NC RTS_Loop RTS_Full RTS_Proofs RTS_Props.
Set Implicit Arguments.
Unset Strict Implicit.
Unset Printing Implicit Defensive.
Import Order.TTheory GRing.Theory Num.Theory.
Local Open Scope ring_scope.

Section Ex.
Variable R : realFieldType.
Local Notation h := (3%:R^-1 : R).
Ltac ground := rewrite ?big_ord_recr ?big_ord0 /tA /tAN /tb /=; field; rewrite ?pnatr_eq0 //.
Ltac cells p q := apply: (@tn_ext _ _ _ p q) => // -[|[|[|?]]] // [|[|[|?]]] // _ _; ground.
Ltac cellv p := apply: (@tv_ext _ _ p) => // -[|[|[|?]]] // _; ground.
Local Notation M := (tn 18 18 (tAN R) : 'M[R]_(6 + 6 + 6)).

Definition yold : rtask R := RT false 0 (dzero R 0 0) (dzero R 0 0) (dzero R 0 0) (dzero R 0 1) (dzero R 0 0) (dzero R 0 0)
  (dzero R 0 1) (dzero R 0 1) false (dzero R 0 1) (dzero R 0 1).
(* tasks on the base (link 0), on the centre of mass (link_num_ = 9) and on links 4, 5 of another limb *)
Definition ybase (f : 'cV[R]_6) : stask R 6 6 := @ST R 6 6 6 (xJ0 R) f (RedTask false [:: 0%N] false false false 0) yold.
Definition ycom (f : 'cV[R]_6) : stask R 6 6 := @ST R 6 6 6 (xJ1 R) f (RedTask false [:: 9%N] false false false 0) yold.
Definition ylimb (f : 'cV[R]_6) : stask R 6 6 := @ST R 6 6 6 (xJ1 R) f (RedTask false [:: 4%N] false false false 0) yold.
Definition xJ2 : 'M[R]_(6, 6 + 6 + 6) := row_mx (row_mx 1%:M 0) (- 1%:M).
Definition ylimb2 (f : 'cV[R]_6) : stask R 6 6 := @ST R 6 6 6 xJ2 f (RedTask false [:: 5%N] false false false 0) yold.

Lemma xJ0E : xJ0 R = tn 6 18 (tb [:: [:: 1; 0; 0]]).
Proof.
rewrite /xJ0 (tn_1 R 6) (tn_0 R 6 6) (@tn_row R 6 6 6 1) // (@tn_row R 6 (6 + 6) 6 2) //; cells 1%N 3%N.
Qed.
Lemma xJ2E : xJ2 = tn 6 18 (tb [:: [:: 1; 0; -1]]).
Proof.
rewrite /xJ2 (tn_1 R 6) (tn_0 R 6 6) tn_opp (@tn_row R 6 6 6 1) // (@tn_row R 6 (6 + 6) 6 2) //; cells 1%N 3%N.
Qed.

Lemma ybase_chain f : chain_task 9 [:: 0%N] (ybase f).
Proof. by split=> //; rewrite /= /xJ0 row_mxKr. Qed.
Lemma ycom_com f : com_task (exA R 6) 9 (ycom f).
Proof.
split=> //; exists 1%:M; rewrite mul1mx /=.
rewrite exAE (@tn_u R (6 + 6) 6) (@tn_u R 6 6) xJ1E; cells 1%N 3%N.
Qed.
Lemma ylimb_limb f : limb_task 9 [:: 0%N] (ylimb f).
Proof. by split=> //; [exists 4%N|rewrite /= /xJ1 row_mxKl row_mxKr]. Qed.
Lemma ylimb2_limb f : limb_task 9 [:: 0%N] (ylimb2 f).
Proof. by split=> //; [exists 5%N|rewrite /= /xJ2 row_mxKl row_mxKr]. Qed.

Definition L2 : 'M[R]_6 := tn 6 6 (tb [:: [:: 2%:R^-1]]).
Lemma y0_inv : xJ0 R *m M *m (xJ0 R)^T *m xLam R = 1%:M.
Proof.
rewrite xJ0E tn_tr /xLam (@tn_mul _ _ _ _ 3) // (@tn_mul _ _ _ _ 3) // (@tn_mul _ _ _ _ 1) // tn_1; cells 1%N 1%N.
Qed.
Lemma y1_inv : xJ1 R *m M *m (xJ1 R)^T *m xLam R = 1%:M.
Proof.
rewrite xJ1E tn_tr /xLam (@tn_mul _ _ _ _ 3) // (@tn_mul _ _ _ _ 3) // (@tn_mul _ _ _ _ 1) // tn_1; cells 1%N 1%N.
Qed.
Lemma y2_inv : xJ2 *m M *m xJ2^T *m L2 = 1%:M.
Proof.
rewrite xJ2E tn_tr /L2 (@tn_mul _ _ _ _ 3) // (@tn_mul _ _ _ _ 3) // (@tn_mul _ _ _ _ 1) // tn_1; cells 1%N 1%N.
Qed.

Definition ytg : 'cV[R]_(6 + 6) := col_mx (usubmx (xtg R)) (dsubmx (xG R)).
Lemma y_standing : exists rd cs, [/\
  standing (K := 1) (@exv 6) (@exn 6) (exA R 6) (exA R 6) (exSI R) 1%:M (xG R) 1%:M (xC R) rd cs ytg (xtg R) (xPC R),
  reduced_members (xrb1 R) rd 1%:M & ulsubmx (cs_AinvNC cs) \in unitmx].
Proof.
have [rd [erd [h1 h2] h3 [h4 h5] h6]] := x_red R.
have [cs [ecs k1 k2 k3 k4]] := x_contact erd.
have eg := x_grav erd ecs.
exists rd, cs; split.
- split=> //.
  + by split; [exact: ex_lead|exact: exA_posdef|exact: ex_carried|exact: ex_rot1].
  + by split; [exact: ex_J|exact: ex_free|].
  + by split; [exact: xC_chains|exact: xC_free| |exact: xC_base].
- by split; rewrite /= ?mx_of_mx ?h1 ?h4 ?h5.
rewrite k3 /ulsubmx (@tn_u R 6 (6 + 6)) (@tn_l R 6 6 (6 + 6)).
have e : tn 6 6 (tAN R) *m xLam R = 1%:M by rewrite /xLam (@tn_mul _ _ _ _ 1) // tn_1; cells 1%N 1%N.
exact: unit_of e.
Qed.

Lemma y_full : exists rbF : robot R (6 * 1) (6 + 6), UpdateRobot (n := 6 + 6) (exA R 6) (xC R) (xG R) = Some rbF /\
  [/\ CalculateContactConstraint (n := 6 + 6) (xC R) (invmx (exA R 6)) = Some (rb_cs rbF), cs_AinvNC (rb_cs rbF) = M & rb_Ainv rbF = invmx (exA R 6)].
Proof.
have [rbF [hF _ _ _ _]] := UpdateRobotE (n := 6 + 6) (xG R) (exA_posdef R 6) (xC_free R).
exists rbF; split=> //.
have [eAi ecF] : rb_Ainv rbF = invmx (exA R 6) /\ CalculateContactConstraint (n := 6 + 6) (xC R) (invmx (exA R 6)) = Some (rb_cs rbF).
  have hA := exA_posdef R 6.
  by move: hF; rewrite /UpdateRobot inverseE ?posdef_unit //; case e: (CalculateContactConstraint (n := 6 + 6) (xC R) (invmx (exA R 6))) => [q|] // [<-].
split=> //; have [a1 a2 a3 -> _] := ccE ecF.
by rewrite a3 a2 a1 x_AN.
Qed.

Definition ykind (s : stask R 6 6) : Prop := (s_J s *m M *m (s_J s)^T \in unitmx).
Lemma ybase_u f : ykind (ybase f). Proof. exact: unit_of y0_inv. Qed.
Lemma ycom_u f : ykind (ycom f). Proof. exact: unit_of y1_inv. Qed.
Lemma ylimb_u f : ykind (ylimb f). Proof. exact: unit_of y1_inv. Qed.
Lemma ylimb2_u f : ykind (ylimb2 f). Proof. exact: unit_of y2_inv. Qed.

Lemma y_sized (x : 'M[R]_(6 + 6 + 6) * 'M[R]_(6 + 6, 6) * seq (rtask R)) : rb_sized (with_space (xrb1 R) x) 6 6 1.
Proof. by case: (xrb1_sized R) => ? ? ? ? [? ? ? ? [? ? ?]]; split=> //; split. Qed.

Local Notation yspace rd cs ts := (ReducedCalcTaskSpace 9 [:: 0%N] xpredT xpredT (base_jac 6 6 1%:M) (invmx (exA R 6))
  (ReducedN_C (invmx (exA R 6)) (xC R) cs) cs rd ts).

Lemma y_setup ts us : List.Forall (fun s => chain_task 9 [:: 0%N] s \/ com_task (exA R 6) 9 s) ts ->
  List.Forall (limb_task 9 [:: 0%N]) us -> (us <> [::] -> ts <> [::]) -> List.Forall ykind (ts ++ us) ->
  exists rd cs x, [/\
  standing (K := 1) (@exv 6) (@exn 6) (exA R 6) (exA R 6) (exSI R) 1%:M (xG R) 1%:M (xC R) rd cs ytg (xtg R) (xPC R),
  reduced_members (xrb1 R) rd 1%:M & yspace rd cs (ts ++ us) = Some x].
Proof.
move=> hts hus ne hu; have [rd [cs [std hm ub]]] := y_standing.
have [rbF [_ [ecF eM _]]] := y_full.
have [x ex] := C118_defined std xpredT xpredT isT ecF hts hus ne (eq_ind_r (fun X : 'M_(6 + 6 + 6) =>
  List.Forall (fun s => s_J s *m X *m (s_J s)^T \in unitmx) (ts ++ us)) hu eM) ub (ex_rot1 R).
by exists rd, cs, x; split.
Qed.

Definition yf : 'cV[R]_6 := tv 6 (fun _ => 1).

Example C118_ex : exists rd cs x rbF, [/\
  standing (K := 1) (@exv 6) (@exn 6) (exA R 6) (exA R 6) (exSI R) 1%:M (xG R) 1%:M (xC R) rd cs ytg (xtg R) (xPC R),
  rotation (1%:M : 'M[R]_3) /\ reduced_members (xrb1 R) rd 1%:M, UpdateRobot (n := 6 + 6) (exA R 6) (xC R) (xG R) = Some rbF,
  List.Forall (fun s => chain_task 9 [:: 0%N] s \/ com_task (exA R 6) 9 s) [:: ycom yf; ybase (- yf)] &
  yspace rd cs [:: ycom yf; ybase (- yf)] = Some x /\ rb_sized (with_space (xrb1 R) x) 6 6 1].
Proof.
have kd : List.Forall (fun s => chain_task 9 [:: 0%N] s \/ com_task (exA R 6) 9 s) [:: ycom yf; ybase (- yf)].
  by constructor; [right; exact: ycom_com|constructor; [left; exact: ybase_chain|]].
have [||rd [cs [x [std hm ex]]]] := y_setup kd (List.Forall_nil (limb_task 9 [:: 0%N])).
- by [].
- by constructor; [exact: ycom_u|constructor; [exact: ybase_u|]].
have [rbF [hF _]] := y_full.
by exists rd, cs, x, rbF; split=> //; split=> //; [exact: ex_rot1|exact: y_sized].
Qed.

Lemma ylimbs (f f' : 'cV[R]_6) : List.Forall (limb_task 9 [:: 0%N]) [:: ylimb f; ylimb2 f'].
Proof. by constructor; [exact: ylimb_limb|constructor; [exact: ylimb2_limb|]]. Qed.
Lemma ybases (f : 'cV[R]_6) : List.Forall (fun s => chain_task 9 [:: 0%N] s \/ com_task (exA R 6) 9 s) [:: ybase f].
Proof. by constructor; [left; exact: ybase_chain|]. Qed.

Example C119_ex : exists rd cs x rbF, [/\
  standing (K := 1) (@exv 6) (@exn 6) (exA R 6) (exA R 6) (exSI R) 1%:M (xG R) 1%:M (xC R) rd cs ytg (xtg R) (xPC R),
  reduced_members (xrb1 R) rd 1%:M, UpdateRobot (n := 6 + 6) (exA R 6) (xC R) (xG R) = Some rbF,
  List.Forall (fun s => chain_task 9 [:: 0%N] s \/ com_task (exA R 6) 9 s) [:: ybase yf] /\
  List.Forall (limb_task 9 [:: 0%N]) [:: ylimb yf; ylimb2 (- yf)] &
  yspace rd cs ([:: ybase yf] ++ [:: ylimb yf; ylimb2 (- yf)]) = Some x /\ rb_sized (with_space (xrb1 R) x) 6 6 1].
Proof.
have [||rd [cs [x [std hm ex]]]] := y_setup (ybases yf) (ylimbs yf (- yf)).
- by [].
- by constructor; [exact: ybase_u|constructor; [exact: ylimb_u|constructor; [exact: ylimb2_u|]]].
have [rbF [hF _]] := y_full.
by exists rd, cs, x, rbF; split=> //; split=> //; [exact: ybases|exact: ylimbs|exact: y_sized].
Qed.

Example C120_ex : exists rd cs x, [/\
  standing (K := 1) (@exv 6) (@exn 6) (exA R 6) (exA R 6) (exSI R) 1%:M (xG R) 1%:M (xC R) rd cs ytg (xtg R) (xPC R),
  reduced_members (xrb1 R) rd 1%:M, List.Forall (fun s => chain_task 9 [:: 0%N] s \/ com_task (exA R 6) 9 s) [:: ybase yf] /\
  List.Forall (limb_task 9 [:: 0%N]) [:: ylimb yf; ylimb2 (- yf)] &
  yspace rd cs (ybase yf :: [::] ++ [:: ylimb yf; ylimb2 (- yf)]) = Some x /\ rb_sized (with_space (xrb1 R) x) 6 6 1].
Proof. by have [rd [cs [x [rbF [? ? ? ? ?]]]]] := C119_ex; exists rd, cs, x; split. Qed.

(* ---- three limb tasks ---- *)
Definition yus : seq (stask R 6 6) := [:: ylimb 0; ylimb2 0; ylimb yf].
Lemma yus_limb : List.Forall (limb_task 9 [:: 0%N]) yus.
Proof. by constructor; [exact: ylimb_limb|constructor; [exact: ylimb2_limb|constructor; [exact: ylimb_limb|]]]. Qed.
Lemma yus_u : List.Forall ykind ([:: ybase 0] ++ yus).
Proof. by constructor; [exact: ybase_u|constructor; [exact: ylimb_u|constructor; [exact: ylimb2_u|constructor; [exact: ylimb_u|]]]]. Qed.

Variable cs : contact_space R (6 * 1) (6 + 6).
Hypothesis eM : cs_AinvNC cs = M.
Lemma lam0 f : lam cs (ybase f) = xLam R. Proof. rewrite /lam /= eM; exact: inv_uniq y0_inv. Qed.
Lemma lam1 f : lam cs (ylimb f) = xLam R. Proof. rewrite /lam /= eM; exact: inv_uniq y1_inv. Qed.
Lemma lam2 f : lam cs (ylimb2 f) = L2. Proof. rewrite /lam /= eM; exact: inv_uniq y2_inv. Qed.

(* the reduced torque moves the limb, the full one leaves it at rest *)
Lemma y_red : racc cs 1%:M None (zip (classify 9 [:: 0%N] xpredT xpredT 0 0 [seq s_fl s | s <- ybase 0 :: yus]) (ybase 0 :: yus)) =
  tv 18 (fun i => nth 0 [:: 0; 0; 3%:R / 4%:R] i).
Proof.
rewrite /= /through /gforce !lam0 !lam1 !lam2 eM /= !mulmx0 !subr0 !mulmx0 !add0r addr0 !mul1mx.
have -> : (xJ1 R)^T *m (xLam R *m yf) = tv 18 (fun i => nth 0 [:: 3%:R / 2%:R; 0; 3%:R / 2%:R] i).
  by rewrite xJ1E tn_tr /xLam /yf (@tv_mul _ _ _ 1) // (@tv_mul _ _ _ 1) //; cellv 3%N.
have e : M *m tv (6 + 6 + 6) (fun i => nth 0 [:: 3%:R / 2%:R; 0; 3%:R / 2%:R] i) = tv (6 + 6 + 6) (fun i => nth 0 [:: 2%:R^-1; - 2%:R^-1; 2%:R^-1 : R] i).
  by rewrite (@tv_mul _ _ _ 3) //; cellv 3%N.
rewrite e.
have -> : xJ2 *m tv (6 + 6 + 6) (fun i => nth 0 [:: 2%:R^-1; - 2%:R^-1; 2%:R^-1 : R] i) = 0.
  by rewrite xJ2E (@tv_mul _ _ _ 3) // (tv_0 R 6); cellv 1%N.
rewrite !mulmx0 subr0 e mulmxBl mul1mx -!mulmxA.
have -> : xJ0 R *m tv (6 + 6 + 6) (fun i => nth 0 [:: 2%:R^-1; - 2%:R^-1; 2%:R^-1 : R] i) = tv 6 (fun _ => 2%:R^-1).
  by rewrite xJ0E (@tv_mul _ _ _ 3) //; cellv 1%N.
rewrite xJ0E tn_tr /xLam (@tv_mul _ _ _ 1) // (@tv_mul _ _ _ 1) // (@tv_mul _ _ _ 3) // tv_opp tv_add; cellv 3%N.
Qed.
Lemma y_moves : xJ1 R *m (tv 18 (fun i => nth 0 [:: 0; 0; 3%:R / 4%:R] i) : 'cV_(6 + 6 + 6)) = tv 6 (fun _ => 3%:R / 4%:R).
Proof. by rewrite xJ1E (@tv_mul _ _ _ 3) //; cellv 1%N. Qed.

(* accelerations of lower tasks with no demand, and of the repeated task below itself, vanish *)
Lemma below_itself N t (X : 'M[R]_N) (J0 J1 J2 : 'M[R]_(t, N)) (K0 K1 K2 : 'M[R]_t) (f : 'cV[R]_t) :
  J2 *m (X *m (J1^T *m (K1 *m f))) = 0 -> J1 *m (X *m (J1^T *m (K1 *m f))) = f ->
  1%:M *m (1%:M - X *m J0^T *m K0 *m J0) *m (1%:M - X *m J1^T *m K1 *m J1) *m (1%:M - X *m J2^T *m K2 *m J2) *m
    (X *m (J1^T *m (K1 *m f))) = 0.
Proof.
move=> e2 e1; set x := X *m (J1^T *m (K1 *m f)) in e1 e2 *.
rewrite -!mulmxA mul1mx [(1%:M - X *m (J2^T *m _)) *m x]mulmxBl mul1mx -!mulmxA e2 !mulmx0 subr0.
by rewrite [(1%:M - X *m (J1^T *m _)) *m x]mulmxBl mul1mx -!mulmxA e1 -/x subrr mulmx0.
Qed.
Lemma y_fullacc : accs cs 1%:M [seq as_task s | s <- ybase 0 :: yus] = 0.
Proof.
have e2 : xJ2 *m (M *m ((xJ1 R)^T *m (xLam R *m yf))) = 0.
  rewrite xJ1E xJ2E tn_tr /xLam /yf (@tv_mul _ _ _ 1) // (@tv_mul _ _ _ 1) // (@tv_mul _ _ _ 3) // (@tv_mul _ _ _ 3) // (tv_0 R 6); cellv 1%N.
have e1 : xJ1 R *m (M *m ((xJ1 R)^T *m (xLam R *m yf))) = yf.
  rewrite xJ1E tn_tr /xLam /yf (@tv_mul _ _ _ 1) // (@tv_mul _ _ _ 1) // (@tv_mul _ _ _ 3) // (@tv_mul _ _ _ 3) //; cellv 1%N.
have := @below_itself _ _ M (xJ0 R) (xJ1 R) xJ2 (xLam R) (xLam R) L2 yf e2 e1.
move: (lam0 0) (lam1 0) (lam2 0); rewrite /lam /= /tlam /= !mulmx0 !add0r addr0.
by rewrite eM => -> -> ->.
Qed.
End Ex.

(* C119 fails with three tasks on other limbs: the third disturbs the first, whose priority is higher *)
Theorem C119_refuted : forall R : realFieldType,
  exists (A : 'M[R]_(6 + 6 + 6)) SI G J (J_C : 'M[R]_(6 * 1, 6 + 6 + 6)) rd cs tg tgR PC rb link_num co_link left right rot ts us s x rbF ls,
  [/\ standing (K := 1) (@exv 6) (@exn 6) A A SI 1%:M G J J_C rd cs tg tgR PC /\ reduced_members rb rd rot,
      [/\ rotation rot, UpdateRobot (n := 6 + 6) A J_C G = Some rbF &
          CalcTaskSpace (rb_Ainv rbF) (rb_cs rbF) None [seq as_task y | y <- ts ++ s :: us] = Some ls],
      List.Forall (fun s => chain_task link_num co_link s \/ com_task A link_num s) ts /\ ts <> [::],
      List.Forall (limb_task link_num co_link) (s :: us) /\ size us = 2%N &
      ReducedCalcTaskSpace link_num co_link left right (base_jac 6 6 rot) (invmx A) (ReducedN_C (invmx A) J_C cs) cs rd (ts ++ s :: us) = Some x
      /\ [/\ rb_sized (with_space rb x) 6 6 1,
      (forall a f, contact_motion (n := 6 + 6) A J_C G (rb_tgrav rbF + CalcTaskControlTorque ls) a f -> s_J s *m (a : 'cV_(6 + 6 + 6)) = s_f s) &
      forall solver, exists res, ReducedCalcTaskControlTorque solver false (with_space rb x) = Some res /\ z_ok res /\
        forall a f, contact_motion (n := 6 + 6) A J_C G (tg + mx_of (6 + 6) 1 (z_task res)) a f -> s_J s *m (a : 'cV_(6 + 6 + 6)) <> s_f s]].
Proof.
move=> R; have [||rd [cs [x [std hm ex]]]] := y_setup (ybases 0) (@yus_limb R); [by []|exact: yus_u|].
have [rbF [hF [ecF eM eAi]]] := y_full R.
have units : List.Forall (fun k => tk_J k *m cs_AinvNC (rb_cs rbF) *m (tk_J k)^T \in unitmx) [seq as_task s | s <- ybase 0 :: yus R].
  have := yus_u R; rewrite eM -[[:: ybase 0] ++ yus R]/(ybase 0 :: yus R); move: (ybase 0 :: yus R) => l.
  by elim: l => [|s l IH] //= /List.Forall_cons_iff[u uu]; constructor; [|exact: IH].
have hA := exA_posdef R 6; have hCf := xC_free R; have hb := xC_base R.
have [ls [g1 _ g3 g4]] := full_levels hA hCf hb ecF (prev := None) (N := 1%:M) (P := 1%:M) (tau := 0) (conj erefl erefl)
  (etrans (mulmx1 _) (esym (mul1mx _))) units.
exists (exA R 6), (exSI R), (xG R), 1%:M, (xC R), rd, cs, (ytg R), (xtg R), (xPC R), (xrb1 R), 9%N, [:: 0%N], xpredT, xpredT, 1%:M.
exists [:: ybase 0], [:: ylimb2 0; ylimb (yf R)], (ylimb 0), x, rbF, ls; split.
- by split.
- by split=> //; [exact: ex_rot1|rewrite eAi].
- by split=> //; exact: ybases.
- by split=> //; exact: yus_limb.
split=> //; split; first exact: y_sized.
  move=> a f hmo; rewrite (full_acc hA hCf hb ecF hF erefl g1 units hmo) y_fullacc //; exact: mulmx0.
move=> solver.
have [sh hf] := kinds_shape std xpredT xpredT (ybases 0) (@yus_limb R) ltac:(by []).
have [res [e1 e2 e3 _]] := red_whole std solver (ex_rot1 R) hm ecF ex (y_sized x) sh hf.
exists res; split=> //; split=> // a f hmo.
rewrite (e3 _ _ hmo) y_red //= y_moves => /matrixP/(_ (Ordinal (isT : (2 < 6)%N)) 0).
by rewrite !mxE /= mul1r => /eqP; rewrite mulf_eq0 invr_eq0 !pnatr_eq0.
Qed.
Print Assumptions C118_defined.
Print Assumptions C118_contact_hierarchy.
Print Assumptions C119_two_limb_tasks_partial.
Print Assumptions C119_refuted.
Print Assumptions C120_top_task.
