(* The robot of the C115 witness: RedM_Props's example with six contact joints, in numbers. *)
From mathcomp Require Import all_ssreflect all_algebra.
From mathcomp Require Import zify ring.
From Verif Require Import LinAlg Dyn_Model Dyn_Spec Dyn_Proofs RedM_Model RedM_Spec RedM_Proofs RedM_Props RTq_Ex.
Set Implicit Arguments.
Unset Strict Implicit.
Unset Printing Implicit Defensive.
Import Order.TTheory GRing.Theory Num.Theory.
Local Open Scope ring_scope.

Section NCEx.
Variable R : realFieldType.
Local Notation h := (3%:R^-1 : R).
Local Notation "[t L ]" := (tb L) (at level 0, format "[t  L ]").

Definition tA := tb [:: [:: 1; 0; 1]; [:: 0; 1; 0]; [:: 1; 0; 2%:R : R]].
Definition tS := tb [:: [:: 2%:R; 0; -1]; [:: 0; 1; 0]; [:: -1; 0; 1 : R]].
Definition tC := tb [:: [:: 1; 1; 0 : R]].
Definition tJc := tb [:: [:: 2%:R * h; h; - h]].
Definition tNC := tb [:: [:: h; - h; h]; [:: - (2%:R * h); 2%:R * h; h]; [:: 0; 0; 1]].
Definition tAN := tb [:: [:: 2%:R * h; - (2%:R * h); - h]; [:: - (2%:R * h); 2%:R * h; h]; [:: - h; h; 2%:R * h]].
Definition tW := tb [:: [:: 2%:R * h; h]; [:: h; 2%:R * h]].
Definition tWi := tb [:: [:: 2%:R; -1]; [:: -1; 2%:R : R]].

Ltac ground := rewrite ?big_ord_recr ?big_ord0 /tA /tS /tC /tJc /tNC /tAN /tW /tWi /tb /=; field; rewrite ?pnatr_eq0 //.
Ltac cells p q := apply: (@tn_ext _ _ _ p q) => // -[|[|[|?]]] // [|[|[|?]]] // _ _; ground.

Lemma exAE : exA R 6 = tn 18 18 tA.
Proof.
rewrite /exA /exK (tn_1 R 6) (tn_1 R (6 + 6)) (tn_0 R 6 6) (@tn_col R 6 6 6 1) // tn_tr tn_add.
rewrite (@tn_block R (6 + 6) 6 (6 + 6) 6 2 2) //.
cells 3%N 3%N.
Qed.
Lemma S_mul : tn 18 18 tA *m tn 18 18 tS = 1%:M.
Proof. rewrite (@tn_mul _ _ _ _ 3) // tn_1; cells 3%N 3%N. Qed.
Lemma SE : invmx (exA R 6) = tn 18 18 tS.
Proof. by rewrite exAE; apply: inv_uniq S_mul. Qed.

Definition xC : 'M[R]_(6 * 1, 6 + 6 + 6) := row_mx (row_mx 1%:M 1%:M) 0.
Lemma xCE : xC = tn 6 18 tC.
Proof.
rewrite /xC (tn_1 R 6) (tn_0 R 6 6) (@tn_row R 6 6 6 1) // (@tn_row R 6 (6 + 6) 6 2) //.
cells 1%N 3%N.
Qed.
Definition xG : 'cV[R]_(6 + 6 + 6) := tv 18 (fun i => if i is 0%N then 20%:R else 0).

(* the reduced model: J_I = 1 *)
Lemma x_red : exists rd, [/\ ReducedDynamics (@exv 6) (@exn 6) (invmx (exA R 6)) (exA R 6) (exSI R) 1%:M xG = Some rd,
  rd_JI rd = 1%:M /\ rd_ARinv rd = tn 18 18 tS, rd_AR rd = tn 18 18 tA, rd_JIinvT rd = 1%:M /\ rd_NI rd = 0 & rd_GR rd = xG].
Proof.
have [rd [h0 [h1 h2 h3] h4 [h5 h6] [h7 h8]]] := red_facts (ex_lead 6) xG (exA_posdef R 6) (ex_carried R 6) (ex_rot1 R) (ex_J R 6) (ex_free R).
have one : (block_mx 1%:M 0 0 1%:M : 'M[R]_(6 + 6 + 6)) = 1%:M by rewrite -scalar_mx_block.
rewrite one trmx1 mulmx1 mul1mx in h3 h4 h5.
have uA := posdef_unit (exA_posdef R 6).
rewrite invmxK in h4; rewrite h4 mulmx1 mulmxV // in h5.
have eI : rd_JIinvT rd = 1%:M.
  have := etrans (esym h6) h5; rewrite -one => /eq_block_mx[] //.
exists rd; split=> //; first by rewrite h3 SE.
- by rewrite h4 exAE.
- by rewrite h8 eI trmx1 mulmx1 subrr.
by rewrite h7 h5 mul1mx.
Qed.

Lemma xC_chains : contacts_on_chains xC. Proof. by rewrite /contacts_on_chains row_mxKr. Qed.
Lemma xC_free : row_free xC.
Proof.
apply/row_freeP; exists (col_mx (col_mx 1%:M 0) 0).
by rewrite mul_row_col mulmx0 addr0 mul_row_col mulmx0 addr0 mulmx1.
Qed.
Lemma xC_base : contacts_fix_base (n := 6 + 6) xC.
Proof.
rewrite /contacts_fix_base.
have -> : lsubmx (xC : 'M_(6, 6 + (6 + 6))) = 1%:M; last by rewrite mxrank1.
rewrite xCE; apply: etrans (@tn_l R 6 6 (6 + 6) tC) _; rewrite (tn_1 R 6); cells 1%N 1%N.
Qed.

Local Notation Z := (6 + (6 + 6))%N.
Lemma x_contact rd : ReducedDynamics (@exv 6) (@exn 6) (invmx (exA R 6)) (exA R 6) (exSI R) 1%:M xG = Some rd ->
  exists cs, [/\ ReducedCalcContactConstraint (invmx (exA R 6)) xC rd = Some cs, cs_JCinvT cs = tn (6 * 1) Z tJc,
    cs_NC cs = tn Z Z tNC, cs_AinvNC cs = tn Z Z tAN & cs_Winv cs = tn (6 + 6) (6 + 6) tWi].
Proof.
move=> erd; have [rd' [h0 [h1 h2] h3 [h4 h5] h6]] := x_red.
have ? : rd' = rd by move: erd; rewrite h0 => -[].
subst rd'.
have [cs [rb [v1 v2 v3 v4 v5]]] := C82_contact_partial (ex_lead 6) (exA_posdef R 6) (ex_carried R 6) (ex_rot1 R) (ex_J R 6) (ex_free R)
  erd xC_chains xC_free (isT : (6 <= 6 * 1 <= 6 + 6)%N).
have pA : posdef (rd_AR rd) by rewrite h3 -exAE; exact: exA_posdef.
have eJ : J_CR xC = tn (6 * 1) Z tC.
  rewrite /J_CR xCE; have -> : lsubmx (tn 6 18 tC : 'M_(6 * 1, 6 + 6 + 6)) = tn (6 * 1) (6 + 6) tC := @tn_l R 6 (6 + 6) 6 tC.
  rewrite (tn_0 R (6 * 1) 6) (@tn_row R (6 * 1) (6 + 6) 6 2) //; cells 1%N 3%N.
have [u1 u2 u3 [u4 u5 u6 u7 [u8 u9]]] := rbE pA (JCR_free 1%:M xC_chains xC_free) v2.
have eAi : invmx (rd_AR rd) = tn Z Z tS by rewrite h3 -exAE SE.
rewrite v3 eAi eJ in u4 u5 u6 u7 u8 u9.
have eL : cs_lambda cs = tn (6 * 1) (6 * 1) (tb [:: [:: h]]).
  rewrite u4 (@tn_mul _ _ _ _ 3) // tn_tr (@tn_mul _ _ _ _ 3) //; apply: inv_uniq.
  rewrite (@tn_mul _ _ _ _ 1) // tn_1; cells 1%N 1%N.
have eJc : cs_JCinvT cs = tn (6 * 1) Z tJc.
  rewrite u5 eL (@tn_mul _ _ _ _ 1) // (@tn_mul _ _ _ _ 3) //; cells 1%N 3%N.
have eN : cs_NC cs = tn Z Z tNC.
  rewrite u6 eJc tn_tr (@tn_mul _ _ _ _ 1) // tn_opp tn_1 tn_add; cells 3%N 3%N.
have eAN : cs_AinvNC cs = tn Z Z tAN.
  rewrite u7 eN (@tn_mul _ _ _ _ 3) //; cells 3%N 3%N.
exists cs; split=> //; rewrite u9 u8 eAN /drsubmx (@tn_d R 6 (6 + 6) _ 1) // (@tn_r R _ 6 (6 + 6) 1) //.
set X := tn _ _ _.
have e1 : X *m tn (6 + 6) (6 + 6) tWi = 1%:M.
  rewrite (@tn_mul _ _ _ _ 2) // tn_1; cells 2%N 2%N.
by rewrite mpinv_unit ?(unit_of e1) // (inv_uniq e1).
Qed.

(* torque_grav_R_ and P_CR: -20 on the vertical contact joint; the contact carries the weight *)
Definition xtg : 'cV[R]_(6 + 6) := tv 12 (fun i => if i is 0%N then - 20%:R else 0).
Definition xPC : 'cV[R]_(6 * 1) := tv 6 (fun _ => 40%:R * h).
Ltac cellv p := apply: (@tv_ext _ _ p) => // -[|[|[|?]]] // _; ground.
Lemma x_grav rd cs : ReducedDynamics (@exv 6) (@exn 6) (invmx (exA R 6)) (exA R 6) (exSI R) 1%:M xG = Some rd ->
  ReducedCalcContactConstraint (invmx (exA R 6)) xC rd = Some cs ->
  ReducedCalcGravCompensation xG rd cs = Some (col_mx (usubmx xtg) (dsubmx xG), xtg, xPC).
Proof.
move=> erd ecs; have [rd' [h0 [h1 h2] h3 [h4 h5] h6]] := x_red.
have ? : rd' = rd by move: erd; rewrite h0 => -[].
subst rd'; have [cs' [k0 k1 k2 k3 k4]] := x_contact erd.
have ? : cs' = cs by move: ecs; rewrite k0 => -[].
subst cs'; rewrite /ReducedCalcGravCompensation /= k4 h6 h2 k2 k1.
have -> : tn Z Z tNC *m (xG : 'cV_Z) = tv Z (fun i => nth 0 [:: 20%:R * h; - (40%:R * h); 0] i).
  rewrite /xG (@tv_mul _ _ Z 3) //; cellv 3%N.
have -> : dsubmx (tn 18 18 tS : 'M_Z) = tn (6 + 6) Z (fun i j => tS i.+1 j) by rewrite (@tn_d R 6 (6 + 6) _ 1).
have -> : tn (6 * 1) Z tJc *m (xG : 'cV_Z) = xPC.
  rewrite /xG (@tv_mul _ _ Z 3) //; rewrite /xPC; cellv 1%N.
rewrite (@tv_mul _ _ _ 3) // (@tv_mul _ _ _ 2) //.
have -> : xtg = tv (6 + 6) (fun i => \sum_(l < 2) tWi i l * (\sum_(l0 < 3) tS l.+1 l0 * [:: 20%:R * h; - (40%:R * h); 0]`_l0)); last by [].
rewrite /xtg; cellv 2%N.
Qed.
(* the base task and the base torque map *)
Definition xJ0 : 'M[R]_(6, 6 + 6 + 6) := row_mx (row_mx 1%:M 0) 0.
Definition xJkt : 'M[R]_(6 + 6, 6) := tn 12 6 (tb [:: [:: -1]; [:: 0]]).
Definition xLam : 'M[R]_6 := tn 6 6 (tb [:: [:: 3%:R / 2%:R]]).
Definition xNull : 'M[R]_(6 + 6) := tn 12 12 (tb [:: [:: 0; - (2%:R^-1)]; [:: 0; 1]]).
Definition xbase : 'M[R]_(6, Z) := row_mx 1%:M 0.
Lemma xbaseE : xbase = tn 6 Z (tb [:: [:: 1; 0; 0]]).
Proof. rewrite /xbase (tn_1 R 6) (tn_0 R 6 (6 + 6)) (@tn_row R 6 6 (6 + 6) 1) //; cells 1%N 3%N. Qed.
Lemma x_base_task : (row_mx (lsubmx xJ0) 0 : 'M[R]_(6, 6 + 6 + 6)) = xbase.
Proof.
rewrite xbaseE /xJ0 row_mxKl (tn_1 R 6) (tn_0 R 6 6) (@tn_row R 6 6 6 1) // (@tn_row R 6 (6 + 6) 6 2) //; cells 1%N 3%N.
Qed.
Lemma x_jkt : CalculateJKT xbase (tn Z Z tS) (tn Z Z tNC) (tn (6 + 6) (6 + 6) tWi) = Some (xJkt, xLam).
Proof.
rewrite /CalculateJKT xbaseE.
have -> : tn 6 Z (tb [:: [:: 1; 0; 0]]) *m tn Z Z tS *m tn Z Z tNC = tn 6 Z (fun _ j => tAN 0 j).
  rewrite (@tn_mul _ _ _ _ 3) // (@tn_mul _ _ _ _ 3) //; cells 1%N 3%N.
have e1 : tn 6 Z (fun _ j => tAN 0 j) *m (tn 6 Z (tb [:: [:: 1; 0; 0]]))^T *m xLam = 1%:M.
  rewrite tn_tr (@tn_mul _ _ _ _ 3) // (@tn_mul _ _ _ _ 1) // tn_1; cells 1%N 1%N.
rewrite inverseE ?(unit_of e1) // (inv_uniq e1).
have -> : xLam *m tn 6 Z (tb [:: [:: 1; 0; 0]]) *m tn Z Z tS *m tn Z Z tNC = tn 6 Z (tb [:: [:: 1; -1; - (2%:R^-1)]]).
  rewrite /xLam (@tn_mul _ _ _ _ 1) // (@tn_mul _ _ _ _ 3) // (@tn_mul _ _ _ _ 3) //; cells 1%N 3%N.
rewrite (@tn_r R 6 6 (6 + 6) 1) // tn_tr.
set Q := tn 6 (6 + 6) _; set Qt := tn (6 + 6) 6 _.
have e2 : Q *m tn (6 + 6) (6 + 6) tWi *m Qt *m tn 6 6 (tb [:: [:: 2%:R / 3%:R]]) = 1%:M.
  rewrite (@tn_mul _ _ _ _ 2) // (@tn_mul _ _ _ _ 2) // (@tn_mul _ _ _ _ 1) // tn_1; cells 1%N 1%N.
rewrite mpinv_unit ?(unit_of e2) // (inv_uniq e2) (@tn_mul _ _ _ _ 2) // (@tn_mul _ _ _ _ 1) //; congr (Some (_, _)).
rewrite /xJkt; cells 2%N 1%N.
Qed.
Lemma x_null : CalculateTaskNullSpace xJkt xLam xbase (tn Z Z tAN) 1%:M = xNull.
Proof.
rewrite /CalculateTaskNullSpace mul1mx xbaseE (@tn_r R Z 6 (6 + 6) 1) // /xJkt /xLam.
rewrite (@tn_mul _ _ _ _ 1) // (@tn_mul _ _ _ _ 1) // (@tn_mul _ _ _ _ 3) // tn_opp (tn_1 R (6 + 6)) tn_add /xNull.
cells 2%N 2%N.
Qed.

(* the non-contact task *)
Definition xJ1 : 'M[R]_(6, 6 + 6 + 6) := row_mx (row_mx 1%:M 0) 1%:M.
Lemma xJ1E : xJ1 = tn 6 18 (tb [:: [:: 1; 0; 1]]).
Proof.
rewrite /xJ1 (tn_1 R 6) (tn_0 R 6 6) (@tn_row R 6 6 6 1) // (@tn_row R 6 (6 + 6) 6 2) //; cells 1%N 3%N.
Qed.
Lemma x_AN : invmx (exA R 6) *m (1%:M - xC^T *m (invmx (xC *m invmx (exA R 6) *m xC^T) *m xC *m invmx (exA R 6))) = tn 18 18 tAN.
Proof.
rewrite SE xCE tn_tr (@tn_mul _ _ _ _ 3) // (@tn_mul _ _ _ _ 3) //.
have -> : invmx (tn 6 6 (fun i j => \sum_(l < 3) (\sum_(l0 < 3) tC i l0 * tS l0 l) * tC j l)) = tn 6 6 (tb [:: [:: h]]).
  by apply: inv_uniq; rewrite (@tn_mul _ _ _ _ 1) // tn_1; cells 1%N 1%N.
rewrite (@tn_mul _ _ _ _ 1) // (@tn_mul _ _ _ _ 3) // (@tn_mul _ _ _ _ 1) // tn_opp (tn_1 R (6 + 6 + 6)) tn_add (@tn_mul _ _ _ _ 3) //.
cells 3%N 3%N.
Qed.
Lemma x_lam1 : inverse (xJ1 *m tn 18 18 tAN *m xJ1^T) = Some xLam.
Proof.
have e : xJ1 *m tn 18 18 tAN *m xJ1^T *m xLam = 1%:M.
  rewrite xJ1E tn_tr (@tn_mul _ _ _ _ 3) // (@tn_mul _ _ _ _ 3) // (@tn_mul _ _ _ _ 1) // tn_1; cells 1%N 1%N.
by rewrite inverseE ?(unit_of e) // (inv_uniq e).
Qed.
Definition xf : 'cV[R]_6 := tv 6 (fun _ => - (200%:R / 3%:R)).
(* J_task' Lambda f*: -100 along z on the base and on the six joints *)
Lemma x_T : xJ1^T *m (xLam *m xf) = tv 18 (fun i => nth 0 [:: - 100%:R; 0; - 100%:R] i).
Proof.
rewrite xJ1E tn_tr /xLam /xf (@tv_mul _ _ _ 1) // (@tv_mul _ _ _ 1) //; cellv 3%N.
Qed.
Lemma x_Nb : xNull *m xJkt = 0.
Proof. rewrite /xNull /xJkt (@tn_mul _ _ _ _ 2) // (tn_0 R (6 + 6) 6); cells 2%N 1%N. Qed.
(* contact force of gravity torque alone, and with the torque (50, -100) of the non-contact task *)
Lemma x_stand : tn (6 * 1) Z tJc *m col_mx 0 xtg - xPC = tv (6 * 1) (fun _ => - 20%:R).
Proof.
rewrite (tv_0 R 6) /xtg /xPC (@tv_col R 6 (6 + 6) 1) // (@tv_mul _ _ _ 3) // tv_opp tv_add; cellv 1%N.
Qed.
Definition xnR : 'cV[R]_(6 + 6) := xNull *m col_mx (usubmx xJkt *m tv 6 (fun _ => - 100%:R)) (tv 6 (fun _ => - 100%:R)).
Lemma x_lift : tn (6 * 1) Z tJc *m col_mx 0 (xtg + xnR) - xPC = tv (6 * 1) (fun _ => 30%:R).
Proof.
rewrite /xnR /xJkt (@tn_u R 6 6) (@tv_mul _ _ _ 1) // (@tv_col R 6 6 1) // (@tv_mul _ _ _ 2) //.
rewrite (tv_0 R 6) /xtg /xPC tv_add (@tv_col R 6 (6 + 6) 1) // (@tv_mul _ _ _ 3) // tv_opp tv_add; cellv 1%N.
Qed.
End NCEx.
