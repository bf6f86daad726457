(* Concrete robots: non-vacuity witnesses for the dynamics theorems, the witness
   refuting C20, and the decoupled case in which it holds. *)
From mathcomp Require Import all_ssreflect all_algebra.
From mathcomp.algebra_tactics Require Import ring.
From Verif Require Import LinAlg Dyn_Model Dyn_Spec Dyn_Proofs.
Set Implicit Arguments.
Unset Strict Implicit.
Unset Printing Implicit Defensive.
Import Order.TTheory GRing.Theory Num.Theory.
Local Open Scope ring_scope.

Section Gen.
Variable R : realFieldType.

Lemma posdef1 n : posdef (1%:M : 'M[R]_n).
Proof.
split; first exact: trmx1.
by move=> x nx; rewrite /quad mulmx1 -/(dot x x) dot_gt0.
Qed.

(* What the factorisation must return always exists. *)
Lemma left_null_basis_ex n (W : 'M[R]_n) : exists k (V2 : 'M[R]_(k, n)), left_null_basis W V2.
Proof.
exists (\rank (kermx W)), (row_base (kermx W)); split.
- by apply/sub_kermxP; rewrite eq_row_base.
- exact: row_base_free.
- exact: mxrank_ker.
Qed.

(* Two feet: 12 contact rows, 7 joints; the first foot is moved by the first six joints,
   the second foot is rigidly attached to the base. *)
Definition J2 : 'M[R]_(6 + 6, 6 + (6 + 1)) := 
  block_mx 1%:M (row_mx 1%:M 0) 1%:M 0.

Lemma J2_free : row_free J2.
Proof.
apply/row_freeP; exists (block_mx 0 1%:M (col_mx 1%:M 0) (col_mx (- 1%:M) 0)).
rewrite /J2 mulmx_block !mul_row_col !mulmx1 !mul1mx !mulmx0 !mul0mx !addr0.
by rewrite add0r addrN -scalar_mx_block.
Qed.

Lemma J2_bottom : dsubmx (lsubmx J2) \in unitmx.
Proof. by rewrite /J2 block_mxEh row_mxKl col_mxKd unitmx1. Qed.

Lemma J2_base : contacts_fix_base J2.
Proof. exact: bottom_base J2_bottom. Qed.

(* One foot rigidly attached to the base, three free joints. *)
Definition J1 : 'M[R]_(6, 6 + 3) := row_mx 1%:M 0.

Lemma J1_free : row_free J1.
Proof.
apply/row_freeP; exists (col_mx 1%:M 0).
by rewrite /J1 mul_row_col mulmx1 mul0mx addr0.
Qed.

Lemma J1_base : contacts_fix_base J1.
Proof. by rewrite /contacts_fix_base /J1 row_mxKl mxrank1. Qed.

Section Rb1.
Variables (G : 'cV[R]_(6 + 3)) (rb : robot R 6 3).
Hypothesis h : UpdateRobot 1%:M J1 G = Some rb.

Lemma rb1E : [/\ rb_Ainv rb = 1%:M, cs_AinvNC (rb_cs rb) = block_mx 0 0 0 1%:M,
   cs_NC (rb_cs rb) = block_mx 0 0 0 1%:M & cs_W (rb_cs rb) = 1%:M /\ cs_Winv (rb_cs rb) = 1%:M].
Proof.
have [e0 _ _ [e1 e2 e3 e4 [e5 e6]]] := rbE (posdef1 _) J1_free h.
have iM : invmx (1%:M : 'M[R]_(6 + 3)) = 1%:M by exact: invmx1.
have l : cs_lambda (rb_cs rb) = 1%:M.
  rewrite e1 iM mulmx1 /J1 tr_row_mx mul_row_col trmx1 trmx0 mulmx1 mulmx0 addr0.
  exact: invmx1.
have nc : cs_NC (rb_cs rb) = block_mx 0 0 0 1%:M.
  rewrite e3 e2 l mul1mx iM mulmx1 /J1 tr_row_mx mul_col_row trmx1 trmx0 !mul1mx !mul0mx.
  rewrite (scalar_mx_block 6 3 1) opp_block_mx add_block_mx.
  by rewrite !subr0 subrr ?oppr0 ?addr0.
have an : cs_AinvNC (rb_cs rb) = block_mx 0 0 0 1%:M by rewrite e4 nc iM mul1mx.
have w : cs_W (rb_cs rb) = 1%:M by rewrite e5 an block_mxKdr.
by split; rewrite ?e0 //; split; rewrite // e6 w mpinv_unit ?unitmx1 // invmx1.
Qed.

(* a one dimensional joint task *)
Definition jtask (j : 'rV[R]_3) (f : R) : task R 3 := @Task R 3 1 (row_mx 0 j) f%:M.

Definition nrm (j : 'rV[R]_3) : R := sc (j *m j^T).

Lemma nrmE (j : 'rV[R]_3) : j *m j^T = (nrm j)%:M.
Proof. by rewrite [LHS]mx11_scalar. Qed.

Lemma jktask j f : nrm j != 0 ->
  exists Jkt Lt,
  CalculateJKT (tk_J (jtask j f)) (rb_Ainv rb) (cs_NC (rb_cs rb)) (cs_Winv (rb_cs rb)) = Some (Jkt, Lt)
  /\ Jkt *m Lt = (nrm j)^-1 *: j^T.
Proof.
move=> nz; have [-> _ -> [_ ->]] := rb1E.
rewrite /CalculateJKT /= !mulmx1 !mul_row_block !mul0mx !mulmx0 !addr0 !mulmx1 add0r.
rewrite tr_row_mx mul_row_col mul0mx add0r nrmE.
have u : ((nrm j)%:M : 'M[R]_1) \in unitmx by rewrite unitmxE det_scalar unitfE expf_neq0.
rewrite inverseE // invmx_scalar; do 2!eexists; split; first by reflexivity.
set Q := rsubmx _; have qE : Q = (nrm j)^-1 *: j.
  rewrite /Q mulmx1 mul_scalar_mx scale_row_mx mul_row_block !mulmx0 !addr0 add0r mulmx1.
  exact: row_mxKr.
have q2 : (nrm j)^-1 *: j *m ((nrm j)^-1 *: j^T) = (nrm j)^-1 *: 1%:M.
  by rewrite -scalemxAl -scalemxAr nrmE !scale_scalar_mx mulVf ?mulr1.
rewrite qE mulmx1 trZ mul1mx q2.
have u1 : ((nrm j)^-1 *: 1%:M : 'M[R]_1) \in unitmx.
  by rewrite scalemx1 unitmxE det_scalar unitfE expf_neq0 // invr_neq0.
rewrite (mpinv_unit u1) scalemx1 invmx_scalar invrK !mul_mx_scalar !scalerA.
by rewrite mulVf // mul1r.
Qed.

(* acceleration of a joint task under gravity compensation plus a torque *)
Lemma jacc j f (y : 'cV[R]_3) a g :
  contact_motion 1%:M J1 G (rb_tgrav rb + y) a g -> tk_J (jtask j f) *m a = j *m y.
Proof.
move=> hm; have := acc_extra (posdef1 _) J1_free h J1_base hm.
have [_ -> _ _] := rb1E; rewrite block_mxEh row_mxKr => -> /=.
by rewrite mul_col_mx mul_row_col mul0mx mul0mx add0r mul1mx.
Qed.

Lemma jnull j f Jkt Lt prev : Jkt *m Lt = (nrm j)^-1 *: j^T ->
  CalculateTaskNullSpace Jkt Lt (tk_J (jtask j f)) (cs_AinvNC (rb_cs rb)) prev =
  prev *m (1%:M - (nrm j)^-1 *: (j^T *m j)).
Proof.
move=> e; rewrite /CalculateTaskNullSpace; have [_ -> _ _] := rb1E.
rewrite e -!mulmxA block_mxEh row_mxKr /= mul_row_col mul0mx add0r mulmx1.
by rewrite scalemxAl.
Qed.

(* The whole cascade for three joint tasks. *)
Lemma cascade3 j1 j2 j3 f1 f2 f3 :
  nrm j1 != 0 -> nrm j2 != 0 -> nrm j3 != 0 ->
  exists ls, CalcTaskSpace (rb_Ainv rb) (rb_cs rb) None [:: jtask j1 f1; jtask j2 f2; jtask j3 f3] = Some ls
  /\ CalcTaskControlTorque ls =
     (nrm j1)^-1 *: j1^T *m f1%:M
     + (1%:M - (nrm j1)^-1 *: (j1^T *m j1)) *m ((nrm j2)^-1 *: j2^T *m f2%:M)
     + (1%:M - (nrm j1)^-1 *: (j1^T *m j1)) *m (1%:M - (nrm j2)^-1 *: (j2^T *m j2))
       *m ((nrm j3)^-1 *: j3^T *m f3%:M).
Proof.
move=> n1 n2 n3; cbn [CalcTaskSpace].
have [K1 [L1 [-> e1]]] := jktask f1 n1.
have [K2 [L2 [-> e2]]] := jktask f2 n2.
have [K3 [L3 [-> e3]]] := jktask f3 n3.
eexists; split; first by reflexivity.
rewrite /CalcTaskControlTorque; cbn [TaskTorqueLoop lv_task lv_Jkt lv_Lambda lv_Null].
by rewrite (jnull _ _ e2) !(jnull _ _ e1) e1 e2 e3 mul1mx.
Qed.
End Rb1.
Definition row3 (a b c : R) : 'rV[R]_3 := \row_i [:: a; b; c]`_i.

Lemma row3M a b c d e f : row3 a b c *m (row3 d e f)^T = (a * d + b * e + c * f)%:M.
Proof.
rewrite [LHS]mx11_scalar; congr (_%:M).
by rewrite !mxE !big_ord_recl big_ord0 !mxE /= addr0 addrA.
Qed.

Lemma nrm3 a b c : nrm (row3 a b c) = a * a + b * b + c * c.
Proof. by rewrite /nrm row3M /sc mxE eqxx mulr1n. Qed.

(* Level 3 disturbs level 2. *)
Lemma strict_priority_fails :
  exists (t1 t2 : task R 3) (J3 : 'M[R]_(1, 6 + 3)) (f3 f3' : 'cV[R]_1)
    (rb : robot R 6 3) (ls ls' : seq (level R 3)) a g a' g',
    [/\ UpdateRobot 1%:M J1 0 = Some rb,
      CalcTaskSpace (rb_Ainv rb) (rb_cs rb) None [:: t1; t2; Task J3 f3] = Some ls,
      CalcTaskSpace (rb_Ainv rb) (rb_cs rb) None [:: t1; t2; Task J3 f3'] = Some ls',
      contact_motion 1%:M J1 0 (rb_tgrav rb + CalcTaskControlTorque ls) a g /\
      contact_motion 1%:M J1 0 (rb_tgrav rb + CalcTaskControlTorque ls') a' g' &
      tk_J t2 *m a != tk_J t2 *m a'].
Proof.
have [rb [hrb _]] := UpdateRobotE 0 (posdef1 (6 + 3)) J1_free; move=> _ _ _.
pose j1 := row3 1 0 0; pose j2 := row3 1 1 0; pose j3 := row3 0 1 1.
have two : (1 + 1 : R) != 0 by rewrite -(natrD _ 1 1) pnatr_eq0.
have n1 : nrm j1 = 1 by rewrite nrm3; ring.
have n2 : nrm j2 = 1 + 1 by rewrite nrm3; ring.
have n3 : nrm j3 = 1 + 1 by rewrite nrm3; ring.
have z1 : nrm j1 != 0 by rewrite n1 oner_neq0.
have z2 : nrm j2 != 0 by rewrite n2.
have z3 : nrm j3 != 0 by rewrite n3.
have [ls [h1 e1]] := cascade3 hrb 0 0 0 z1 z2 z3.
have [ls' [h2 e2]] := cascade3 hrb 0 0 1 z1 z2 z3.
exists (jtask j1 0), (jtask j2 0), (row_mx 0 j3), 0%:M, 1%:M, rb, ls, ls'.
have [a [g m1]] := rb_motion_ex (posdef1 _) J1_free hrb (rb_tgrav rb + CalcTaskControlTorque ls).
have [a' [g' m2]] := rb_motion_ex (posdef1 _) J1_free hrb (rb_tgrav rb + CalcTaskControlTorque ls').
exists a, g, a', g'; split=> //.
have s0 : (0%:M : 'M[R]_1) = 0 by apply/matrixP=> i k; rewrite !mxE mul0rn.
rewrite (jacc hrb j2 0 m1) (jacc hrb j2 0 m2) e1 e2 !s0 !mulmx0 !addr0 mulmx0 add0r.
rewrite mulmx1 n1 n2 n3 invr1 scale1r eq_sym.
have x1 : j2 *m (1%:M - j1^T *m j1) = j2 - j1.
  by rewrite mulmxBr mulmx1 mulmxA row3M !mulr0 !addr0 mulr1 mul1mx.
have x2 : (j2 - j1) *m (1%:M - (1 + 1)^-1 *: (j2^T *m j2)) = j2 - j1 - (1 + 1)^-1 *: j2.
  rewrite mulmxBr mulmx1 -scalemxAr mulmxA mulmxBl !row3M !mulr0 !mulr1 !addr0 -raddfB /=.
  by rewrite addrK mul1mx.
rewrite !mulmxA x1 x2 -scalemxAr !mulmxBl -scalemxAl !row3M !mulr0 !mulr1 !add0r ?mul0r ?addr0.
rewrite scale_scalar_mx mulr1 -!raddfB /= scale_scalar_mx subr0.
have -> : (1 + 1)^-1 * (1 - (1 + 1)^-1) = ((1 + 1) * (1 + 1))^-1 :> R by field.
apply/eqP=> /matrixP/(_ 0 0); rewrite !mxE mulr1n => /eqP.
by rewrite invr_eq0 mulf_eq0 !(negPf two).
Qed.
End Gen.
