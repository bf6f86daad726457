(* Accelerations of the task torques: a J_kt Lambda torque gives the least-energy acceleration, in the full robot and
   in the reduced model alike. *)
From mathcomp Require Import all_ssreflect all_algebra.
From mathcomp Require Import zify.
From Verif Require Import LinAlg Dyn_Model Dyn_Spec Dyn_Proofs RedM_Model RedM_Spec RedM_Proofs.
Set Implicit Arguments.
Unset Strict Implicit.
Unset Printing Implicit Defensive.
Import Order.TTheory GRing.Theory Num.Theory.
Local Open Scope ring_scope.

Section One.
Variable R : realFieldType.
Variables (m n : nat) (A : 'M[R]_(6 + n)) (J : 'M[R]_(m, 6 + n)) (cs : contact_space R m n).
Hypotheses (hA : posdef A) (hJ : row_free J) (hb : contacts_fix_base J).
Hypothesis ecs : CalculateContactConstraint J (invmx A) = Some cs.
Local Notation M := (cs_AinvNC cs).
Local Notation Wi := (cs_Winv cs).

Lemma ccE : [/\ cs_lambda cs = invmx (J *m invmx A *m J^T), cs_JCinvT cs = cs_lambda cs *m J *m invmx A,
   cs_NC cs = 1%:M - J^T *m cs_JCinvT cs, M = invmx A *m cs_NC cs &
   cs_W cs = drsubmx M /\ Wi = mpinv (cs_W cs)].
Proof.
move: ecs; rewrite /CalculateContactConstraint; case e: (inverse _) => [l|] // [<-] /=.
by have [_ ->] := inverseP e.
Qed.
Let e1 := let: And5 a _ _ _ _ := ccE in a.
Let e2 := let: And5 _ a _ _ _ := ccE in a.
Let e3 := let: And5 _ _ a _ _ := ccE in a.
Let e4 := let: And5 _ _ _ a _ := ccE in a.
Let e5 := let: And5 _ _ _ _ (conj a _) := ccE in a.
Let e6 := let: And5 _ _ _ _ (conj _ a) := ccE in a.

Lemma M_sym : M^T = M.
Proof. by have := ANs hA hJ erefl erefl e1 e2 e3 e4. Qed.
Lemma M_pin : M *m A *m M = M.
Proof. exact: (ANAAN hA hJ erefl erefl e1 e2 e3 e4). Qed.
Lemma M_psd : psd M.
Proof. exact: (ANpsd hA hJ erefl erefl e1 e2 e3 e4). Qed.
Lemma J_M : J *m M = 0.
Proof. exact: (JAN hA hJ erefl erefl e1 e2 e3 e4). Qed.

(* the accelerations of the contact-consistent motions are those of joint torques *)
Lemma reach p (F : 'M[R]_(6 + n, p)) : M *m F = rsubmx M *m (Wi *m dsubmx (M *m F)).
Proof.
apply: mx_colP => x; rewrite -!mulmxA.
have -> : dsubmx (M *m F) *m x = dsubmx (M *m (F *m x)) by rewrite mul_dsub_mx mulmxA.
move: (F *m x) => y.
apply/eqP; rewrite -subr_eq0; apply/eqP; apply: (still_joint_base hb).
  by rewrite mulmxBr mulmxA J_M mul0mx mulmxA mulmx_rsub J_M linear0 mul0mx subrr.
rewrite /joint_acc linearB /= -[dsubmx (M *m y) in X in X - _]mul_dsub_mx.
have w := WWiS hA hJ erefl erefl e1 e2 e3 e4 e5 e6 erefl.
have wm := Wmul e5 (erefl (rsubmx M)).
by rewrite -wm -[in LHS]mul_dsub_mx !mulmxA w subrr.
Qed.

Section Task.
Variables (t : nat) (Jt : 'M[R]_(t, 6 + n)) (Jkt : 'M[R]_(n, t)) (Lt : 'M[R]_t).
Hypothesis ejk : CalculateJKT Jt (invmx A) (cs_NC cs) Wi = Some (Jkt, Lt).

Lemma jktE : [/\ Jt *m M *m Jt^T \in unitmx, Lt = invmx (Jt *m M *m Jt^T), Lt^T = Lt &
  Jkt = Wi *m (rsubmx (Lt *m Jt *m M))^T *m mpinv (rsubmx (Lt *m Jt *m M) *m Wi *m (rsubmx (Lt *m Jt *m M))^T)].
Proof.
move: ejk; rewrite /CalculateJKT.
have a1 : Jt *m invmx A *m cs_NC cs = Jt *m M by rewrite e4 mulmxA.
rewrite a1; case e: (inverse _) => [l|] // [<- <-]; have [u ->] := inverseP e.
have a2 X : X *m Jt *m invmx A *m cs_NC cs = X *m Jt *m M by rewrite e4 !mulmxA.
rewrite a2; split=> //; by rewrite trmx_inv !trmx_mul trmxK M_sym mulmxA.
Qed.

Lemma task_acc : rsubmx M *m (Jkt *m Lt) = M *m Jt^T *m Lt.
Proof.
have [u eL sL ->] := jktE; set Q := rsubmx (Lt *m _ *m _).
have uL : Lt \in unitmx by rewrite eL unitmx_inv.
have Qt : Q^T = dsubmx (M *m (Jt^T *m Lt)).
  by rewrite /Q trmx_rsub !trmx_mul M_sym sL mulmxA.
have X : M *m Jt^T *m Lt = rsubmx M *m (Wi *m Q^T) by rewrite Qt -reach mulmxA.
have q : Q *m Wi *m Q^T = Lt.
  have one : Jt *m (M *m Jt^T *m Lt) = 1%:M by rewrite eL !mulmxA mulmxV.
  have := congr1 (fun Y => Lt *m Y) one; rewrite X mulmx1 => <-.
  by rewrite /Q -mulmx_rsub !mulmxA.
by rewrite q mpinv_unit // X -!mulmxA mulVmx // mulmx1.
Qed.

(* the null-space matrix on accelerations *)
Lemma null_acc (N : 'M[R]_n) (P : 'M[R]_(6 + n)) : rsubmx M *m N = P *m rsubmx M ->
  rsubmx M *m CalculateTaskNullSpace Jkt Lt Jt M N = P *m (1%:M - M *m Jt^T *m Lt *m Jt) *m rsubmx M.
Proof.
move=> h; rewrite /CalculateTaskNullSpace mulmxA h -!mulmxA; congr (_ *m _).
rewrite mulmxBr mulmx1 mulmxBl mul1mx; congr (_ - _).
by rewrite !mulmxA -(mulmxA _ Jkt) task_acc.
Qed.
End Task.
End One.

(* the reduced model *)
Section Red.
Variable R : realFieldType.
Variables c n m : nat.
Variables (A : 'M[R]_(6 + c + n)) (J : 'M[R]_(6, n)) (J_C : 'M[R]_(m, 6 + c + n)) (rd : reduced R c n).
Let JR : 'M[R]_(6 + c + 6, 6 + c + n) := block_mx 1%:M 0 0 J.
Hypotheses (hA : posdef A) (hJ : row_free J) (hC : contacts_on_chains J_C) (hCf : row_free J_C)
  (hb : contacts_fix_base (n := c + n) J_C).
Hypotheses (r1 : rd_JI rd = J) (r2 : rd_ARinv rd = JR *m invmx A *m JR^T) (r3 : rd_AR rd = invmx (rd_ARinv rd))
  (r4 : rd_JRinvT rd = rd_AR rd *m JR *m invmx A) (r5 : rd_JRinvT rd = block_mx 1%:M 0 0 (rd_JIinvT rd))
  (r7 : rd_NI rd = 1%:M - J^T *m rd_JIinvT rd).
Variables (cs : contact_space R m (c + n)) (cR : contact_space R m (c + 6)).
Hypotheses (ecs : CalculateContactConstraint (n := c + n) J_C (invmx A) = Some cs)
  (ecR : CalculateContactConstraint (n := c + 6) (J_CR J_C) (rd_ARinv rd) = Some cR).
Local Notation M := (cs_AinvNC cs : 'M[R]_(6 + c + n)).
Local Notation MR := (cs_AinvNC cR : 'M[R]_(6 + c + 6)).

Let r3' : rd_AR rd = invmx (JR *m invmx A *m JR^T). Proof. by rewrite r3 r2. Qed.
Let pAR : posdef (rd_AR rd). Proof. exact: (ARpd hA hJ r3'). Qed.
Let iAR : invmx (rd_AR rd) = rd_ARinv rd. Proof. by rewrite r3 invmxK. Qed.
Let fC : row_free (J_CR J_C). Proof. exact: (JCR_free J hC hCf). Qed.
Let hbR : contacts_fix_base (n := c + 6) (J_CR J_C). Proof. exact: JCR_base hb. Qed.
Let ecR' : CalculateContactConstraint (n := c + 6) (J_CR J_C) (invmx (rd_AR rd)) = Some cR.
Proof. by rewrite iAR. Qed.

(* the constrained mobility of the reduced model is the projection of the full one *)
Lemma MR_eq : MR = JR *m M *m JR^T.
Proof.
have [a1 a2 a3 a4 _] := ccE ecs; have [b1 b2 b3 b4 _] := ccE ecR'.
have eJ := JC_split J hC; rewrite -/JR in eJ.
have la : cs_lambda cR = cs_lambda cs by rewrite b1 a1 iAR r2 lambda_eq.
have i1 X : (X *m rd_ARinv rd) = X *m JR *m invmx A *m JR^T by rewrite r2 !mulmxA.
have i2 (X : 'M[R]_(m, 6 + c + 6)) : X *m (1%:M : 'M_(6 + c + 6)) = X by rewrite mulmx1.
have b : MR = rd_ARinv rd *m (1%:M - (J_CR J_C)^T *m (cs_lambda cR *m J_CR J_C *m rd_ARinv rd)).
  by rewrite b4 b3 b2 iAR.
have a : M = invmx A *m (1%:M - J_C^T *m (cs_lambda cs *m J_C *m invmx A)) by rewrite a4 a3 a2.
rewrite b a la r2.
move: eJ; move: (J_CR J_C) => X eX; rewrite eX.
rewrite !(mulmxBl, mulmxBr) !mulmx1 trmx_mul !mulmxA; congr (_ - _).
Qed.

Lemma JR_act (tR : 'cV[R]_(c + 6)) tN : actuate (distribute rd tR tN) =
  JR^T *m (actuate tR : 'cV_(6 + c + 6)) + col_mx 0 (rd_NI rd *m tN) :> 'cV[R]_(6 + c + n).
Proof.
rewrite /distribute -[in RHS](vsubmxK tR) !act_split /JR tr_block_mx trmx1 !linear0 r1.
by rewrite mul_block_col !mul0mx mul1mx addr0 add0r add_col_mx addr0.
Qed.

(* null-space torques of the other joints do not move the reduced model *)
Lemma JR_null (tN : 'cV[R]_n) : JR *m (M *m col_mx 0 (rd_NI rd *m tN)) = 0.
Proof.
have [a1 a2 a3 a4 _] := ccE ecs.
have x : rd_JRinvT rd *m (col_mx 0 (rd_NI rd *m tN) : 'cV_(6 + c + n)) = 0.
  rewrite r5 mul_block_col !mul0mx !mulmx0 addr0 add0r r7 mulmxA mulmxBr mulmx1 mulmxA.
  by rewrite (JIJ hA hJ r3' r4 r5) mul1mx subrr mul0mx col_mx0.
have y : JR *m invmx A *m (col_mx 0 (rd_NI rd *m tN) : 'cV_(6 + c + n)) = 0.
  move: x; rewrite r4 -!mulmxA => /(congr1 (mulmx (rd_ARinv rd))); rewrite mulmx0 mulmxA r3 mulmxV ?mul1mx //.
  by rewrite r2 AR_unit.
have eJ := JC_split J hC; rewrite -/JR in eJ.
have a : M = invmx A *m (1%:M - J_C^T *m (cs_lambda cs *m J_C *m invmx A)) by rewrite a4 a3 a2.
rewrite a mulmxBr mulmx1 mulmxBl mulmxBr !mulmxA y.
have -> : JR *m invmx A *m J_C^T *m cs_lambda cs *m J_C *m invmx A *m col_mx 0 (rd_NI rd *m tN) =
   JR *m invmx A *m J_C^T *m cs_lambda cs *m J_CR J_C *m (JR *m invmx A *m (col_mx 0 (rd_NI rd *m tN) : 'cV_(6 + c + n))).
  by rewrite {2}eJ !mulmxA.
by rewrite y mulmx0 subrr.
Qed.

(* two generalised forces of the reduced model that give it the same acceleration give the robot the same *)
Lemma lift_acc p (x y : 'M[R]_(6 + c + 6, p)) : MR *m x = MR *m y -> M *m JR^T *m x = M *m JR^T *m y.
Proof.
move=> h; apply/eqP; rewrite -subr_eq0 -mulmxBr; apply/eqP.
have {h} : MR *m (x - y) = 0 by rewrite mulmxBr h subrr.
rewrite MR_eq; move: (x - y) => z h; apply: mx_colP => v; rewrite mul0mx -!mulmxA.
apply: (psd_quad0 (M_psd hA hCf ecs)); rewrite /quad !trmx_mul trmxK -!mulmxA.
have -> : JR *m (M *m (JR^T *m (z *m v))) = 0 by rewrite !mulmxA h mul0mx.
by rewrite !mulmx0 sc0.
Qed.

Section Task.
Variables (t : nat) (Jt : 'M[R]_(t, 6 + c + n)) (JtR : 'M[R]_(t, 6 + c + 6)).
Hypothesis eJt : Jt = JtR *m JR.

Lemma task_lambda : JtR *m MR *m JtR^T = Jt *m M *m Jt^T.
Proof. by rewrite eJt MR_eq trmx_mul !mulmxA. Qed.

Variables (Jkt : 'M[R]_(c + 6, t)) (Lt : 'M[R]_t).
Hypothesis ejk : CalculateJKT (n := c + 6) JtR (rd_ARinv rd) (cs_NC cR) (cs_Winv cR) = Some (Jkt, Lt).

Lemma red_task_acc (f : 'cV[R]_t) : M *m JR^T *m (actuate (Jkt *m Lt *m f) : 'cV_(6 + c + 6)) = M *m Jt^T *m (Lt *m f).
Proof.
have ejk' : CalculateJKT (n := c + 6) JtR (invmx (rd_AR rd)) (cs_NC cR) (cs_Winv cR) = Some (Jkt, Lt) by rewrite iAR.
have h := task_acc pAR fC hbR ecR' ejk'.
have <- : JR^T *m JtR^T = Jt^T by rewrite eJt trmx_mul.
rewrite -[RHS]mulmxA -(mulmxA JR^T) mulmxA; apply: lift_acc.
rewrite (mul_actuate (n := c + 6) (cs_AinvNC cR)) [LHS]mulmxA h.
by rewrite -!mulmxA.
Qed.

Lemma red_null_acc (N : 'M[R]_(c + 6)) (P : 'M[R]_(6 + c + n)) :
  (forall x, M *m JR^T *m (actuate (N *m x) : 'cV_(6 + c + 6)) = P *m (M *m JR^T *m (actuate x : 'cV_(6 + c + 6)))) ->
  forall x, M *m JR^T *m (actuate (CalculateTaskNullSpace Jkt Lt JtR (cs_AinvNC cR) N *m x) : 'cV_(6 + c + 6)) =
    P *m (1%:M - M *m Jt^T *m Lt *m Jt) *m (M *m JR^T *m (actuate x : 'cV_(6 + c + 6))).
Proof.
move=> h x; rewrite /CalculateTaskNullSpace -[N *m _ *m x]mulmxA h -[RHS]mulmxA; congr (_ *m _).
have actB (a b : 'cV[R]_(c + 6)) : actuate (a - b) = actuate a - actuate b :> 'cV_(6 + c + 6).
  by rewrite /actuate opp_col_mx add_col_mx subrr.
rewrite mulmxBl mul1mx actB mulmxBr mulmxBl mul1mx; congr (_ - _).
have -> : Jkt *m Lt *m JtR *m rsubmx (cs_AinvNC cR) *m x = Jkt *m Lt *m (JtR *m (MR *m (actuate x : 'cV_(6 + c + 6)))).
  by rewrite (mul_actuate (n := c + 6) (cs_AinvNC cR)) !mulmxA.
rewrite red_task_acc MR_eq.
have -> : JtR *m (JR *m M *m JR^T *m (actuate x : 'cV_(6 + c + 6))) = Jt *m (M *m JR^T *m (actuate x : 'cV_(6 + c + 6))).
  by rewrite eJt !mulmxA.
by rewrite !mulmxA.
Qed.
End Task.
End Red.
