(* J_base_R_kt_ and the torque of a non-contact task. *)
From mathcomp Require Import all_ssreflect all_algebra.
From mathcomp Require Import zify.
From Verif Require Import LinAlg Dyn_Model Dyn_Spec Dyn_Proofs RedM_Model RedM_Spec RedM_Proofs RTS_Acc.
Set Implicit Arguments.
Unset Strict Implicit.
Unset Printing Implicit Defensive.
Import Order.TTheory GRing.Theory Num.Theory.
Local Open Scope ring_scope.

Section One.
Variable R : realFieldType.
Variables (m n : nat) (A : 'M[R]_(6 + n)) (J : 'M[R]_(m, 6 + n)) (cs : contact_space R m n).
Hypotheses (hA : posdef A) (hJ : row_free J) (hb : contacts_fix_base J).
Hypothesis ecs : CalculateContactConstraint J (invmx A) = Some cs.
Local Notation M := (cs_AinvNC cs).
Local Notation Wi := (cs_Winv cs).
Variables (t : nat) (Jt : 'M[R]_(t, 6 + n)) (Jkt : 'M[R]_(n, t)) (Lt : 'M[R]_t).
Hypothesis ejk : CalculateJKT Jt (invmx A) (cs_NC cs) Wi = Some (Jkt, Lt).

Lemma jkt_simple : Jkt = Wi *m dsubmx (M *m Jt^T).
Proof.
have [u eL sL ->] := RTS_Acc.jktE hA hJ ecs ejk; set Q := rsubmx (Lt *m _ *m _).
have uL : Lt \in unitmx by rewrite eL unitmx_inv.
have Qt : Q^T = dsubmx (M *m (Jt^T *m Lt)).
  by rewrite /Q trmx_rsub !trmx_mul (M_sym hA hJ ecs) sL mulmxA.
have X : M *m Jt^T *m Lt = rsubmx M *m (Wi *m Q^T) by rewrite Qt -(reach hA hJ hb ecs) mulmxA.
have q : Q *m Wi *m Q^T = Lt.
  have one : Jt *m (M *m Jt^T *m Lt) = 1%:M by rewrite eL !mulmxA mulmxV.
  have := congr1 (fun Y => Lt *m Y) one; rewrite X mulmx1 => <-.
  by rewrite /Q -mulmx_rsub !mulmxA.
rewrite q mpinv_unit // Qt -!mulmxA; congr (_ *m _).
by rewrite mulmxA -mul_dsub_mx mulmxK.
Qed.
End One.

(* a task with zero columns past the base, contacts that do not see the last six joints *)
Section Bottom.
Variable R : realFieldType.
Variables (m c k : nat) (A : 'M[R]_(6 + (c + k))) (J : 'M[R]_(m, 6 + (c + k))) (cs : contact_space R m (c + k)).
Hypotheses (hA : posdef A) (hJ : row_free J) (hb : contacts_fix_base J).
Hypothesis ecs : CalculateContactConstraint J (invmx A) = Some cs.
Hypothesis hz : rsubmx (rsubmx J) = 0.
Variables (t : nat) (B : 'M[R]_(t, 6)) (Jkt : 'M[R]_(c + k, t)) (Lt : 'M[R]_t).
Hypothesis ejk : CalculateJKT (row_mx B 0) (invmx A) (cs_NC cs) (cs_Winv cs) = Some (Jkt, Lt).
Local Notation M := (cs_AinvNC cs).
Local Notation Wi := (cs_Winv cs).

Lemma base_bottom : dsubmx Jkt = 0.
Proof.
rewrite (jkt_simple hA hJ hb ecs ejk) tr_row_mx trmx0.
have [e1 e2 e3 e4 [e5 e6]] := ccE ecs.
have [lam hl] : exists lam : 'M[R]_(m, t), (lsubmx J)^T *m lam = B^T.
  have h : row_full (lsubmx J) by rewrite /row_full hb.
  have /submxP [D hD] := submx_full B h.
  by exists D^T; rewrite -trmx_mul -hD.
pose tau := - ((rsubmx J)^T *m lam).
have eF : M *m col_mx B^T 0 = rsubmx M *m tau.
  have : M *m (J^T *m lam) = 0.
    by rewrite mulmxA (_ : M *m J^T = 0) ?mul0mx // -(M_sym hA hJ ecs) -trmx_mul (J_M hA hJ ecs) trmx0.
  have -> : J^T *m lam = col_mx B^T 0 - col_mx 0 tau.
    by rewrite -{1}[J]hsubmxK tr_row_mx mul_col_mx hl opp_col_mx add_col_mx oppr0 addr0 add0r /tau opprK.
  by rewrite mulmxBr mul_act => /eqP; rewrite subr_eq0 => /eqP.
have ed : dsubmx tau = 0 by rewrite /tau linearN /= -mul_dsub_mx -trmx_rsub hz trmx0 mul0mx oppr0.
rewrite eF.
have eW : dsubmx (rsubmx M *m tau) = cs_W cs *m tau by rewrite (Wmul e5 (erefl (rsubmx M))).
rewrite eW.
have k0 : cs_W cs *m (Wi *m (cs_W cs *m tau) - tau) = 0.
  by rewrite mulmxBr !mulmxA e6; have [-> _ _ _] := mpinvP (cs_W cs); rewrite subrr.
have [h _] := null_force hA hJ erefl erefl e1 e2 e3 e4 e5 erefl k0.
have {h} : dsubmx (Wi *m (cs_W cs *m tau) - tau) = 0.
  by rewrite -h -mul_dsub_mx -trmx_rsub hz trmx0 mul0mx.
by rewrite linearB /= ed subr0.
Qed.
End Bottom.

(* accelerations of non-contact tasks *)
Section Red.
Variable R : realFieldType.
Variables c n m : nat.
Variables (A : 'M[R]_(6 + c + n)) (J : 'M[R]_(6, n)) (J_C : 'M[R]_(m, 6 + c + n)) (rd : reduced R c n).
Let JR : 'M[R]_(6 + c + 6, 6 + c + n) := block_mx 1%:M 0 0 J.
Hypotheses (hA : posdef A) (hJ : row_free J) (hC : contacts_on_chains J_C) (hCf : row_free J_C)
  (hb : contacts_fix_base (n := c + n) J_C).
Hypotheses (r1 : rd_JI rd = J) (r2 : rd_ARinv rd = JR *m invmx A *m JR^T) (r3 : rd_AR rd = invmx (rd_ARinv rd))
  (r4 : rd_JRinvT rd = rd_AR rd *m JR *m invmx A) (r5 : rd_JRinvT rd = block_mx 1%:M 0 0 (rd_JIinvT rd))
  (r7 : rd_NI rd = 1%:M - J^T *m rd_JIinvT rd).
Variables (cs : contact_space R m (c + n)) (cR : contact_space R m (c + 6)).
Hypotheses (ecs : CalculateContactConstraint (n := c + n) J_C (invmx A) = Some cs)
  (ecR : CalculateContactConstraint (n := c + 6) (J_CR J_C) (rd_ARinv rd) = Some cR).
Local Notation M := (cs_AinvNC cs : 'M[R]_(6 + c + n)).
Local Notation MR := (cs_AinvNC cR : 'M[R]_(6 + c + 6)).
Let r3' : rd_AR rd = invmx (JR *m invmx A *m JR^T). Proof. by rewrite r3 r2. Qed.
Let pAR : posdef (rd_AR rd). Proof. exact: (ARpd hA hJ r3'). Qed.
Let iAR : invmx (rd_AR rd) = rd_ARinv rd. Proof. by rewrite r3 invmxK. Qed.
Let fC : row_free (J_CR J_C). Proof. exact: (JCR_free J hC hCf). Qed.
Let hbR : contacts_fix_base (n := c + 6) (J_CR J_C). Proof. exact: JCR_base hb. Qed.
Let ecR' : CalculateContactConstraint (n := c + 6) (J_CR J_C) (invmx (rd_AR rd)) = Some cR.
Proof. by rewrite iAR. Qed.

Lemma row_split k p (B : 'M[R]_(p, 6)) :
  (row_mx B 0 : 'M[R]_(p, 6 + (c + k))) = (row_mx (row_mx B 0) 0 : 'M[R]_(p, 6 + c + k)).
Proof. by rewrite -row_mx0 row_mxA castmx_id. Qed.

Variables (B : 'M[R]_6) (Jb : 'M[R]_(c + 6, 6)) (Lb : 'M[R]_6).
Hypothesis ejb : CalculateJKT (n := c + 6) (row_mx B 0) (rd_ARinv rd) (cs_NC cR) (cs_Winv cR) = Some (Jb, Lb).

Lemma Jb_bottom : dsubmx Jb = 0.
Proof.
have ejb' : CalculateJKT (n := c + 6) (row_mx B 0) (invmx (rd_AR rd)) (cs_NC cR) (cs_Winv cR) = Some (Jb, Lb) by rewrite iAR.
apply: (base_bottom pAR fC hbR ecR' _ ejb').
apply/matrixP => i j; rewrite [LHS]mxE [LHS]mxE [RHS]mxE /J_CR.
have -> : @rshift 6 (c + 6) (rshift c j) = @rshift (6 + c) 6 j by apply: val_inj; rewrite /= addnA.
by apply: etrans (@row_mxEr _ _ (6 + c) 6 (lsubmx J_C) 0 i j) _; rewrite mxE.
Qed.

(* the torque of a force F on the base is that force *)
Lemma Jb_acc (F : 'cV[R]_6) :
  M *m JR^T *m (actuate (Jb *m F) : 'cV_(6 + c + 6)) = M *m (col_mx (col_mx (B^T *m F) 0) 0 : 'cV_(6 + c + n)).
Proof.
have ejb' : CalculateJKT (n := c + 6) (row_mx B 0) (invmx (rd_AR rd)) (cs_NC cR) (cs_Winv cR) = Some (Jb, Lb) by rewrite iAR.
have [u eL _ _] := RTS_Acc.jktE pAR fC ecR' ejb'.
have uL : Lb \in unitmx by rewrite eL unitmx_inv.
have eJt : row_mx (row_mx B 0) 0 = (row_mx (row_mx B 0) 0 : 'M_(6, 6 + c + 6)) *m JR :> 'M[R]_(6, 6 + c + n).
  by rewrite /JR mul_row_block !mulmx0 !mul0mx mulmx1 !addr0.
have h := red_task_acc hA hJ hC hCf hb r2 r3 ecs ecR eJt (Jkt := Jb) (Lt := Lb).
have e := ejb; rewrite row_split in e; have {h} := h e (invmx Lb *m F).
rewrite -[Jb *m Lb *m _]mulmxA mulKVmx // => ->.
by rewrite !tr_row_mx !trmx0 -!mulmxA !mul_col_mx !mul0mx.
Qed.

(* a non-contact task with force (b, 0, t): the torque through N moves the robot as P M (b, 0, t) *)
Variables (N : 'M[R]_(c + 6)) (P : 'M[R]_(6 + c + n)).
Hypotheses (sim : forall x, M *m JR^T *m (actuate (N *m x) : 'cV_(6 + c + 6)) = P *m (M *m JR^T *m (actuate x : 'cV_(6 + c + 6))))
  (keep : forall t : 'cV[R]_n, P *m (M *m (col_mx 0 (rd_NI rd *m t) : 'cV_(6 + c + n))) = M *m (col_mx 0 (rd_NI rd *m t) : 'cV_(6 + c + n))).

Lemma nc_acc (F : 'cV[R]_6) (t : 'cV[R]_n) :
  M *m (actuate (distribute rd (N *m col_mx (usubmx Jb *m F) (rd_JIinvT rd *m t)) t) : 'cV_(6 + c + n)) =
  P *m (M *m (col_mx (col_mx (B^T *m F) 0) t : 'cV_(6 + c + n))).
Proof.
rewrite (JR_act r1) mulmxDr -/JR mulmxA sim -keep -mulmxDr; congr (_ *m _).
have -> : col_mx (usubmx Jb *m F) (rd_JIinvT rd *m t) = Jb *m F + col_mx 0 (rd_JIinvT rd *m t).
  by rewrite -[in RHS](vsubmxK Jb) Jb_bottom mul_col_mx mul0mx add_col_mx addr0 add0r.
have actD (a b : 'cV[R]_(c + 6)) : actuate (a + b) = actuate a + actuate b :> 'cV_(6 + c + 6).
  by rewrite /actuate add_col_mx addr0.
rewrite actD mulmxDr Jb_acc -mulmxA -!mulmxDr; congr (_ *m _).
rewrite act_split /JR tr_block_mx trmx1 !linear0 mul_block_col !mul0mx mul1mx addr0 add0r.
rewrite !add_col_mx !addr0 add0r r7 mulmxBl mul1mx mulmxA addrC subrK.
by [].
Qed.
End Red.
