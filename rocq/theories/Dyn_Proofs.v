(* Proofs for the dynamics properties (C12 - C21). *)
From mathcomp Require Import all_ssreflect all_algebra.
From Verif Require Import LinAlg Dyn_Model Dyn_Spec.
Set Implicit Arguments.
Unset Strict Implicit.
Unset Printing Implicit Defensive.
Import Order.TTheory GRing.Theory Num.Theory.
Local Open Scope ring_scope.

Section DynProofs.
Variable R : realFieldType.

Lemma inverseE k (M : 'M[R]_k) : M \in unitmx -> inverse M = Some (invmx M).
Proof. by rewrite /inverse => ->. Qed.

Lemma inverseP k (M N : 'M[R]_k) : inverse M = Some N -> M \in unitmx /\ N = invmx M.
Proof. by rewrite /inverse; case: ifP => // u [<-]. Qed.

Section Contact.
Variables (m n : nat) (A : 'M[R]_(6 + n)) (J : 'M[R]_(m, 6 + n)).
Hypothesis Apd : posdef A.
Hypothesis Jfree : row_free J.

(* the matrices the code computes, named through their defining equations *)
Variables (Ai : 'M[R]_(6 + n)) (M Lam : 'M[R]_m) (JI : 'M[R]_(m, 6 + n)).
Variables (N AN : 'M[R]_(6 + n)) (W Wi : 'M[R]_n) (U : 'M[R]_(6 + n, n)).
Hypotheses (AiE : Ai = invmx A) (ME : M = J *m Ai *m J^T) (LamE : Lam = invmx M).
Hypotheses (JIE : JI = Lam *m J *m Ai) (NE : N = 1%:M - J^T *m JI) (ANE : AN = Ai *m N).
Hypotheses (WdE : W = drsubmx AN) (WiE : Wi = mpinv W) (UdE : U = rsubmx AN).

Let Au : A \in unitmx. Proof. exact: posdef_unit. Qed.
Let Aiu : Ai \in unitmx. Proof. by rewrite AiE unitmx_inv. Qed.
Let Aipd : posdef Ai. Proof. by rewrite AiE; exact: posdef_inv. Qed.
Let Ais : Ai^T = Ai. Proof. by case: Aipd. Qed.
Let AAi : A *m Ai = 1%:M. Proof. by rewrite AiE mulmxV. Qed.
Let AiA : Ai *m A = 1%:M. Proof. by rewrite AiE mulVmx. Qed.

Lemma Jt_inj (x : 'cV[R]_m) : J^T *m x = 0 -> x = 0.
Proof. exact/full_ker/free_tr_full. Qed.

Lemma Mpd : posdef M.
Proof.
split; first by rewrite /symmetric ME !trmx_mul trmxK Ais mulmxA.
move=> x nx; have e : quad M x = quad Ai (J^T *m x).
  by rewrite /quad ME trmx_mul trmxK !mulmxA.
rewrite e; case: Aipd => _; apply; apply: contraNneq nx => h; exact/eqP/Jt_inj.
Qed.

Lemma Mu : M \in unitmx. Proof. exact: posdef_unit Mpd. Qed.

Lemma Lams : Lam^T = Lam. Proof. by rewrite LamE; case: (posdef_inv Mpd). Qed.

Lemma JIJt : JI *m J^T = 1%:M.
Proof.
have -> : JI *m J^T = Lam *m M by rewrite JIE ME !mulmxA.
by rewrite LamE mulVmx ?Mu.
Qed.

Lemma JIN : JI *m N = 0.
Proof. by rewrite NE mulmxBr mulmx1 mulmxA JIJt mul1mx subrr. Qed.

Lemma NJt : N *m J^T = 0.
Proof. by rewrite NE mulmxBl mul1mx -mulmxA JIJt mulmx1 subrr. Qed.

Lemma NN : N *m N = N.
Proof. by rewrite {1}NE mulmxBl mul1mx -mulmxA JIN mulmx0 subr0. Qed.

Lemma JAN : J *m AN = 0.
Proof.
rewrite ANE NE mulmxBr mulmx1 mulmxBr; apply/eqP; rewrite subr_eq0; apply/eqP.
have -> : J *m (Ai *m (J^T *m JI)) = M *m Lam *m (J *m Ai) by rewrite ME JIE !mulmxA.
by rewrite LamE mulmxV ?Mu // mul1mx.
Qed.

Lemma ANs : AN^T = AN.
Proof.
by rewrite ANE NE JIE mulmxBr mulmx1 trB !trmx_mul Lams Ais trmxK !mulmxA.
Qed.

Lemma AAN : A *m AN = N.
Proof. by rewrite ANE mulmxA AAi mul1mx. Qed.

Lemma ANAAN : AN *m A *m AN = AN.
Proof. by rewrite -mulmxA AAN ANE -mulmxA NN. Qed.

Lemma ANJt : AN *m J^T = 0.
Proof. by rewrite ANE -mulmxA NJt mulmx0. Qed.

Lemma ANpsd : psd AN.
Proof.
split; first exact: ANs.
move=> x; have -> : quad AN x = quad A (AN *m x).
  by rewrite /quad trmx_mul ANs -{1}ANAAN !mulmxA.
by case: (posdef_psd Apd) => _; apply.
Qed.

Lemma ANker p (v : 'M[R]_(6 + n, p)) : AN *m v = 0 -> v = J^T *m (JI *m v).
Proof.
move=> h; have : N *m v = 0 by rewrite -AAN -mulmxA h mulmx0.
by rewrite NE mulmxBl mul1mx -mulmxA => /eqP; rewrite subr_eq0 => /eqP.
Qed.

(* actuation *)
Lemma mul_act q p (B : 'M[R]_(q, 6 + n)) (y : 'M[R]_(n, p)) : B *m col_mx 0 y = rsubmx B *m y.
Proof. by rewrite -{1}[B]hsubmxK mul_row_col mulmx0 add0r. Qed.

Lemma mul_actuate q (B : 'M[R]_(q, 6 + n)) (y : 'cV[R]_n) : B *m actuate y = rsubmx B *m y.
Proof. exact: mul_act. Qed.

Lemma UE (y : 'cV[R]_n) : AN *m actuate y = U *m y.
Proof. by rewrite UdE; exact: mul_actuate. Qed.

Lemma WE : W = dsubmx U.
Proof. by rewrite WdE UdE; apply/matrixP=> i j; rewrite !mxE. Qed.

Lemma Wmul p (y : 'M[R]_(n, p)) : W *m y = dsubmx (U *m y).
Proof. by rewrite WE mul_dsub_mx. Qed.

Lemma Ut : U^T = dsubmx AN.
Proof. by rewrite UdE trmx_rsub ANs. Qed.

Lemma quadW y : quad W y = quad AN (actuate y).
Proof.
rewrite !quadE UE /dot Wmul /actuate tr_col_mx trmx0 -{2}[U *m y]vsubmxK.
by rewrite mul_row_col mul0mx add0r.
Qed.

Lemma Ws : W^T = W.
Proof. by rewrite WdE trmx_drsub ANs. Qed.

Lemma Wpsd : psd W.
Proof. by split; [exact: Ws | move=> y; rewrite quadW; case: ANpsd => _; apply]. Qed.

Lemma Wker p (y : 'M[R]_(n, p)) : W *m y = 0 -> U *m y = 0.
Proof.
move=> h; apply: mx_colP => x; rewrite mul0mx -mulmxA -UE.
apply: (psd_quad0 ANpsd); rewrite -quadW quadE mulmxA h mul0mx /dot mulmx0.
exact: sc0.
Qed.

Lemma Wis : Wi^T = Wi. Proof. by rewrite WiE; exact: mpinv_sym Ws. Qed.

Lemma UWiW : U *m (Wi *m W) = U.
Proof.
apply/eqP; rewrite -subr_eq0 -{2}[U]mulmx1 -mulmxBr; apply/eqP/Wker.
by rewrite mulmxBr mulmx1 mulmxA WiE; case: (mpinvP W) => -> _ _ _; rewrite subrr.
Qed.

Lemma WWiS : W *m Wi *m dsubmx AN = dsubmx AN.
Proof.
by have := congr1 trmx UWiW; rewrite !trmx_mul Ut Wis Ws.
Qed.

Lemma WiWW : Wi *m W = W *m Wi.
Proof. by rewrite WiE (mpinv_comm Ws). Qed.

(* constrained motion *)
Definition acc_of (G : 'cV[R]_(6 + n)) tau := AN *m (actuate tau - G).
Definition force_of (G : 'cV[R]_(6 + n)) tau := rsubmx JI *m tau - JI *m G.

Lemma force_ofE G tau : force_of G tau = JI *m (actuate tau - G).
Proof. by rewrite mulmxBr mul_actuate. Qed.

Lemma motion_exists G tau : contact_motion A J G tau (acc_of G tau) (force_of G tau).
Proof.
split; last by rewrite /acc_of mulmxA JAN mul0mx.
rewrite force_ofE /acc_of mulmxA AAN mulmxA -mulmxDl NE subrK mul1mx.
exact: subrK.
Qed.

Lemma motion_unique G tau a f :
  contact_motion A J G tau a f -> a = acc_of G tau /\ f = force_of G tau.
Proof.
case=> e h; have e1 : actuate tau - G = A *m a + J^T *m f by rewrite -e addrK.
have ha : a = acc_of G tau.
  rewrite /acc_of e1 mulmxDr !mulmxA ANJt mul0mx addr0.
  have -> : AN *m A = 1%:M - Ai *m J^T *m Lam *m J.
    rewrite ANE NE mulmxBr mulmx1 mulmxBl AiA; congr (_ - _).
    by rewrite JIE !mulmxA -(mulmxA _ Ai) AiA mulmx1.
  by rewrite mulmxBl mul1mx -!mulmxA h !mulmx0 subr0.
split=> //; rewrite force_ofE e1 mulmxDr !mulmxA JIJt mul1mx.
have -> : JI *m A = Lam *m J by rewrite JIE -mulmxA AiA mulmx1.
by rewrite -mulmxA h mulmx0 add0r.
Qed.

(* gravity compensation *)
Definition tau_g (G : 'cV[R]_(6 + n)) : 'cV[R]_n := Wi *m (dsubmx Ai *m (N *m G)).

Lemma tau_gE G : tau_g G = Wi *m (dsubmx AN *m G).
Proof. by rewrite /tau_g [dsubmx Ai *m _]mulmxA mul_dsub_mx -ANE. Qed.

Lemma joint_accE G tau : joint_acc (acc_of G tau) = W *m tau - dsubmx AN *m G.
Proof.
rewrite /joint_acc /acc_of mulmxBr UE Wmul.
by rewrite linearB /= !mul_dsub_mx.
Qed.

Lemma grav_joint G : joint_acc (acc_of G (tau_g G)) = 0.
Proof. by rewrite joint_accE tau_gE !mulmxA WWiS subrr. Qed.

Lemma still_joint_base (a : 'cV[R]_(6 + n)) :
  contacts_fix_base J -> J *m a = 0 -> joint_acc a = 0 -> a = 0.
Proof.
move=> r; rewrite -[a]vsubmxK -{1}[J]hsubmxK mul_row_col /joint_acc col_mxKd => h z.
move: h; rewrite z mulmx0 addr0 => h.
suff -> : usubmx a = 0 by rewrite col_mx0.
by apply: full_ker h; rewrite /row_full r.
Qed.

Lemma grav_still G a f :
  contact_motion A J G (tau_g G) a f ->
  joint_acc a = 0 /\ (contacts_fix_base J -> a = 0 /\ J^T *m f + G = actuate (tau_g G)).
Proof.
move=> h; have [ea _] := motion_unique h.
have ja : joint_acc a = 0 by rewrite ea grav_joint.
split=> // r; case: h => e h; have a0 := still_joint_base r h ja.
by split=> //; rewrite -e a0 mulmx0 add0r.
Qed.

Lemma grav_least G tau :
  (forall a f, contact_motion A J G tau a f -> joint_acc a = 0) ->
  dot (tau_g G) (tau_g G) <= dot tau tau /\
  (dot tau tau = dot (tau_g G) (tau_g G) -> tau = tau_g G).
Proof.
move=> /(_ _ _ (motion_exists G tau)); rewrite joint_accE => /eqP.
rewrite subr_eq0 => /eqP e.
have tg : tau_g G = (Wi *m W) *m tau by rewrite tau_gE -e mulmxA.
rewrite tg; have [_ h2 _ h4] := mpinvP W; apply: proj_least; rewrite WiE //.
by rewrite mulmxA h2.
Qed.

(* the null space of W: torques absorbed by the contacts *)
Let Jb := lsubmx J.
Let Jj := rsubmx J.
Let JIr := rsubmx JI.

Lemma JtE : J^T = col_mx Jb^T Jj^T.
Proof. by rewrite -{1}[J]hsubmxK tr_row_mx. Qed.

Lemma null_force p (Y : 'M[R]_(n, p)) :
  W *m Y = 0 -> Jj^T *m (JIr *m Y) = Y /\ Jb^T *m (JIr *m Y) = 0.
Proof.
move=> /Wker h; have : AN *m col_mx 0 Y = 0 by rewrite mul_act -UdE.
move/ANker; rewrite mul_act JtE mul_col_mx => /eq_col_mx [h1 h2].
by rewrite -h1 -h2.
Qed.

Lemma force_null p (F : 'M[R]_(m, p)) :
  Jb^T *m F = 0 -> W *m (Jj^T *m F) = 0 /\ JIr *m (Jj^T *m F) = F.
Proof.
move=> h; have e : J^T *m F = col_mx 0 (Jj^T *m F) by rewrite JtE mul_col_mx h.
split; last by rewrite -mul_act -e mulmxA JIJt mul1mx.
by rewrite Wmul UdE -mul_act -e mulmxA ANJt mul0mx linear0.
Qed.

Lemma nullW_dim : contacts_fix_base J -> (n - \rank W)%N = (m - 6)%N.
Proof.
move=> r; rewrite -(mxrank_ker W) -[6%N in RHS]r -(mxrank_ker (lsubmx J)) -/Jb.
apply/eqP; rewrite eqn_leq; apply/andP; split.
  have h : W *m (kermx W)^T = 0.
    by rewrite -[LHS]trmxK trmx_mul trmxK Ws mulmx_ker tr0.
  have [h1 h2] := null_force h.
  have e : kermx W = kermx W *m JIr^T *m Jj.
    by have := congr1 trmx h1; rewrite !trmx_mul !trmxK.
  have s : (kermx W *m JIr^T <= kermx Jb)%MS.
    apply/sub_kermxP; have := congr1 trmx h2; rewrite !trmx_mul !trmxK tr0.
    by [].
  by rewrite {1}e (leq_trans (mxrankM_maxl _ _)) // mxrankS.
have h : Jb^T *m (kermx Jb)^T = 0 by rewrite -trmx_mul mulmx_ker tr0.
have [h1 h2] := force_null h.
have e : kermx Jb = kermx Jb *m Jj *m JIr^T.
  by have := congr1 trmx h2; rewrite !trmx_mul !trmxK.
have s : (kermx Jb *m Jj <= kermx W)%MS.
  apply/sub_kermxP; have := congr1 trmx h1; rewrite !trmx_mul !trmxK tr0 Ws.
  by [].
by rewrite {1}e (leq_trans (mxrankM_maxl _ _)) // mxrankS.
Qed.

(* the force redistribution matrix *)
Section NwJw.
Variables (c : nat) (T : 'M[R]_(c, m)).
Hypothesis Tinj : forall f : 'cV[R]_m, T *m f = 0 -> Jb^T *m f = 0 -> f = 0.

Lemma Tinj_mx p (F : 'M[R]_(m, p)) : T *m F = 0 -> Jb^T *m F = 0 -> F = 0.
Proof.
move=> h1 h2; apply: mx_colP => x; rewrite mul0mx; apply: Tinj.
  by rewrite mulmxA h1 mul0mx.
by rewrite mulmxA h2 mul0mx.
Qed.

Lemma nwjw_unit (V : 'M[R]_(c, n)) :
  V *m W = 0 -> row_free V -> T *m JIr *m V^T \in unitmx.
Proof.
move=> h fr; have hW : W *m V^T = 0 by rewrite -[W]Ws -trmx_mul h tr0.
have [h1 h2] := null_force hW.
apply: unitmx_ker => z hz; apply: (full_ker (free_tr_full fr)).
rewrite -h1 -!mulmxA (_ : JIr *m (V^T *m z) = 0) ?mulmx0 //.
apply: Tinj; first by rewrite !mulmxA.
by rewrite [JIr *m _]mulmxA [LHS]mulmxA h2 mul0mx.
Qed.

Lemma nwjw_uniq p (X Y : 'M[R]_(n, p)) :
  W *m X = 0 -> W *m Y = 0 -> T *m JIr *m X = T *m JIr *m Y -> X = Y.
Proof.
move=> hx hy e; have h : W *m (X - Y) = 0 by rewrite mulmxBr hx hy subrr.
have [h1 h2] := null_force h.
apply/eqP; rewrite -subr_eq0 -h1 (_ : JIr *m _ = 0) ?mulmx0 //.
by apply: Tinj_mx => //; rewrite mulmxA mulmxBr e subrr.
Qed.
End NwJw.

(* effect of a null space torque *)
Lemma null_torque_effect G tau y :
  W *m y = 0 ->
  acc_of G (tau + y) = acc_of G tau /\ force_of G (tau + y) = force_of G tau + JIr *m y.
Proof.
move=> h; have aD : actuate (tau + y) = actuate tau + actuate y.
  by rewrite /actuate add_col_mx addr0.
split.
  by rewrite /acc_of aD addrAC mulmxDr UE (Wker h) addr0.
by rewrite /force_of mulmxDr addrAC.
Qed.

(* one task *)
Section OneTask.
Variables (t : nat) (Jt : 'M[R]_(t, 6 + n)).
Variables (Lt : 'M[R]_t) (Q : 'M[R]_(t, n)) (Jkt : 'M[R]_(n, t)).
Hypothesis tu : Jt *m AN *m Jt^T \in unitmx.
Hypotheses (LtE : Lt = invmx (Jt *m AN *m Jt^T)) (QE : Q = Lt *m Jt *m U).
Hypothesis JktE : Jkt = Wi *m Q^T *m mpinv (Q *m Wi *m Q^T).

Lemma JtU : Jt *m U = Jt *m AN *m Jt^T *m Q.
Proof. by rewrite QE LtE !mulmxA mulmxV // mul1mx. Qed.

Lemma QWiW : Q *m (Wi *m W) = Q.
Proof. by rewrite QE -mulmxA UWiW. Qed.

Lemma WWiQt : W *m Wi *m Q^T = Q^T.
Proof. by have := congr1 trmx QWiW; rewrite !trmx_mul Wis Ws. Qed.

Lemma Wipsd : psd Wi. Proof. by rewrite WiE; exact: mpinv_psd Wpsd. Qed.

Lemma QWQ_unit : contacts_fix_base J -> Q *m Wi *m Q^T \in unitmx.
Proof.
move=> r; apply: unitmx_ker => z hz.
have h0 : quad Wi (Q^T *m z) = 0.
  by rewrite /quad trmx_mul trmxK -!mulmxA (mulmxA Q) (mulmxA _ Q^T) hz mulmx0 sc0.
have h1 : Q^T *m z = 0 by rewrite -WWiQt -!mulmxA (psd_quad0 Wipsd h0) mulmx0.
pose x := AN *m (Jt^T *m (Lt *m z)).
have Lts : Lt^T = Lt by rewrite LtE trmx_inv !trmx_mul ANs trmxK mulmxA.
have xj : joint_acc x = 0.
  rewrite /joint_acc /x -mul_dsub_mx -Ut -h1 QE !trmx_mul Lts !mulmxA.
  by [].
have Jx : J *m x = 0 by rewrite /x mulmxA JAN mul0mx.
have x0 := still_joint_base r Jx xj.
have : Jt *m x = z by rewrite /x !mulmxA LtE mulmxV // mul1mx.
by rewrite x0 mulmx0.
Qed.

Lemma QJkt : contacts_fix_base J -> Q *m Jkt = 1%:M.
Proof.
move=> r; have u := QWQ_unit r.
by rewrite JktE (mpinv_unit u) !mulmxA mulmxV.
Qed.

Lemma JtUJkt : contacts_fix_base J -> Jt *m U *m (Jkt *m Lt) = 1%:M.
Proof.
move=> r; rewrite JtU -mulmxA [Q *m _]mulmxA QJkt // mul1mx LtE mulmxV //.
Qed.

(* W-minimality of J_kt Lambda f among all torques with the same task acceleration *)
Lemma Jkt_min f tau : contacts_fix_base J ->
  Jt *m U *m tau = f ->
  quad W (Jkt *m Lt *m f) <= quad W tau.
Proof.
move=> r e.
have [t0 t0E] : exists t0, t0 = Jkt *m Lt *m f by eexists.
have [d dE] : exists d, d = tau - t0 by eexists.
rewrite -t0E.
have Qd : Q *m d = 0.
  have h : Jt *m U *m d = 0.
    by rewrite dE mulmxBr e t0E mulmxA JtUJkt // mul1mx subrr.
  by rewrite QE -!mulmxA [Jt *m _]mulmxA h mulmx0.
have dW : d^T *m (W *m t0) = 0.
  rewrite t0E JktE !mulmxA -(mulmxA _ W Wi) -(mulmxA _ (W *m Wi)) WWiQt.
  by rewrite -!mulmxA mulmxA -trmx_mul Qd tr0 mul0mx.
have Wd : t0^T *m (W *m d) = 0.
  by have := congr1 trmx dW; rewrite !trmx_mul tr0 trmxK Ws mulmxA.
have tE : tau = t0 + d by rewrite dE addrC subrK.
rewrite tE !quadE /dot mulmxDr trD mulmxDl !mulmxDr Wd dW !scD !sc0 add0r addr0.
rewrite ler_addl -/(dot d (W *m d)) -quadE; case: Wpsd => _; apply.
Qed.
End OneTask.
End Contact.
End DynProofs.

(* ---- the same facts about the model functions ---- *)
Section Main.
Variable R : realFieldType.

Lemma UpdateRobotE m n (A : 'M[R]_(6 + n)) (J : 'M[R]_(m, 6 + n)) G :
  posdef A -> row_free J ->
  exists rb, [/\ UpdateRobot A J G = Some rb, rb_Ainv rb = invmx A,
    rb_tgrav rb = tau_g (invmx A) (cs_NC (rb_cs rb)) (cs_Winv (rb_cs rb)) G,
    rb_PC rb = cs_JCinvT (rb_cs rb) *m G &
    [/\ cs_lambda (rb_cs rb) = invmx (J *m invmx A *m J^T),
      cs_JCinvT (rb_cs rb) = cs_lambda (rb_cs rb) *m J *m invmx A,
      cs_NC (rb_cs rb) = 1%:M - J^T *m cs_JCinvT (rb_cs rb),
      cs_AinvNC (rb_cs rb) = invmx A *m cs_NC (rb_cs rb) &
      cs_W (rb_cs rb) = drsubmx (cs_AinvNC (rb_cs rb)) /\
      cs_Winv (rb_cs rb) = mpinv (cs_W (rb_cs rb))]].
Proof.
move=> hA hJ; rewrite /UpdateRobot inverseE ?posdef_unit //.
rewrite /CalculateContactConstraint inverseE; last exact: (Mu hA hJ erefl erefl).
by eexists; split; first by reflexivity.
Qed.

(* The facts about one robot, gathered once. *)
Section Rb.
Variables (m n : nat) (A : 'M[R]_(6 + n)) (J : 'M[R]_(m, 6 + n)) (G : 'cV[R]_(6 + n)) (rb : robot R m n).
Hypotheses (hA : posdef A) (hJ : row_free J) (hrb : UpdateRobot A J G = Some rb).

Let Ai := invmx A.
Let cs := rb_cs rb.
Let U := rsubmx (cs_AinvNC cs).

Lemma rbE : [/\ rb_Ainv rb = invmx A,
    rb_tgrav rb = tau_g (invmx A) (cs_NC cs) (cs_Winv cs) G,
    rb_PC rb = cs_JCinvT cs *m G &
    [/\ cs_lambda cs = invmx (J *m invmx A *m J^T),
      cs_JCinvT cs = cs_lambda cs *m J *m invmx A,
      cs_NC cs = 1%:M - J^T *m cs_JCinvT cs,
      cs_AinvNC cs = invmx A *m cs_NC cs &
      cs_W cs = drsubmx (cs_AinvNC cs) /\ cs_Winv cs = mpinv (cs_W cs)]].
Proof. by have [rb' []] := UpdateRobotE G hA hJ; rewrite hrb /cs => -[->]. Qed.

Lemma rb_force tau : getContactForce rb tau = force_of (cs_JCinvT cs) G tau.
Proof. by rewrite /getContactForce /CalculateContactForce; have [_ _ -> _] := rbE. Qed.

Lemma rb_motion tau a f :
  contact_motion A J G tau a f <->
  a = acc_of (cs_AinvNC cs) G tau /\ f = getContactForce rb tau.
Proof.
have [_ _ _ [e1 e2 e3 e4 [e5 e6]]] := rbE; rewrite rb_force; split.
  exact: (motion_unique hA hJ erefl erefl e1 e2 e3 e4).
by case=> -> ->; exact: (motion_exists hA hJ erefl erefl e1 e2 e3 e4).
Qed.

Lemma rb_motion_ex tau : exists a f, contact_motion A J G tau a f.
Proof. by eexists; eexists; apply/rb_motion; split; reflexivity. Qed.

Lemma rb_projector :
  [/\ cs_NC cs *m cs_NC cs = cs_NC cs, cs_NC cs *m J^T = 0,
      J *m rb_Ainv rb *m cs_NC cs = 0, cs_JCinvT cs *m J^T = 1%:M &
      psd (cs_AinvNC cs) /\ psd (cs_W cs)].
Proof.
have [e0 _ _ [e1 e2 e3 e4 [e5 e6]]] := rbE; split.
- exact: (NN hA hJ erefl erefl e1 e2 e3).
- exact: (NJt hA hJ erefl erefl e1 e2 e3).
- rewrite -mulmxA e0 -e4; exact: (JAN hA hJ erefl erefl e1 e2 e3 e4).
- exact: (JIJt hA hJ erefl erefl e1 e2).
split; first exact: (ANpsd hA hJ erefl erefl e1 e2 e3 e4).
exact: (Wpsd hA hJ erefl erefl e1 e2 e3 e4 e5 erefl).
Qed.

Lemma rb_W_null : contacts_fix_base J -> (n - \rank (cs_W cs))%N = (m - 6)%N.
Proof.
have [_ _ _ [e1 e2 e3 e4 [e5 e6]]] := rbE.
exact: (nullW_dim hA hJ erefl erefl e1 e2 e3 e4 e5 erefl).
Qed.

Lemma rb_grav a f :
  contact_motion A J G (rb_tgrav rb) a f ->
  joint_acc a = 0 /\ (contacts_fix_base J -> a = 0 /\ J^T *m f + G = actuate (rb_tgrav rb)).
Proof.
have [_ -> _ [e1 e2 e3 e4 [e5 e6]]] := rbE.
exact: (grav_still hA hJ erefl erefl e1 e2 e3 e4 e5 e6 erefl).
Qed.

Lemma rb_grav_least tau :
  (forall a f, contact_motion A J G tau a f -> joint_acc a = 0) ->
  dot (rb_tgrav rb) (rb_tgrav rb) <= dot tau tau /\
  (dot tau tau = dot (rb_tgrav rb) (rb_tgrav rb) -> tau = rb_tgrav rb).
Proof.
have [_ -> _ [e1 e2 e3 e4 [e5 e6]]] := rbE.
exact: (grav_least hA hJ erefl erefl e1 e2 e3 e4 e5 e6 erefl).
Qed.

End Rb.

Section NwJwMain.
Variables (c n : nat) (A : 'M[R]_(6 + n)) (J : 'M[R]_(c + 6, 6 + n)) (G : 'cV[R]_(6 + n)).
Variable rb : robot R (c + 6) n.
Hypotheses (hA : posdef A) (hJ : row_free J) (hrb : UpdateRobot A J G = Some rb).
Let cs := rb_cs rb.

Let T : 'M[R]_(c, c + 6) := row_mx 1%:M 0.
Let TE p (F : 'M[R]_(c + 6, p)) : T *m F = usubmx F.
Proof. by rewrite -{1}[F]vsubmxK mul_row_col mul1mx mul0mx addr0. Qed.

Let nf p (Y : 'M[R]_(n, p)) : cs_W cs *m Y = 0 ->
  (rsubmx J)^T *m (rsubmx (cs_JCinvT cs) *m Y) = Y /\
  (lsubmx J)^T *m (rsubmx (cs_JCinvT cs) *m Y) = 0.
Proof.
have [_ _ _ [e1 e2 e3 e4 [e5 e6]]] := rbE hA hJ hrb.
exact: (null_force hA hJ erefl erefl e1 e2 e3 e4 e5 erefl).
Qed.

Let fn p (F : 'M[R]_(c + 6, p)) : (lsubmx J)^T *m F = 0 ->
  cs_W cs *m ((rsubmx J)^T *m F) = 0 /\ rsubmx (cs_JCinvT cs) *m ((rsubmx J)^T *m F) = F.
Proof.
have [_ _ _ [e1 e2 e3 e4 [e5 e6]]] := rbE hA hJ hrb.
exact: (force_null hA hJ erefl erefl e1 e2 e3 e4 e5 erefl).
Qed.

Lemma bottom_inj : dsubmx (lsubmx J) \in unitmx ->
  forall f : 'cV[R]_(c + 6), T *m f = 0 -> (lsubmx J)^T *m f = 0 -> f = 0.
Proof.
move=> u f; rewrite TE => h1; rewrite -[f]vsubmxK h1 -[lsubmx J]vsubmxK tr_col_mx.
rewrite mul_row_col mulmx0 add0r => h2.
suff -> : dsubmx f = 0 by rewrite col_mx0.
by have := congr1 (mulmx (invmx (dsubmx (lsubmx J))^T)) h2; rewrite mulKmx ?unitmx_tr // mulmx0.
Qed.

Lemma bottom_base : dsubmx (lsubmx J) \in unitmx -> contacts_fix_base J.
Proof.
move=> u; apply/eqP; rewrite eqn_leq rank_leq_col /=.
have := mxrankM_maxr (row_mx 0 1%:M : 'M[R]_(6, c + 6)) (lsubmx J).
rewrite -{1}[lsubmx J]vsubmxK mul_row_col mul0mx add0r mul1mx.
by rewrite (mxrank_unit u).
Qed.

Lemma CalculateNwJwE k (V2 : 'M[R]_(k, n)) : k = c ->
  exists V : 'M[R]_(c, n), (V2 *m cs_W cs = 0 -> V *m cs_W cs = 0) /\
   (row_free V2 -> row_free V) /\
   CalculateNwJw (cs_JCinvT cs) V2 =
     (if inverse (usubmx (rsubmx (cs_JCinvT cs)) *m V^T) is Some Mi
      then NwJwOk (V^T *m Mi) else NwJwSingular R n c).
Proof.
move=> e; subst k; exists V2; split=> //; split=> //.
rewrite /CalculateNwJw; by case: eqP => // e; rewrite castmx_id.
Qed.

Lemma nwjw_square k (V2 : 'M[R]_(k, n)) : left_null_basis (cs_W cs) V2 ->
  contacts_fix_base J -> k = c.
Proof. by case=> _ _ -> /(rb_W_null hA hJ hrb); rewrite addnK. Qed.

Lemma nwjw_ok_iff k (V2 : 'M[R]_(k, n)) :
  left_null_basis (cs_W cs) V2 -> contacts_fix_base J ->
  (exists Nw, CalculateNwJw (cs_JCinvT cs) V2 = NwJwOk Nw) <-> dsubmx (lsubmx J) \in unitmx.
Proof.
move=> hV hb; have kc := nwjw_square hV hb.
have [V [h1 [h2 ->]]] := CalculateNwJwE V2 kc.
case: hV => /h1 VW /h2 Vf _.
have [_ _ _ [e1 e2 e3 e4 [e5 e6]]] := rbE hA hJ hrb.
have Ws : (cs_W cs)^T = cs_W cs by case: (rb_projector hA hJ hrb) => _ _ _ _ [_ []].
have WV : cs_W cs *m V^T = 0 by rewrite -Ws -trmx_mul VW tr0.
split; last first.
  move=> u; rewrite inverseE; first by eexists.
  rewrite -TE; exact: (nwjw_unit hA hJ erefl erefl e1 e2 e3 e4 e5 erefl (bottom_inj u)).
case=> Nw; case hi: (inverse _) => [Mi|] // _.
have [u _] := inverseP hi.
rewrite -unitmx_tr; apply: unitmx_ker => z hz.
pose f : 'cV[R]_(c + 6) := col_mx 0 z.
have Jf : (lsubmx J)^T *m f = 0.
  by rewrite -[lsubmx J]vsubmxK tr_col_mx mul_row_col mulmx0 add0r.
have [y1 y2] := fn Jf; pose y := (rsubmx J)^T *m f.
have : (y^T <= V)%MS.
  have vk : (V :=: kermx (cs_W cs))%MS.
    apply/eqmxP; rewrite -mxrank_leqif_eq; last by rewrite sub_kermx VW.
    rewrite mxrank_ker (rb_W_null hA hJ hrb hb) addnK.
    by move: Vf; rewrite /row_free => /eqP ->.
  rewrite vk; apply/sub_kermxP.
  by have := congr1 trmx y1; rewrite trmx_mul Ws tr0.
case/submxP=> w wE.
have yE : y = V^T *m w^T by rewrite -trmx_mul -wE trmxK.
have : usubmx (rsubmx (cs_JCinvT cs)) *m V^T *m w^T = 0.
  by rewrite -mulmxA -yE mul_usub_mx y2 col_mxKu.
move/(congr1 (mulmx (invmx (usubmx (rsubmx (cs_JCinvT cs)) *m V^T)))).
rewrite mulKmx // mulmx0 => w0.
have f0 : f = 0 by rewrite -y2 -/y yE w0 !mulmx0.
by have := congr1 (@dsubmx _ _ _ _) f0; rewrite col_mxKd linear0.
Qed.

Lemma nwjw_facts k (V2 : 'M[R]_(k, n)) Nw :
  left_null_basis (cs_W cs) V2 -> CalculateNwJw (cs_JCinvT cs) V2 = NwJwOk Nw ->
  cs_W cs *m Nw = 0 /\ usubmx (rsubmx (cs_JCinvT cs) *m Nw) = 1%:M.
Proof.
case=> VW _ _; have Ws : (cs_W cs)^T = cs_W cs by case: (rb_projector hA hJ hrb) => _ _ _ _ [_ []].
rewrite /CalculateNwJw; case: eqP => // e; subst k; rewrite castmx_id.
case hi: (inverse _) => [Mi|] // [<-]; have [u ->] := inverseP hi.
have WV : cs_W cs *m V2^T = 0 by rewrite -Ws -trmx_mul VW tr0.
by rewrite mulmxA WV mul0mx -mul_usub_mx mulmxA mulmxV.
Qed.

Lemma nwjw_effect k (V2 : 'M[R]_(k, n)) Nw tau x a f a' f' :
  left_null_basis (cs_W cs) V2 -> CalculateNwJw (cs_JCinvT cs) V2 = NwJwOk Nw ->
  contact_motion A J G tau a f -> contact_motion A J G (tau + Nw *m x) a' f' ->
  [/\ a' = a, usubmx f' = usubmx f + x & (lsubmx J)^T *m (f' - f) = 0].
Proof.
move=> hV hN /(rb_motion hA hJ hrb)[-> ->] /(rb_motion hA hJ hrb)[-> ->].
have [WN UN] := nwjw_facts hV hN.
have Wx : cs_W cs *m (Nw *m x) = 0 by rewrite mulmxA WN mul0mx.
have [_ _ _ [e1 e2 e3 e4 [e5 e6]]] := rbE hA hJ hrb.
have [h1 h2] := null_torque_effect hA hJ erefl erefl e1 e2 e3 e4 e5 erefl G tau Wx.
rewrite !(rb_force hA hJ hrb) h1 h2; split=> //.
  by rewrite linearD /= mulmxA -mul_usub_mx UN mul1mx.
by rewrite addrAC subrr add0r; case: (nf Wx).
Qed.

Lemma nwjw_basis_indep k k' (V2 : 'M[R]_(k, n)) (V2' : 'M[R]_(k', n)) Nw Nw' :
  left_null_basis (cs_W cs) V2 -> left_null_basis (cs_W cs) V2' ->
  contacts_fix_base J ->
  CalculateNwJw (cs_JCinvT cs) V2 = NwJwOk Nw -> CalculateNwJw (cs_JCinvT cs) V2' = NwJwOk Nw' ->
  Nw = Nw'.
Proof.
move=> hV hV' hb hN hN'.
have u : dsubmx (lsubmx J) \in unitmx by apply/(nwjw_ok_iff hV hb); eexists; eassumption.
have [h1 h2] := nwjw_facts hV hN; have [h1' h2'] := nwjw_facts hV' hN'.
have [_ _ _ [e1 e2 e3 e4 [e5 e6]]] := rbE hA hJ hrb.
apply: (nwjw_uniq hA hJ erefl erefl e1 e2 e3 e4 e5 erefl (bottom_inj u)) => //.
by rewrite -!mulmxA !TE h2 h2'.
Qed.

End NwJwMain.

(* tasks *)
Section TaskMain.
Variables (m n : nat) (A : 'M[R]_(6 + n)) (J : 'M[R]_(m, 6 + n)) (G : 'cV[R]_(6 + n)) (rb : robot R m n).
Hypotheses (hA : posdef A) (hJ : row_free J) (hrb : UpdateRobot A J G = Some rb).
Hypothesis hb : contacts_fix_base J.
Let cs := rb_cs rb.
Let U := rsubmx (cs_AinvNC cs).

Lemma jktE t (Jt : 'M[R]_(t, 6 + n)) :
  Jt *m rb_Ainv rb *m cs_NC cs *m Jt^T \in unitmx ->
  exists Jkt Lt, [/\ CalculateJKT Jt (rb_Ainv rb) (cs_NC cs) (cs_Winv cs) = Some (Jkt, Lt),
    Lt = invmx (Jt *m cs_AinvNC cs *m Jt^T), Jt *m cs_AinvNC cs *m Jt^T \in unitmx &
    exists Q, Q = Lt *m Jt *m U /\ Jkt = cs_Winv cs *m Q^T *m mpinv (Q *m cs_Winv cs *m Q^T)].
Proof.
have [e0 _ _ [e1 e2 e3 e4 [e5 e6]]] := rbE hA hJ hrb.
have e : Jt *m rb_Ainv rb *m cs_NC cs *m Jt^T = Jt *m cs_AinvNC cs *m Jt^T.
  by rewrite e4 e0 !mulmxA.
move=> u; do 2!eexists; split.
- by rewrite /CalculateJKT inverseE.
- by rewrite e.
- by rewrite -e.
eexists; split; last by reflexivity.
rewrite /U e4 e0 -[_ *m _ *m invmx A *m _]mulmxA.
by apply/matrixP=> i j; rewrite !mxE; apply: eq_bigr => k _; rewrite !mxE.
Qed.

Lemma jkt_inv t (Jt : 'M[R]_(t, 6 + n)) Jkt Lt :
  CalculateJKT Jt (rb_Ainv rb) (cs_NC cs) (cs_Winv cs) = Some (Jkt, Lt) ->
  Jt *m U *m (Jkt *m Lt) = 1%:M.
Proof.
move=> h; have u : Jt *m rb_Ainv rb *m cs_NC cs *m Jt^T \in unitmx.
  by move: h; rewrite /CalculateJKT /inverse; case: ifP.
have [Jkt' [Lt' [h' eL tu [Q [eQ eJ]]]]] := jktE u; move: h; rewrite h' => -[<- <-].
have [_ _ _ [e1 e2 e3 e4 [e5 e6]]] := rbE hA hJ hrb.
exact: (JtUJkt hA hJ erefl erefl e1 e2 e3 e4 e5 e6 erefl tu eL eQ eJ).
Qed.

Lemma jkt_min t (Jt : 'M[R]_(t, 6 + n)) Jkt Lt f tau :
  CalculateJKT Jt (rb_Ainv rb) (cs_NC cs) (cs_Winv cs) = Some (Jkt, Lt) ->
  Jt *m U *m tau = f ->
  quad (cs_W cs) (Jkt *m Lt *m f) <= quad (cs_W cs) tau.
Proof.
move=> h; have u : Jt *m rb_Ainv rb *m cs_NC cs *m Jt^T \in unitmx.
  by move: h; rewrite /CalculateJKT /inverse; case: ifP.
have [Jkt' [Lt' [h' eL tu [Q [eQ eJ]]]]] := jktE u; move: h; rewrite h' => -[<- <-].
have [_ _ _ [e1 e2 e3 e4 [e5 e6]]] := rbE hA hJ hrb.
exact: (Jkt_min hA hJ erefl erefl e1 e2 e3 e4 e5 e6 erefl tu eL eQ eJ hb).
Qed.

(* acceleration under gravity torque plus an extra torque *)
Lemma acc_extra y a f :
  contact_motion A J G (rb_tgrav rb + y) a f -> a = U *m y.
Proof.
move=> /(rb_motion hA hJ hrb)[-> _].
have hm : contact_motion A J G (rb_tgrav rb) (acc_of (cs_AinvNC cs) G (rb_tgrav rb))
   (getContactForce rb (rb_tgrav rb)) by apply/(rb_motion hA hJ hrb).
have [_ /(_ hb) [h0 _]] := rb_grav hA hJ hrb hm.
rewrite /acc_of (_ : actuate _ - G = actuate (rb_tgrav rb) - G + actuate y).
  by rewrite mulmxDr -/(acc_of _ _ _) h0 add0r; exact: mul_actuate.
by rewrite addrAC /actuate add_col_mx addr0.
Qed.

Lemma task_acc t (Jt : 'M[R]_(t, 6 + n)) Jkt Lt fs a f :
  CalculateJKT Jt (rb_Ainv rb) (cs_NC cs) (cs_Winv cs) = Some (Jkt, Lt) ->
  contact_motion A J G (rb_tgrav rb + Jkt *m Lt *m fs) a f -> Jt *m a = fs.
Proof. by move=> /jkt_inv h /acc_extra ->; rewrite mulmxA mulmxA h mul1mx. Qed.

(* every null matrix built from prev annihilates whatever prev annihilates *)
Lemma loop_top t (J0 : 'M[R]_(t, 6 + n)) :
  forall ts ls ref (Nprev : 'M[R]_n) tau,
  CalcTaskSpace (rb_Ainv rb) cs (Some Nprev) ts = Some ls ->
  J0 *m U *m Nprev = 0 ->
  J0 *m U *m TaskTorqueLoop ref (Some Nprev) tau ls = J0 *m U *m tau.
Proof.
elim=> [|tk ts IH] ls ref Np tau /=; first by case=> <-.
case hk: (CalculateJKT _ _ _ _) => [[Jkt Lt]|] //.
case hc: (CalcTaskSpace _ _ _ ts) => [ls'|] // [<-] h /=.
rewrite (IH _ _ _ _ hc); last by rewrite /CalculateTaskNullSpace mulmxA h mul0mx.
by rewrite mulmxDr [_ *m (Np *m _)]mulmxA h mul0mx addr0.
Qed.

Lemma null_self t (J0 : 'M[R]_(t, 6 + n)) Jkt Lt :
  J0 *m U *m (Jkt *m Lt) = 1%:M ->
  J0 *m U *m CalculateTaskNullSpace Jkt Lt J0 (cs_AinvNC cs) 1%:M = 0.
Proof.
move=> h; rewrite /CalculateTaskNullSpace mul1mx mulmxBr mulmx1 -/U.
have -> : J0 *m U *m (Jkt *m Lt *m J0 *m U) = J0 *m U *m (Jkt *m Lt) *m (J0 *m U).
  by rewrite !mulmxA.
by rewrite h mul1mx subrr.
Qed.

Lemma top_priority tk ts ls ref a f :
  CalcTaskSpace (rb_Ainv rb) cs None (tk :: ts) = Some ls ->
  contact_motion A J G (rb_tgrav rb + TaskTorqueLoop ref None 0 ls) a f ->
  exists l0 ls', [/\ ls = l0 :: ls', lv_task l0 = tk & tk_J (lv_task l0) *m a = ref l0].
Proof.
rewrite /=; case hk: (CalculateJKT _ _ _ _) => [[Jkt Lt]|] //.
case hc: (CalcTaskSpace _ _ _ ts) => [ls'|] // [<-] /acc_extra -> /=.
eexists; exists ls'; split; [by reflexivity | by [] | rewrite /=].
have h := jkt_inv hk.
rewrite mulmxA (loop_top _ _ hc) ?(null_self h) //.
by rewrite mulmxA h mul1mx.
Qed.

(* levels decoupled from the higher ones keep their reference *)
Lemma loop_decoupled lpre (l : level R n) lpost ref :
  forall ts Np tau,
  CalcTaskSpace (rb_Ainv rb) cs (Some Np) ts = Some (lpre ++ l :: lpost) ->
  let K := tk_J (lv_task l) *m U in
  (forall l', List.In l' lpre -> K *m (lv_Jkt l' *m lv_Lambda l') = 0) ->
  K *m Np = K -> K *m tau = 0 ->
  K *m TaskTorqueLoop ref (Some Np) tau (lpre ++ l :: lpost) = ref l.
Proof.
elim: lpre => [|l1 lpre IH] [|tk ts] Np tau //=;
  case hk: (CalculateJKT _ _ _ _) => [[Jkt Lt]|] //;
  case hc: (CalcTaskSpace _ _ _ ts) => [ls'|] // [<- E] /=.
  move=> _ kN kt; rewrite -E; have h := jkt_inv hk.
  rewrite (loop_top _ _ hc); last first.
    rewrite /CalculateTaskNullSpace mulmxA kN.
    by have := null_self h; rewrite /CalculateTaskNullSpace mul1mx.
  by rewrite mulmxDr kt add0r mulmxA kN mulmxA h mul1mx.
move=> hd kN kt; subst ls'.
have h1 := hd _ (or_introl erefl); rewrite /= in h1.
apply: (IH ts _ _ hc).
- by move=> l' hl; apply: hd; right.
- rewrite /CalculateTaskNullSpace mulmxA kN mulmxBr mulmx1 -/U.
  by rewrite -(mulmxA (Jkt *m Lt)) mulmxA h1 mul0mx subr0.
by rewrite mulmxDr kt add0r mulmxA kN mulmxA h1 mul0mx.
Qed.

Lemma loop_None ref ls : TaskTorqueLoop ref None 0 ls = TaskTorqueLoop (R := R) (n := n) ref (Some 1%:M) 0 ls.
Proof. by case: ls => //= l ls; rewrite mul1mx add0r. Qed.

Lemma decoupled_priority ts lpre (l : level R n) lpost ref a f :
  CalcTaskSpace (rb_Ainv rb) cs None ts = Some (lpre ++ l :: lpost) ->
  (forall l' x a f, List.In l' lpre ->
     contact_motion A J G (rb_tgrav rb + lv_Jkt l' *m lv_Lambda l' *m x) a f ->
     tk_J (lv_task l) *m a = 0) ->
  contact_motion A J G (rb_tgrav rb + TaskTorqueLoop ref None 0 (lpre ++ l :: lpost)) a f ->
  tk_J (lv_task l) *m a = ref l.
Proof.
move=> hc hd /acc_extra ->; rewrite loop_None mulmxA.
have hc1 : CalcTaskSpace (rb_Ainv rb) cs (Some 1%:M) ts = Some (lpre ++ l :: lpost).
  by rewrite -hc; case: (ts).
apply: (loop_decoupled _ hc1); rewrite ?mulmx1 ?mulmx0 //.
move=> l' hl; apply: mx_colP => x; rewrite mul0mx.
have [a' [f' hm]] := rb_motion_ex hA hJ hrb (rb_tgrav rb + lv_Jkt l' *m lv_Lambda l' *m x).
by rewrite -(hd _ _ _ _ hl hm) (acc_extra hm) !mulmxA.
Qed.

Lemma jkt_consistent t (Jt : 'M[R]_(t, 6 + n)) Jkt Lt :
  CalculateJKT Jt (rb_Ainv rb) (cs_NC cs) (cs_Winv cs) = Some (Jkt, Lt) ->
  [/\ (let P := Jkt *m Lt *m Jt *m rsubmx (cs_AinvNC cs) in P *m P = P),
      (forall y a f, contact_motion A J G
         (rb_tgrav rb + CalculateTaskNullSpace Jkt Lt Jt (cs_AinvNC cs) 1%:M *m y) a f ->
         Jt *m a = 0) &
      (forall tau fs, (forall a f, contact_motion A J G (rb_tgrav rb + tau) a f -> Jt *m a = fs) ->
         quad (cs_W cs) (Jkt *m Lt *m fs) <= quad (cs_W cs) tau)].
Proof.
move=> hk; have h := jkt_inv hk; split.
- rewrite /= -/U.
  have -> : Jkt *m Lt *m Jt *m U *m (Jkt *m Lt *m Jt *m U) =
            Jkt *m Lt *m (Jt *m U *m (Jkt *m Lt)) *m (Jt *m U) by rewrite !mulmxA.
  by rewrite h mulmx1 !mulmxA.
- by move=> y a f /acc_extra ->; rewrite mulmxA mulmxA (null_self h) mul0mx.
move=> tau fs ht; have [a [f hm]] := rb_motion_ex hA hJ hrb (rb_tgrav rb + tau).
by apply: (jkt_min hk); rewrite -(ht _ _ hm) (acc_extra hm) mulmxA.
Qed.

End TaskMain.
End Main.
