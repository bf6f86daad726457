(* The loop over the tasks of the reduced model: accelerations. *)
From mathcomp Require Import all_ssreflect all_algebra.
From mathcomp Require Import zify.
From Verif Require Import LinAlg Dyn_Model Dyn_Spec Dyn_Proofs RedM_Model RedM_Spec RedM_Proofs Red_Model Geo_Spec.
From Verif Require Import DMat DMatL Cone_Model QP_Model RTq_Model RTq_Spec RTq_Proofs RTq_Loop RTS_Model RTS_Acc RTS_NC.
Set Implicit Arguments.
Unset Strict Implicit.
Unset Printing Implicit Defensive.
Import Order.TTheory GRing.Theory Num.Theory.
Local Open Scope ring_scope.

Section Values.
Variable R : realFieldType.
Local Notation dm := (dm R).
Variables (rb : rrobot R) (c n K : nat).
Hypothesis szd : rb_sized rb c n K.
Local Notation rm := (c + 6)%N.
Implicit Types (s p : rtask R) (T : 'cV[R]_(6 + c + n)).

(* (a, rotm * b) for the base part of a generalised force *)
Definition turn (rot : 'M[R]_3) : 'M[R]_6 := (block_mx 1%:M 0 0 rot : 'M_(3 + 3)).
Definition base_part T : 'cV[R]_6 := usubmx (usubmx T).

Lemma turn_tr rot : rotation rot -> (turn rot)^T *m turn rot = 1%:M.
Proof.
case=> h _; rewrite /turn; change 6%N with (3 + 3)%N; rewrite tr_block_mx mulmx_block !trmx1 !trmx0.
by rewrite !mulmx0 !mul0mx !mulmx1 !addr0 !add0r h -scalar_mx_block.
Qed.

Lemma wrenchE rot (temp : dm) T : mx_of (6 + c + n) 1 temp = T -> wrench rot temp = turn rot *m base_part T.
Proof.
move=> <-; rewrite /wrench /turn /base_part; set x := usubmx _.
have -> : x = col_mx (col_of 3 (fun k => ent temp k 0)) (col_of 3 (fun k => ent temp (3 + k)%N 0)).
  apply/colP => i; rewrite /x !mxE /=; case: split_ordP => j ->; by rewrite !mxE.
by rewrite (@mul_block_col _ 3 3 3 3 1) !mul0mx mul1mx addr0 add0r.
Qed.

Definition pushed T : 'cV[R]_rm :=
  col_mx (usubmx (mx_of rm 6 (w_Jb rb)) *m (turn (w_rot rb) *m base_part T)) (mx_of 6 n (w_JIT rb) *m dsubmx T).

Lemma seg_bottom (temp tnc : dm) T : mx_of (6 + c + n) 1 temp = T -> (forall a, ent tnc a 0 = ent temp (6 + c + a)%N 0) ->
  mx_of n 1 tnc = dsubmx T.
Proof. by move=> <- h; apply/matrixP => a b; rewrite (ord1 b) !mxE h. Qed.

Definition force_of_task t s : 'cV[R]_(6 + c + n) :=
  (mx_of t (6 + c + n) (u_J s))^T *m (mx_of t t (u_Lam s) *m mx_of t 1 (u_f s)).

Lemma nc_first_val p s t : nc_sized c n t s -> u_nch s = 0%N -> dims (u_Null p) rm rm ->
  exists nR tnc f, nc_torque rb (Some p) s = Some (nR, tnc, f) /\
   [/\ dims nR rm 1, dims tnc n 1, dims f 6 1, mx_of rm 1 nR = mx_of rm rm (u_Null p) *m pushed (force_of_task t s) &
       mx_of n 1 tnc = dsubmx (force_of_task t s)].
Proof.
move=> h e0 dN; have [nR [tnc [force [e1 [d1 d2 d3] [temp [h1 h2 h3 h4 h5]]]]]] := nc_first_ok szd h e0 dN.
exists nR, tnc, force; split=> //; rewrite -/(force_of_task t s) in h2.
by split=> //; rewrite ?h5 ?h4 /pushed ?(seg_bottom h2 h3) ?(wrenchE _ h2).
Qed.

Lemma nc_next_val p s t tp : nc_sized c n t s -> u_nch s <> 0%N -> nc_sized c n tp p -> dims (u_Null p) rm rm ->
  mx_of tp n (u_JNC p) = rsubmx (mx_of tp (6 + c + n) (u_J p)) ->
  let T := force_of_task t s in
  let Jp := mx_of tp (6 + c + n) (u_J p) in
  let T' := T - Jp^T *m (mx_of tp tp (u_Lam p) *m (Jp *m (mx_of (6 + c + n) (6 + c + n) (w_AN rb) *m T))) in
  exists nR nNC f, nc_torque rb (Some p) s = Some (nR, nNC, f) /\
    [/\ dims nR rm 1, dims nNC n 1, dims f 6 1, mx_of rm 1 nR = mx_of rm rm (u_Null p) *m pushed T' & mx_of n 1 nNC = dsubmx T'].
Proof.
case: (szd) => em ec en ev [er _ dJb dJT [dJI dNI dAN]] [_ df dJ _ dL] /eqP/negbTE e0 [_ _ dJp dJNC dLp] dNp ejn T Jp T'.
rewrite /nc_torque er en ev ec.
have [Lf [-> dLf mLf]] := dmul_mx dL df.
have [temp [-> dtemp mtemp]] := dmul_mx (dims_dtr dJ) dLf.
have eT : mx_of (6 + c + n) 1 temp = T by rewrite mtemp mx_dtr mLf.
have [tnc [-> dtnc htnc]] := @seg_ok _ temp _ (6 + c) n dtemp (leqnn _).
have mtnc := seg_bottom eT htnc.
have [|force [-> dfo mfo]] := @turned_ok _ rb temp _ dtemp; first by lia.
have [Jt [eJt dJt mJt]] := top_ok szd; rewrite ec in eJt; rewrite eJt.
have [a [ea da ma]] := dmul_mx dJt dfo.
have [b [eb db mb]] := dmul_mx dJT dtnc.
have [w1 [w2 [e1 e2 d2 h2]]] := two_segs da db.
rewrite ea e1 eb e2 e0.
have [x1 [-> dx1 mx1]] := dmul_mx dAN dtemp.
have [x2 [-> dx2 mx2]] := dmul_mx dJp dx1.
have [nf [-> dnf mnf]] := dmul_mx dLp dx2.
have [temp2 [-> dt2 mt2]] := dmul_mx (dims_dtr dJp) dnf.
pose T2 := Jp^T *m (mx_of tp tp (u_Lam p) *m (Jp *m (mx_of (6 + c + n) (6 + c + n) (w_AN rb) *m T))).
have eT2 : mx_of (6 + c + n) 1 temp2 = T2 by rewrite mt2 mx_dtr mnf mx2 mx1 eT.
have [s2 [-> ds2 hs2]] := @seg_ok _ temp2 _ (6 + c) n dt2 (leqnn _).
have ms2 := seg_bottom eT2 hs2.
have [nNC [-> dnNC mnNC]] := dsub_mx dtnc ds2.
have [|f2 [-> df2 mf2]] := @turned_ok _ rb temp2 _ dt2; first by lia.
have [hc [-> dhc hhc]] := @seg_ok _ w2 _ 0 c d2 (leq_addr _ _).
have [y1 [-> dy1 my1]] := dmul_mx dJt df2.
have [y2 [-> dy2 my2]] := dsub_mx dhc dy1.
have [z1 [ez1 dz1 mz1]] := dmul_mx (dims_dtr dJNC) dnf.
have [z2 [ez2 dz2 mz2]] := dsub_mx dtnc dz1.
have [z3 [ez3 dz3 mz3]] := dmul_mx dJT dz2.
have [v1 [v2 [f1 f2' g2 k2]]] := two_segs dy2 dz3.
rewrite f1 ez1 ez2 ez3 f2'.
have [nR [-> dnR mnR]] := dmul_mx dNp g2.
have [df' [-> ddf _]] := dsub_mx dfo df2.
exists nR, nNC, df'; split=> //; split=> //; last by rewrite mnNC mtnc ms2 /T' -/T2 linearB.
rewrite mnR k2 my2 mz3 mz2 mtnc mz1 mx_dtr ejn my1 mJt mf2 (wrenchE _ eT2).
have -> : mx_of c 1 hc = usubmx (mx_of rm 6 (w_Jb rb)) *m (turn (w_rot rb) *m base_part T).
  have -> : mx_of c 1 hc = usubmx (mx_of rm 1 w2) by apply/matrixP => u v; rewrite (ord1 v) !mxE hhc.
  by rewrite h2 col_mxKu ma mJt mfo (wrenchE _ eT).
rewrite /pushed /T' -/T2 /base_part !linearB /= -!mulmxBr; congr (_ *m col_mx _ (_ *m (_ - _))).
by rewrite /T2 -mul_dsub_mx trmx_rsub mnf mx2 mx1 eT.
Qed.
End Values.

Section Loop.
Variable R : realFieldType.
Local Notation dm := (dm R).
Variables c n m K : nat.
Variables (A : 'M[R]_(6 + c + n)) (J : 'M[R]_(6, n)) (J_C : 'M[R]_(m, 6 + c + n)) (rd : reduced R c n).
Let JR : 'M[R]_(6 + c + 6, 6 + c + n) := block_mx 1%:M 0 0 J.
Hypotheses (hA : posdef A) (hJ : row_free J) (hC : contacts_on_chains J_C) (hCf : row_free J_C)
  (hb : contacts_fix_base (n := c + n) J_C).
Hypotheses (r1 : rd_JI rd = J) (r2 : rd_ARinv rd = JR *m invmx A *m JR^T) (r3 : rd_AR rd = invmx (rd_ARinv rd))
  (r4 : rd_JRinvT rd = rd_AR rd *m JR *m invmx A) (r5 : rd_JRinvT rd = block_mx 1%:M 0 0 (rd_JIinvT rd))
  (r7 : rd_NI rd = 1%:M - J^T *m rd_JIinvT rd).
Variables (cs : contact_space R m (c + n)) (cR : contact_space R m (c + 6)).
Hypotheses (ecs : CalculateContactConstraint (n := c + n) J_C (invmx A) = Some cs)
  (ecR : CalculateContactConstraint (n := c + 6) (J_CR J_C) (rd_ARinv rd) = Some cR).
Local Notation M := (cs_AinvNC cs : 'M[R]_(6 + c + n)).
Local Notation rm := (c + 6)%N.
Variable solver : nat -> qp R -> option (nat -> R).
Variables (rb : rrobot R) (Jb : 'M[R]_(c + 6, 6)) (Lb : 'M[R]_6).
Hypotheses (szd : rb_sized rb c n K) (hrot : rotation (w_rot rb))
  (ejb : CalculateJKT (n := c + 6) (row_mx (turn (w_rot rb)) 0) (rd_ARinv rd) (cs_NC cR) (cs_Winv cR) = Some (Jb, Lb))
  (m1 : mx_of rm 6 (w_Jb rb) = Jb) (m2 : mx_of 6 n (w_JIT rb) = rd_JIinvT rd)
  (m3 : mx_of (6 + c + n) (6 + c + n) (w_AN rb) = M).
Implicit Types (s : stask R c n) (fl : red_task).

(* a task of the contact joints: the reduced Jacobian that CalcJKT_R takes gives back the full one *)
Definition red_J fl s : 'M[R]_(s_dof s, 6 + c + 6) :=
  if rt_cmm fl then row_mx (lsubmx (s_J s)) (rsubmx (s_J s) *m (rd_JIinvT rd)^T) else row_mx (lsubmx (s_J s)) 0.
Definition is_con fl s : Prop :=
  [/\ rt_noncont fl = false, rt_cmm fl || rt_reduced fl & s_J s = red_J fl s *m JR].
Definition is_nc fl s : Prop :=
  [/\ rt_noncont fl, rt_reduced fl = false, rt_cmm fl = false & rsubmx (lsubmx (s_J s)) = 0 :> 'M_(_, c)].

Definition lam s : 'M[R]_(s_dof s) := invmx (s_J s *m M *m (s_J s)^T).
Definition gforce s : 'cV[R]_(6 + c + n) := (s_J s)^T *m (lam s *m s_f s).
Definition through s (F : 'cV[R]_(6 + c + n)) : 'cV[R]_(6 + c + n) := F - (s_J s)^T *m (lam s *m (s_J s *m (M *m F))).

(* contact tasks first, then the non-contact ones, nc_heirarchy_ 0 for the first of them only *)
Fixpoint shape (pv : option (stask R c n)) (l : seq (red_task * stask R c n)) : Prop :=
  if l is (fl, s) :: l' then
    (is_con fl s /\ pv = None /\ shape None l') \/
    (is_nc fl s /\ (rt_nch fl = 0%N <-> pv = None) /\ shape (Some s) l')
  else True.

Fixpoint racc (P : 'M[R]_(6 + c + n)) (pv : option (stask R c n)) (l : seq (red_task * stask R c n)) : 'cV[R]_(6 + c + n) :=
  if l is (fl, s) :: l' then
    if rt_noncont fl then P *m (M *m (if pv is Some p then through p (gforce s) else gforce s)) + racc P (Some s) l'
    else P *m (M *m gforce s) + racc (P *m (1%:M - M *m (s_J s)^T *m lam s *m s_J s)) None l'
  else 0.

Definition sim (N : 'M[R]_rm) (P : 'M[R]_(6 + c + n)) : Prop :=
  forall x, M *m JR^T *m (actuate (N *m x) : 'cV_(6 + c + 6)) = P *m (M *m JR^T *m (actuate x : 'cV_(6 + c + 6))).
Definition keep (P : 'M[R]_(6 + c + n)) : Prop :=
  forall t : 'cV[R]_n, P *m (M *m (col_mx 0 (rd_NI rd *m t) : 'cV_(6 + c + n))) = M *m (col_mx 0 (rd_NI rd *m t) : 'cV_(6 + c + n)).

(* the task above, as left in the loop *)
Definition above (prev : option 'M[R]_rm) (pv : option (stask R c n)) (p : rtask R) : Prop :=
  [/\ exists2 N, prev = Some N & dims (u_Null p) rm rm /\ mx_of rm rm (u_Null p) = N &
      if pv is Some s then [/\ u_nc p, u_J p = of_mx (s_J s), u_JNC p = of_mx (rsubmx (s_J s)), u_Lam p = of_mx (lam s) &
        u_f p = of_mx (s_f s) /\ rsubmx (lsubmx (s_J s)) = 0 :> 'M_(_, c)]
      else True].

Let acc_of (st : lstate R) : 'cV[R]_(6 + c + n) :=
  M *m (actuate (distribute rd (mx_of rm 1 (l_R st)) (mx_of n 1 (l_NC st))) : 'cV_(6 + c + n)).

Lemma jkt_same t (Jt : 'M[R]_(t, 6 + rm)) :
  CalculateJKT_R Jt (cs_AinvNC cR) (cs_Winv cR) = CalculateJKT Jt (rd_ARinv rd) (cs_NC cR) (cs_Winv cR).
Proof.
rewrite /CalculateJKT_R /CalculateJKT.
have -> : cs_AinvNC cR = rd_ARinv rd *m cs_NC cR.
  by move: ecR; rewrite /CalculateContactConstraint; case: (inverse _) => // l [<-].
by rewrite !mulmxA; case: (inverse _) => // l; rewrite !mulmxA.
Qed.

Let MR := cs_AinvNC cR.

Lemma con_space fl s (r : jktr R c (s_dof s)) : is_con fl s ->
  CalcJKT_R M MR (cs_Winv cR) (rd_JIinvT rd) fl s = Some r ->
  [/\ k_LamR r = lam s, k_Lam r = of_mx (lam s), k_JR r = red_J fl s, s_J s *m M *m (s_J s)^T \in unitmx &
      CalculateJKT (n := rm) (red_J fl s) (rd_ARinv rd) (cs_NC cR) (cs_Winv cR) = Some (k_Jkt r, lam s)].
Proof.
case=> h1 h2 h3 e.
have {e} [x [ex el ej ek]] : exists x, [/\ CalculateJKT (n := rm) (red_J fl s) (rd_ARinv rd) (cs_NC cR) (cs_Winv cR) = Some (k_Jkt r, x),
    k_LamR r = x, k_Lam r = of_mx x & k_JR r = red_J fl s].
  move: e; rewrite /CalcJKT_R /red_J h1 andbT; move: h2; case: (rt_cmm fl) => /= [_|->]; rewrite jkt_same.
    by case: (CalculateJKT _ _ _ _) => // -[u v] /= [<-] /=; exists v.
  by case: (CalculateJKT _ _ _ _) => // -[u v] /= [<-] /=; exists v.
suff [e u] : x = lam s /\ s_J s *m M *m (s_J s)^T \in unitmx by rewrite -e; split.
have iAR : invmx (rd_AR rd) = rd_ARinv rd by rewrite r3 invmxK.
have r3' : rd_AR rd = invmx (JR *m invmx A *m JR^T) by rewrite r3 r2.
have ejk' : CalculateJKT (n := rm) (red_J fl s) (invmx (rd_AR rd)) (cs_NC cR) (cs_Winv cR) = Some (k_Jkt r, x) by rewrite iAR.
have ecR' : CalculateContactConstraint (n := rm) (J_CR J_C) (invmx (rd_AR rd)) = Some cR by rewrite iAR.
have [u -> _ _] := RTS_Acc.jktE (ARpd hA hJ r3') (JCR_free J hC hCf) ecR' ejk'.
have tl := task_lambda hC r2 r3 ecs ecR h3.
by split; [congr invmx | rewrite -tl].
Qed.

Lemma sim1 : sim 1%:M 1%:M.
Proof. by move=> x; rewrite !mul1mx. Qed.
Lemma keep1 : keep 1%:M.
Proof. by move=> x; rewrite mul1mx. Qed.

Lemma con_sim fl s (r : jktr R c (s_dof s)) N P : is_con fl s -> sim N P ->
  CalculateJKT (n := rm) (red_J fl s) (rd_ARinv rd) (cs_NC cR) (cs_Winv cR) = Some (k_Jkt r, lam s) ->
  sim (CalculateTaskNullSpace (k_Jkt r) (lam s) (red_J fl s : 'M_(_, 6 + rm)) MR N) (P *m (1%:M - M *m (s_J s)^T *m lam s *m s_J s)).
Proof. by case=> _ _ h3 sm ek x; exact: (red_null_acc hA hJ hC hCf hb r2 r3 ecs ecR h3 ek sm). Qed.

Lemma con_keep fl s P : is_con fl s -> keep P -> keep (P *m (1%:M - M *m (s_J s)^T *m lam s *m s_J s)).
Proof.
case=> _ _ h3 kp t; rewrite -mulmxA mulmxBl mul1mx.
have -> : M *m (s_J s)^T *m lam s *m s_J s *m (M *m (col_mx 0 (rd_NI rd *m t) : 'cV_(6 + c + n))) = 0.
  rewrite -[_ *m s_J s *m _]mulmxA {2}h3 -[red_J fl s *m JR *m _]mulmxA.
  by rewrite (JR_null hA hJ hC r2 r3 r4 r5 r7 ecs) !mulmx0.
by rewrite subr0 kp.
Qed.

Lemma con_step fl s (r : jktr R c (s_dof s)) N P (f : 'cV_(s_dof s)) : is_con fl s -> sim N P ->
  CalculateJKT (n := rm) (red_J fl s) (rd_ARinv rd) (cs_NC cR) (cs_Winv cR) = Some (k_Jkt r, lam s) ->
  M *m (actuate (distribute rd (N *m (k_Jkt r *m lam s *m f)) 0) : 'cV_(6 + c + n)) = P *m (M *m ((s_J s)^T *m (lam s *m f))).
Proof.
case=> _ _ h3 sm ek; rewrite (JR_act r1) mulmx0 col_mx0 addr0 mulmxA sm; congr (_ *m _).
by rewrite (red_task_acc hA hJ hC hCf hb r2 r3 ecs ecR h3 ek) -!mulmxA.
Qed.

Lemma nc_step (F : 'cV[R]_(6 + c + n)) N P : rsubmx ((usubmx F)^T : 'rV_(6 + c)) = 0 -> sim N P -> keep P ->
  M *m (actuate (distribute rd (N *m pushed rb F) (dsubmx F)) : 'cV_(6 + c + n)) = P *m (M *m F).
Proof.
move=> z sm kp; rewrite /pushed m1 m2 (nc_acc hA hJ hC hCf hb r1 r2 r3 r7 ecs ecR ejb sm kp); congr (_ *m (_ *m _)).
rewrite mulmxA turn_tr // mul1mx /base_part -[RHS]vsubmxK -[usubmx F in RHS]vsubmxK; congr (col_mx (col_mx _ _) _).
by apply: trmx_inj; rewrite trmx_dsub z trmx0.
Qed.

Lemma nc_gforce s (x : 'cV_(s_dof s)) : rsubmx (lsubmx (s_J s)) = 0 :> 'M_(_, c) -> rsubmx ((usubmx ((s_J s)^T *m x))^T : 'rV_(6 + c)) = 0.
Proof.
move=> z; rewrite -trmx_dsub -!mul_usub_mx -mul_dsub_mx -trmx_lsub -trmx_rsub z trmx0 mul0mx trmx0 //.
Qed.

Lemma distD a b a' b' : M *m (actuate (distribute rd (a + a') (b + b')) : 'cV_(6 + c + n)) =
  M *m (actuate (distribute rd a b) : 'cV_(6 + c + n)) + M *m (actuate (distribute rd a' b') : 'cV_(6 + c + n)).
Proof.
have -> : distribute rd (a + a') (b + b') = distribute rd a b + distribute rd a' b'.
  by rewrite /distribute add_col_mx !linearD /= addrACA.
have h (x y : 'cV[R]_(c + n)) : actuate (x + y) = actuate x + actuate y by rewrite /actuate add_col_mx addr0.
by rewrite -mulmxDr h.
Qed.

(* the whole loop *)
Lemma red_levels l : forall i prev pv st out P,
  space_loop M MR (cs_Winv cR) (rd_JIinvT rd) prev l = Some out -> shape pv l ->
  sim (if prev is Some N then N else 1%:M) P -> keep P ->
  dims (l_R st) rm 1 -> dims (l_NC st) n 1 ->
  (l <> [::] -> if ohead (l_done st) is Some p then above prev pv p else prev = None) ->
  (prev = None -> if l is (fl, _) :: _ then rt_noncont fl = false else True) ->
  exists st', levels solver false rb i st out = Some (st', [::], true) /\
   [/\ dims (l_R st') rm 1, dims (l_NC st') n 1, acc_of st' = acc_of st + racc P pv l &
       List.Forall2 (fun x o => u_Lam o = of_mx (lam x.2) /\ s_J x.2 *m M *m (s_J x.2)^T \in unitmx) l out].
Proof.
case: (szd) => em ec en ev [er _ _ _ _].
elim: l => [|[fl s] l IH] i prev pv st out P.
  move=> [<-] _ _ _ dR dN _ _; exists st; split=> //; split=> //; by rewrite addr0.
move=> e sh sm kp dR dN /(_ ltac:(by [])) hd hn.
have {e} [r er' e] : exists2 r, CalcJKT_R M MR (cs_Winv cR) (rd_JIinvT rd) fl s = Some r &
    (if l is [::] then Some [:: filled fl r (u_Null (s_old s))] else
    N <- (if rt_noncont fl then prev else
            Some (CalculateTaskNullSpace (k_Jkt r) (k_LamR r) (k_JR r : 'M_(_, 6 + (c + 6))) MR
                    (if prev is Some N then N else 1%:M))) ;;
    l' <- space_loop M MR (cs_Winv cR) (rd_JIinvT rd) (Some N) l ;;
    Some (filled fl r (of_mx N) :: l')) = Some out.
  by move: e; rewrite /=; case: (CalcJKT_R _ _ _ _ _ _) => // r e; exists r.
case: sh => [[ic [epv sh]]|[ic [epv sh]]].
- have [k1 k2 k3 k5 k4] := con_space ic er'.
  case: (ic) => h1 h2 h3; rewrite h1 in e.
  set N := (if prev is Some N then N else 1%:M) in sm e.
  pose N' := CalculateTaskNullSpace (k_Jkt r) (lam s) (red_J fl s : 'M_(_, 6 + rm)) MR N.
  have [Nu [out' [eo eN eout]]] : exists Nu out', [/\ out = filled fl r Nu :: out', l <> [::] -> Nu = of_mx N' &
      space_loop M MR (cs_Winv cR) (rd_JIinvT rd) (Some N') l = Some out'].
    case: l e {IH sh} => [[<-]|x l].
      by exists (u_Null (s_old s)), [::].
    by rewrite k1 k3 -/N'; case: (space_loop _ _ _ _ _ _) => // o [<-]; exists (of_mx N'), o.
  rewrite eo /= /one /= h1 /level /= k2.
  have dJL : dims (of_mx (k_Jkt r)) rm (s_dof s) by [].
  have [JL [-> dJ mJL]] := dmul_mx (dims_of (k_Jkt r)) (dims_of (lam s)).
  have [h [-> dh mh]] := dmul_mx dJ (dims_of (s_f s)).
  have [nR [-> dnR mnR]] : exists nR, [/\ below (ohead (l_done st)) h = Some nR, dims nR rm 1 & mx_of rm 1 nR = N *m mx_of rm 1 h].
    rewrite /below /N; move: hd; case: (ohead _) => [p|].
      by case=> -[N0 -> [dN0 <-]] _; exact: dmul_mx.
    by move=> ->; exists h; rewrite mul1mx.
  have [tR [-> dtR mtR]] := dadd_mx dR dnR.
  have [tN [etN dtN mtN]] := dadd_mx dN (conj erefl erefl : dims (dzero R n 1) n 1).
  rewrite en etN.
  rewrite mx_zero in mtN.
  set s2 := with_null _ _ _.
  have [||st' [-> [g1 g2 g3 g4]]] := IH i.+1 (Some N') None (LS tR tN (l_first st) (l_force st) (s2 :: l_done st)) out'
     (P *m (1%:M - M *m (s_J s)^T *m lam s *m s_J s)) eout sh (con_sim ic sm k4) (con_keep ic kp) dtR dtN.
  + by move=> nl; split=> //; exists N' => //; rewrite /s2 /= eN //; split=> //; rewrite mx_of_mx.
  + by [].
  exists st'; split=> //; split=> //.
  + rewrite g3 /acc_of /= mtR mtN distD -!addrA; congr (_ + (_ + _)).
    by rewrite mnR mh mJL !mx_of_mx (con_step _ ic sm k4).
  + by constructor.
- case: (ic) => i1 i2 i3 i4; rewrite i1 in e.
  have [k1 k2 k3] : [/\ k_Lam r = of_mx (lam s), k_JNC r = of_mx (rsubmx (s_J s)) & s_J s *m M *m (s_J s)^T \in unitmx].
    move: er'; rewrite /CalcJKT_R i3 i2 i1 /=; case eI: (inverse _) => [L|] //= [<-] /=.
    by have [? ->] := inverseP eI.
  case: prev sm hd hn e => [N|] sm hd hn e; last by have := hn erefl; rewrite i1.
  case ehd: (ohead (l_done st)) hd => [p|] // [[N0 [<-] [dNp mNp]] hpv].
  have [Nu [out' [eo eN eout]]] : exists Nu out', [/\ out = filled fl r Nu :: out', l <> [::] -> Nu = of_mx N &
      space_loop M MR (cs_Winv cR) (rd_JIinvT rd) (Some N) l = Some out'].
    case: l e {IH sh hn} => [[<-]|x l].
      by exists (u_Null (s_old s)), [::].
    by case: (space_loop _ _ _ _ _ _) => // o [<-]; exists (of_mx N), o.
  rewrite eo /= /one /= i1 ehd.
  set s1 := filled fl r Nu.
  have ns : nc_sized c n (s_dof s) s1 by rewrite /s1; split=> //=; rewrite ?k1 ?k2.
  have fT : force_of_task c n (s_dof s) s1 = gforce s by rewrite /force_of_task /s1 /= k1 !mx_of_mx.
  pose F := if pv is Some q then through q (gforce s) else gforce s.
  have zF : rsubmx ((usubmx F)^T : 'rV_(6 + c)) = 0.
    rewrite /F; case: (pv) hpv => [q [_ _ _ _ [_ zq]]|_]; last exact: nc_gforce.
    by rewrite /through !linearB /= (nc_gforce _ i4) (nc_gforce _ zq) subrr.
  have [nR [nN [f [-> [d1 d2 d3 q1 q2]]]]] : exists nR nN f, nc_torque rb (Some p) s1 = Some (nR, nN, f) /\
     [/\ dims nR rm 1, dims nN n 1, dims f 6 1, mx_of rm 1 nR = N *m pushed rb F & mx_of n 1 nN = dsubmx F].
    rewrite /F; clear zF F; case: pv epv hpv sh => [q|] epv hpv sh.
      case: hpv => p1 p2 p3 p4 [p5 _].
      have np : nc_sized c n (s_dof q) p by split; rewrite ?p2 ?p3 ?p4 ?p5.
      have nz : u_nch s1 <> 0%N by move=> /= z; have := proj1 epv z.
      have [|nR [nN [f [e1 [d1 d2 d3 q1 q2]]]]] := nc_next_val szd ns nz np dNp; first by rewrite p2 p3 !mx_of_mx.
      exists nR, nN, f; split=> //; rewrite q1 q2 fT m3 p2 p4 !mx_of_mx mNp //.
    have z : u_nch s1 = 0%N by apply: (proj2 epv).
    have [nR [nN [f [e1 [d1 d2 d3 q1 q2]]]]] := nc_first_val szd ns z dNp.
    by exists nR, nN, f; split=> //; rewrite q1 q2 fT mNp.
  have [tR [-> dtR mtR]] := dadd_mx dR d1.
  have [tN [-> dtN mtN]] := dadd_mx dN d2.
  set s2 := with_null _ _ _; set fst' := if _ then _ else _.
  have [||st' [-> [g1 g2 g3 g4]]] := IH i.+1 (Some N) (Some s) (LS tR tN fst' (l_force st) (s2 :: l_done st)) out'
     P eout sh sm kp dtR dtN.
  + by move=> nl; split=> //; exists N => //; rewrite /s2 /= eN //; split=> //; rewrite mx_of_mx.
  + by [].
  exists st'; split=> //; split=> //.
  + rewrite g3 /acc_of /= mtR mtN distD -!addrA; congr (_ + (_ + _)).
    by rewrite q1 q2 (nc_step zF sm kp).
  + by constructor.
Qed.

Lemma space_ok l : forall prev pv, shape pv l -> (prev = None -> if l is (fl, _) :: _ then rt_noncont fl = false else True) ->
  List.Forall (fun y => s_J y.2 *m M *m (s_J y.2)^T \in unitmx) l ->
  exists out, space_loop M MR (cs_Winv cR) (rd_JIinvT rd) prev l = Some out.
Proof.
elim: l => [|[fl s] l IH] prev pv sh hp /=; first by exists [::].
move=> /List.Forall_cons_iff[/= u hu].
case: sh => [[ic [_ sh]]|[ic [_ sh]]].
  have [r ->] : exists r, CalcJKT_R M MR (cs_Winv cR) (rd_JIinvT rd) fl s = Some r.
    case: (ic) => h1 h2 h3.
    have {}u : (red_J fl s : 'M_(_, 6 + rm)) *m cs_AinvNC cR *m (red_J fl s)^T \in unitmx.
      by have := task_lambda hC r2 r3 ecs ecR h3; rewrite -[X in X \in unitmx]/(red_J fl s *m cs_AinvNC cR *m (red_J fl s)^T) => ->.
    rewrite /CalcJKT_R h1 andbT; move: h2 u; rewrite /red_J; case: (rt_cmm fl) => /= [_|->] u.
      by rewrite /CalculateJKT_R inverseE // /=; eexists.
    by rewrite /CalculateJKT_R inverseE // /=; eexists.
  case: (ic) => -> _ _; case: l IH sh hu {hp} => [|y l] IH sh hu; first by eexists.
  have [|out ->] := IH (Some (CalculateTaskNullSpace (k_Jkt r) (k_LamR r) (k_JR r : 'M_(_, 6 + (c + 6))) MR
       (if prev is Some N then N else 1%:M))) None sh _ hu; first by [].
  by eexists.
case: (ic) => h1 h2 h3 h4.
rewrite /CalcJKT_R h1 h2 h3 inverseE //=.
case: l IH sh hu hp => [|y l] IH sh hu hp; first by eexists.
case: prev hp => [N|hp]; last by have := hp erefl; rewrite h1.
by move=> _; have [|out ->] := IH (Some N) (Some s) sh _ hu; [by []|eexists].
Qed.
End Loop.
