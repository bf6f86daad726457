(* Theorems about the hierarchical torque of the reduced model: C113, C114, C116, C117. *)
From mathcomp Require Import all_ssreflect all_algebra.
From mathcomp Require Import zify.
From Verif Require Import LinAlg Dyn_Model Dyn_Spec Dyn_Proofs Dyn_Props Geo_Spec RedM_Model RedM_Spec RedM_Proofs RedM_Props.
From Verif Require Import DMat DMatL Cone_Model Cone_Spec QP_Model QP_Spec QP_Proofs QP_Loop RTq_Model RTq_Spec RTq_Proofs RTq_Loop.
Set Implicit Arguments.
Unset Strict Implicit.
Unset Printing Implicit Defensive.
Import Order.TTheory GRing.Theory Num.Theory.
Local Open Scope ring_scope.

Section Props.
Variable R : realFieldType.
Implicit Types (rb : rrobot R) (s : rtask R) (d : pcontact R).

(* C113: torque limits whose number is not that of the reduced torques: out of range, for every robot *)
Theorem C113_limit_size_refuted : forall solver rb s ts, w_ts rb = s :: ts -> w_lset rb -> nr (w_lim rb) <> w_rm rb ->
  ReducedCalcTaskControlTorque solver true rb = None.
Proof.
move=> solver rb s ts ets ls nl; rewrite /ReducedCalcTaskControlTorque ets /=.
suff -> : one solver true rb 0 (LS (dzero R (w_rm rb) 1) (dzero R (w_nc rb) 1) None (dzero R 6 1) [::]) s = None by [].
rewrite /one /=; case: (u_nc s).
  rewrite /nc_torque; case: (dmul (u_Lam s) _) => // Lf; case: (dmul (dtr _) _) => // temp.
  case: (seg temp _ _) => // tnc; case: (turned _ _) => // force; case: (dblock _ _ _ _ _) => // Jt.
  case: (dmul Jt _) => // a; case: (segw _ _ _ _) => // h1; case: (dmul _ tnc) => // b; by case: (segw _ _ _ _).
rewrite /CalcSingleTaskTorqueWithQP_R /CalcSingleTaskTorqueWithQP2.
suff -> : TaskQP (rd_of rb) (as_ts s) (dident R (w_rm rb)) (w_grav rb) = None by [].
rewrite /TaskQP /= ls; case: (blockw _ _ _ _ _ _) => // H; case: (dmul _ (u_Jkt s)) => // N1; case: (dmul N1 _) => // Nt.
case: (dmul Nt _) => // Nf; case: (dadd _ Nf) => // tp; rewrite /limit_rows.
case: (blockw _ _ _ _ _ _) => // A1.
have z A : (u <- dsub (w_lim rb) tp ;; ub1 <- segw A 0 (w_rm rb) u ;; Some ub1) = None.
  rewrite /dsub /dadd; case: ifP => // _; rewrite /segw /blockw /=.
  by case: ifP => // /andP[/eqP e _].
have zz (T : Type) A (k : dm R -> option T) : (u <- dsub (w_lim rb) tp ;; ub1 <- segw A 0 (w_rm rb) u ;; k ub1) = None.
  by have := z A; case: (dsub _ _) => // u; case: (segw _ _ _ _).
case: (if (0 < _)%N then _ else _) => // A2.
by rewrite zz.
Qed.

(* the limits of all joints, as SetTorqueLimit documents them, never have that number unless nc_dof = 6 *)
Corollary C113_all_joint_limits_refuted : forall solver rb s ts c n, w_ts rb = s :: ts -> w_lset rb ->
  nr (w_lim rb) = (c + n)%N -> w_rm rb = (c + 6)%N -> n <> 6%N -> ReducedCalcTaskControlTorque solver true rb = None.
Proof. by move=> solver rb s ts c n e ls el er nn; apply: (C113_limit_size_refuted _ e ls); lia. Qed.

(* C114 *)
Theorem C114_contact_tasks : forall solver rb c n K d, rb_sized rb c n K ->
  List.Forall (fun s => exists t, con_sized c t s) (w_ts rb) -> nulls_sized c (w_ts rb) -> w_ts rb <> [::] ->
  (forall i q x, solver i q = Some x -> qp_feasible q x) ->
  exists res, ReducedCalcTaskControlTorque solver true rb = Some res /\
  [/\ dims (z_task res) (c + n) 1, z_fqp res = None &
      if z_ok res then
        [/\ List.Forall2 (@same_rtask R) (w_ts rb) (z_ts res),
            mx_of (c + 6) 1 (z_R res) = sum_rlevels true 1%:M (z_ts res),
            exists cf : 'cV[R]_(6 * K - 6),
              admissible (rd_of rb) d K (mx_of (c + 6) 1 (w_grav rb) + applied rb c res
                + mx_of (c + 6) (6 * K - 6) (w_NwJw rb) *m cf) &
            distributed rb (mx_of (c + n) 1 (z_task res)) (applied rb c res) 0]
      else mx_of (c + n) 1 (z_task res) = 0].
Proof.
move=> solver rb c n K d szd hts hnu nts feas; rewrite /ReducedCalcTaskControlTorque.
case: (szd) => em _ en _ [er _ _ _ _].
rewrite em en er.
have st0 : ok_state c n (w_ts rb) (LS (dzero R (c + 6) 1) (dzero R n 1) None (dzero R 6 1) [::]).
  by split=> // _; rewrite /= mx_zero.
have [st [rest [b [-> [dR [dN mN] hf hF [done [fail [h1 h2 h3 h4 [h5 h6]]]]]]]]] := con_levels_hqp solver szd d 0 hts hnu st0.
case: b h4 => [[ef es er']|_]; last first.
  by eexists; split; first by []; split=> //=; rewrite mx_zero.
rewrite /= in hf h1 h3 mN; rewrite hf.
rewrite mx_zero add0r /Nprev /= in h3.
have [t [-> dt ht]] := @spread_ok _ _ _ _ _ szd (l_R st) (l_NC st) (dzero R (c + 6) 1) (c + 6) dR dN (conj erefl erefl) (leq_addr _ _).
have eapp res : z_fqp res = None -> applied rb c res = mx_of (c + 6) 1 (z_R res).
  by rewrite /applied => ->; rewrite col_mx0 addr0.
rewrite mN !mx_zero col_mx0 addr0 in ht.
eexists; split; first by []; split=> //=; rewrite eapp //= h1 ef er' !cats0 revK; split=> //.
  by move: h2; rewrite es take_size.
case/lastP: done h1 h2 h3 es h5 h6 {hts} nts => [|dn sl] h1 h2 h3 es h5 h6 hts.
  by case: hts; apply: size0nil.
by exists (mx_of _ 1 (u_cqp sl)); exact: (h6 feas dn sl erefl).
Qed.

(* C114: a failed level leaves the torque of the levels above it in torque_task_R_ only *)
Theorem C114_failure : forall solver rb c n K, rb_sized rb c n K ->
  List.Forall (fun s => exists t, con_sized c t s) (w_ts rb) -> nulls_sized c (w_ts rb) ->
  forall res, ReducedCalcTaskControlTorque solver true rb = Some res -> z_ok res = false ->
  exists done s0 s1, [/\ z_ts res = done ++ s1 :: drop (size done).+1 (w_ts rb), 
    List.nth_error (w_ts rb) (size done) = Some s0 /\ same_rtask s0 s1, u_err s1 /\ mx_of (nr (u_f s1)) 1 (u_fqp s1) = 0,
    mx_of (c + 6) 1 (z_R res) = sum_rlevels true 1%:M done & mx_of (c + n) 1 (z_task res) = 0].
Proof.
move=> solver rb c n K szd hts hnu res; rewrite /ReducedCalcTaskControlTorque.
case: (szd) => em _ en _ [er _ _ _ _].
rewrite em en er.
have st0 : ok_state c n (w_ts rb) (LS (dzero R (c + 6) 1) (dzero R n 1) None (dzero R 6 1) [::]).
  by split=> // _; rewrite /= mx_zero.
have [st [rest [b [-> [dR [dN mN] hf hF [done [fail [h1 h2 h3 h4 [h5 h6]]]]]]]]] :=
  con_levels_hqp solver szd (PContact false 0 0 0 0 0 0 0 0) 0 hts hnu st0.
case: b h4 => [_|[s0 [s1 [ef en' sm er' [hz erest]]]]].
  rewrite hf /=; case: (spread _ _ _ _) => // t [<-] //.
case=> <- _ /=; exists done, s0, s1; split=> //; last by rewrite mx_zero.
  by rewrite h1 ef cats0 revK -catA erest.
by rewrite h3 mx_zero add0r.
Qed.

Section Whole.
Variables (c n K : nat) (vcj : 'I_(6 + c) -> 'I_(6 + c + n)) (ncj : 'I_n -> 'I_(6 + c + n)).
Variables (A B : 'M[R]_(6 + c + n)) (SI : 'M[R]_(3 + 3)) (Q : 'M[R]_3) (G : 'cV[R]_(6 + c + n)) (J : 'M[R]_(6, n))
  (J_C : 'M[R]_(6 * K, 6 + c + n)) (rd : reduced R c n) (cs : contact_space R (6 * K) (c + 6))
  (tg : 'cV[R]_(c + n)) (tgR : 'cV[R]_(c + 6)) (PC : 'cV[R]_(6 * K)).

(* the members of the reduced model as computed for a robot standing on K plane contacts of its leading joints *)
Definition standing : Prop :=
  [/\ [/\ leading vcj ncj, posdef A, carried_by_base A B & rotation Q],
      [/\ J_I_nc ncj B SI Q = Some J, row_free J & ReducedDynamics vcj ncj (invmx A) B SI Q G = Some rd],
      [/\ contacts_on_chains J_C, row_free J_C, (c <= 6 * K <= c + 6)%N & contacts_fix_base (n := c + n) J_C],
      ReducedCalcContactConstraint (invmx A) J_C rd = Some cs &
      ReducedCalcGravCompensation G rd cs = Some (tg, tgR, PC)].

Lemma force_of tR tN a f : standing -> contact_motion (n := c + n) A J_C G (tg + distribute rd tR tN) a f ->
  f = cs_JCinvT cs *m col_mx 0 (tgR + tR) - PC.
Proof.
move=> [[L hA hB hQ] [eJ hJ erd] [hC hCf hm hb] ecs eg] hmo.
have [cs' [rbt [v1 v2 v3 v4 v5]]] := C82_contact_partial L hA hB hQ eJ hJ erd hC hCf hm.
have ecs' : rb_cs rbt = cs by rewrite v3; move: v1; rewrite ecs => -[].
have [rd' [h0 [h1 h2 h3] h4 [h5 h6] [h7 h8]]] := red_facts L G hA hB hQ eJ hJ.
have ? : rd' = rd by move: erd; rewrite h0 => -[].
subst rd'.
have pAR : posdef (rd_AR rd) by rewrite h4; apply: posdef_inv; apply: (AR_posdef hA hJ).
have fC := JCR_free J hC hCf.
have iA : invmx (rd_AR rd) = rd_ARinv rd by rewrite h4 h3 invmxK.
have [u1 u2 u3 u4] := rbE pAR fC v2.
have [etg etgR ePC] : [/\ tg = col_mx (usubmx tgR) (dsubmx G), tgR = rb_tgrav rbt & PC = cs_JCinvT cs *m rd_GR rd].
  move: eg; rewrite /ReducedCalcGravCompensation u2 /tau_g iA ecs'; case: ifP => // _ [<- <- <-] //.
(* the gravity torque is a distribution of the reduced one *)
have [aR [fR hmR]] := rb_motion_ex pAR fC v2 (rb_tgrav rbt).
have [_ /(_ (JCR_base hb)) [_ eqg]] := rb_grav pAR fC v2 hmR.
have gbot : dsubmx tgR = rd_JIinvT rd *m dsubmx G.
  have := congr1 (fun y : 'cV_(6 + (c + 6)) => dsubmx (y : 'cV_(6 + c + 6))) eqg.
  rewrite -etgR -{1}[tgR]vsubmxK act_split col_mxKd => <-.
  have x2 : (J_CR J_C)^T = col_mx (lsubmx J_C)^T 0 by rewrite /J_CR tr_row_mx linear0.
  have x3 : rd_GR rd = col_mx (usubmx G) (rd_JIinvT rd *m dsubmx G).
    by rewrite h7 h6 -{1}[G]vsubmxK mul_block_col !mul0mx mul1mx addr0 add0r.
  have y2 : (J_CR J_C)^T *m fR + rd_GR rd = col_mx ((lsubmx J_C)^T *m fR + usubmx G) (rd_JIinvT rd *m dsubmx G).
    by rewrite x2 x3 mul_col_mx mul0mx add_col_mx add0r.
  by apply: etrans (congr1 dsubmx y2) _; rewrite col_mxKd.
have dg : tg = distribute rd tgR (dsubmx G).
  by rewrite etg /distribute gbot h1 h8 mulmxBl mul1mx mulmxA addrC subrK.
have tot : tg + distribute rd tR tN = distribute rd (tgR + tR) (dsubmx G + tN).
  rewrite dg /distribute !add_col_mx !mulmxDr; congr col_mx; first by rewrite raddfD.
  by rewrite raddfD /= mulmxDr addrACA.
rewrite tot in hmo.
have hR := C84_distribution_partial L hA hB hQ eJ hJ erd hC hmo.
have [_ ->] := proj1 (rb_motion pAR fC v2 _ _ _) hR.
rewrite ePC /getContactForce /CalculateContactForce ecs' u3 ecs'; congr (_ - _).
by rewrite -{2}[cs_JCinvT cs]hsubmxK mul_row_col mulmx0 add0r.
Qed.

Lemma motion_exists_of tau : standing -> exists a f, contact_motion (n := c + n) A J_C G tau a f.
Proof.
move=> [[L hA hB hQ] _ [hC hCf hm hb] _ _].
have [rbf [hrf _ _ _ _]] := UpdateRobotE (n := c + n) G hA hCf.
exact: (rb_motion_ex hA hCf hrf tau).
Qed.

(* the members of rb are those *)
Definition members_of rb : Prop :=
  [/\ mx_of 6 n (w_JI rb) = rd_JI rd, mx_of n n (w_NI rb) = rd_NI rd, mx_of (c + 6) 1 (w_grav rb) = tgR,
      mx_of (6 * K) (6 + (c + 6)) (w_JcT rb) = cs_JCinvT cs & mx_of (6 * K) 1 (w_PC rb) = PC].

(* every contact force of every motion under joint torque tau is in its cone *)
Definition in_cones (d : pcontact R) (cc : seq (pcontact R)) (tau : 'cV[R]_(c + n)) : Prop :=
  forall a f, contact_motion (n := c + n) A J_C G tau a f ->
    forall k, (k < K)%N -> in_cone (nth d (actives cc) k)
      (blk3 (fun j => ent (of_mx f) j 0) (6 * k)) (blk3 (fun j => ent (of_mx f) j 0) (6 * k + 3)).

(* C114, the full robot: with the gravity torque, the task torque and a redistribution torque, every contact force
   of the motion is in its cone *)
Theorem C114_contact_forces : standing -> forall solver rb d res, rb_sized rb c n K ->
  List.Forall (fun s => exists t, con_sized c t s) (w_ts rb) -> nulls_sized c (w_ts rb) -> w_ts rb <> [::] -> members_of rb ->
  (forall i q x, solver i q = Some x -> qp_feasible q x) ->
  ReducedCalcTaskControlTorque solver true rb = Some res -> z_ok res ->
  exists cf : 'cV[R]_(6 * K - 6),
    in_cones d (w_cc rb) (tg + mx_of (c + n) 1 (z_task res)
       + distribute rd (mx_of (c + 6) (6 * K - 6) (w_NwJw rb) *m cf) 0).
Proof.
move=> std solver rb d res szd hts hnu nts [m1 m2 m3 m4 m5] feas eres ok.
have [res' [eres' [_ _ h]]] := C114_contact_tasks d szd hts hnu nts feas.
have ? : res' = res by move: eres; rewrite eres' => -[].
subst res'; rewrite ok in h; case: h => _ _ [cf adm] dis; exists cf => a f hmo.
have tot : tg + mx_of (c + n) 1 (z_task res) + distribute rd (mx_of (c + 6) (6 * K - 6) (w_NwJw rb) *m cf) 0 =
   tg + distribute rd (applied rb c res + mx_of (c + 6) (6 * K - 6) (w_NwJw rb) *m cf) 0.
  rewrite dis m1 m2 -addrA; congr (_ + _); move: (applied rb c res) => T.
  rewrite /distribute !add_col_mx !mulmx0 !addr0 -!mulmxDr; congr col_mx; first by rewrite raddfD.
  by rewrite -raddfD.
rewrite tot in hmo; have ef := force_of std hmo.
case: adm => _ adm k lk; have := adm k lk; rewrite /contact_force m3 /= m4 m5 -addrA.
by rewrite -ef.
Qed.
End Whole.

Lemma lastF2 (T : Type) (P : T -> T -> Prop) l : forall a l' a', List.Forall2 P (rcons l a) (rcons l' a') -> P a a'.
Proof.
have inv x y (u v : seq T) : List.Forall2 P (x :: u) (y :: v) -> P x y /\ List.Forall2 P u v by move=> h; inversion h.
elim: l => [|x l IH] a [|y l'] a' /= /inv[h1 h2] //.
- by case: l' h2 => [|z l'] h2; inversion h2.
- by case: l h2 {IH} => [|z l] h2; inversion h2.
exact: (IH a l').
Qed.

(* C116: contact tasks, then non-contact tasks; if no QP asks for a correction, the torque is that of hqp = false *)
Theorem C116_no_correction : forall solver rb c n K cs ns res, rb_sized rb c n K -> w_ts rb = cs ++ ns -> cs <> [::] ->
  List.Forall (fun s => exists t, con_sized c t s) cs -> List.Forall (fun s => exists t, nc_sized c n t s) ns -> nulls_sized c (w_ts rb) -> nch_ok ns ->
  ReducedCalcTaskControlTorque solver true rb = Some res -> z_ok res ->
  List.Forall (fun s => mx_of (nr (u_f s)) 1 (u_fqp s) = 0) (take (size cs) (z_ts res)) ->
  (if z_fqp res is Some f then mx_of 6 1 f = 0 else True) ->
  exists res', [/\ ReducedCalcTaskControlTorque solver false rb = Some res', z_ok res',
    mx_of (c + n) 1 (z_task res) = mx_of (c + n) 1 (z_task res') &
    mx_of (c + 6) 1 (z_R res) = mx_of (c + 6) 1 (z_R res')].
Proof.
move=> solver rb c n K cs ns res szd ets ncs hcs hns hnu hch; rewrite /ReducedCalcTaskControlTorque ets !levels_cat.
move: hnu; rewrite ets => /nulls_cat[hn1 hn2 hn3].
case: (szd) => em ec en _ [er rdok dJb _ _]; case: (rdok) => _ _ _ _ [_ _ dG _].
rewrite em en er.
set st0 := LS _ _ _ _ _.
have ok0 : ok_state c n cs st0 by split=> // _; rewrite /= mx_zero.
have [st [rest [b [-> [dR [dN mN] hf hF [done [fail [h1 h2 h3 h4 [h5 h6]]]]]]]]] :=
  con_levels_hqp solver szd (PContact false 0 0 0 0 0 0 0 0) 0 hcs hn1 ok0.
case: b h4 => [[ef es er']|_]; last by case=> <-.
have [sp [-> [dR' [dN' mN'] hf' hF' [done' [g1 g2 g3]]]]] := con_levels_plain solver szd 0 hcs hn1 ok0.
rewrite ef cats0 in h1; rewrite es take_size in h2.
rewrite /= mx_zero in mN mN' hf hf'; rewrite mx_zero add0r /= in h3 g3.
rewrite /st0 /= cats0 in h1; rewrite /st0 /= cats0 in g1.
have lenR : size done' = size cs.
  by elim: (g2) => //= ? ? ? ? _ _ ->.
(* the last contact task *)
case/lastP: cs ncs ets hcs hn3 es h2 g2 lenR h3 g3 {hn1 ok0} => [//|cs0 cl] _ ets hcs hn3 es h2 g2 lenR h3 g3.
case/lastP: done es h1 h2 h3 h5 h6 => [|dn p]; first by rewrite size_rcons.
move=> es h1 h2 h3 h5 h6.
case/lastP: done' g1 g2 lenR => [|dn' p']; first by rewrite size_rcons.
move=> g1 g2 lenR.
have [smp dNp] : same_rtask p p' /\ (ns <> [::] -> dims (u_Null p) (c + 6) (c + 6)).
  have sz1 : size dn = size cs0 by move: es; rewrite !size_rcons => -[].
  have sz2 : size dn' = size cs0 by move: lenR; rewrite !size_rcons => -[].
  have sa := lastF2 h2; have sb := lastF2 g2.
  case: sa => a1 a2 a3 a4 [a5 a6 a7 a8]; case: sb => b1 b2 b3 b4 [b5 b6 b7 b8].
  by split; [do ! split; congruence|rewrite a8; exact: (hn3 _ _ erefl)].
rewrite rev_rcons in h1; rewrite rev_rcons in g1.
rewrite add0n.
have -> : st = LS (l_R st) (l_NC st) (l_first st) (l_force st) (p :: rev dn) by rewrite -h1; case: (st).
have -> : sp = LS (l_R sp) (l_NC sp) (l_first sp) (l_force sp) (p' :: rev dn') by rewrite -g1; case: (sp).
have fit : (if ns is s :: ns' then fits c n p s /\ List.Forall (fun s => u_nch s <> 0%N) ns' else True) : Prop.
  by move: hch dNp; case: (ns) => // s ns' [e0 e1] dNp; split=> //; split=> //; apply: dNp.
have [||nd [F1 [sq [e1 e2 [k1 k1'] k2 [k3 k4 k5 k6]]]]] := nc_levels solver szd (size (rcons cs0 cl)) (rev dn) (rev dn') (l_R st) (l_NC st) (l_first st)
   (l_first sp) (l_force sp) smp hns hn2 _ dR' dN' (_ : dims (l_force st) 6 1).
- exact: fit.
- by rewrite hF.
rewrite e1 e2 /=.
rewrite hf /=.
have dnd : rev (rev nd ++ p :: rev dn) = rcons dn p ++ nd.
  by rewrite rev_cat rev_cons !revK.
have tk : take (size (rcons cs0 cl)) (rcons dn p ++ nd) = rcons dn p by rewrite -es take_size_cat.
have ez : List.Forall (fun s => mx_of (nr (u_f s)) 1 (u_fqp s) = 0) (rcons dn p) ->
    mx_of (c + 6) 1 (l_R sp) = mx_of (c + 6) 1 (l_R st).
  by move=> hz; rewrite h3 g3 (sum_rlevels_zero _ h2 hz) add0r.
have [t' [e3 dt' ht']] := @spread_ok _ _ _ _ _ szd (l_R sq) (l_NC sq) (dzero R (c + 6) 1) (c + 6) k3 k4 (conj erefl erefl) (leq_addr _ _).
rewrite e3 /=.
case: ns hns hch e1 e2 fit k2 ets dNp {hn2 hn3} => [|s ns] hns hch e1 e2 fit k2 ets dNp.
  rewrite cats0.
  have [t [-> dt ht]] := @spread_ok _ _ _ _ _ szd (l_R st) (l_NC st) (dzero R (c + 6) 1) (c + 6) dR dN (conj erefl erefl) (leq_addr _ _).
  case=> <- _; rewrite dnd tk => /ez ez' _; eexists; split; [by []|by []| |].
    rewrite /= ht ht' k5 k6 ez' mN mN'; inversion k2; subst; by rewrite /sumR /sumN !big_nil !addr0.
  by rewrite /= k5 ez'; inversion k2; subst; rewrite /sumR big_nil addr0.
have {}dNp := dNp ltac:(by []); case: hch => e0 hch; rewrite e0 eqxx size_rcons cats0 dnd.
have -> : drop (size cs0) (rcons dn p ++ nd) = p :: nd.
  have -> : size cs0 = size dn by move: es; rewrite !size_rcons => -[->].
  by rewrite cat_rcons drop_size_cat.
have -> : drop (size cs0).+1 (rcons dn p ++ nd) = nd.
  have -> : (size cs0).+1 = size (rcons dn p) by rewrite es size_rcons.
  by rewrite drop_size_cat.
rewrite -(size_rcons cs0 cl) /=.
have [tp [-> dtp mtp]] := dadd_mx dG dR.
rewrite /CalcSingleTaskTorqueWithQP_R_NC er.
have tsz : ts_sized (c + 6) 6 (TS F1 (w_Jb rb) (dident R 6) (dzero R (c + 6) (c + 6)) (dzero R 0 1) (dzero R 0 1) (dzero R 0 1) false) by [].
have [s1 [ok [-> [dfq _ _]]]] := qp2_ok solver szd (size (rcons cs0 cl)) tsz dNp dtp.
case: ok; last by case=> <-.
have [X' [Y' [-> dX dY mX mY]]] := add_nc_ok k1 dR dN.
have [Jt [-> dJt mJt]] := top_ok szd.
have [tq [-> dtq mtq]] := dmul_mx dJt dfq.
have [t [-> dt ht]] := @spread_ok _ _ _ _ _ szd X' Y' tq c dX dY dtq (leqnn _).
case=> <- _ /=; rewrite tk => /ez ez' fz; eexists; split; [by []|by []| |].
  by rewrite /= ht ht' mtq fz mulmx0 mX mY k5 k6 ez' mN mN' mx_zero.
by rewrite /= k5 ez' mX.
Qed.

(* C117: a non-contact task that is not the first one, directly below a contact task, whose J_task_NC_ is empty *)
Theorem C117_below_contact_refuted : forall solver rb ts1 p s ts2, w_ts rb = ts1 ++ p :: s :: ts2 ->
  u_nc p = false -> u_JNC p = dzero R 0 0 -> (0 < nr (u_Lam p))%N -> u_nc s -> u_nch s <> 0%N ->
  ReducedCalcTaskControlTorque solver false rb = None /\
  forall res, ReducedCalcTaskControlTorque solver true rb = Some res -> z_ok res = false.
Proof.
move=> solver rb ts1 p s ts2 ets np eJ pl ns /eqP/negbTE nh.
have key (p' : rtask R) : same_rtask p p' -> nc_torque rb (Some p') s = None.
  case=> _ _ _ e4 [e5 _ _ _]; rewrite /nc_torque nh e4 e5 eJ.
  case: (dmul (u_Lam s) _) => // Lf; case: (dmul (dtr _) _) => // temp.
  case: (seg temp _ _) => // tnc; case: (turned _ _) => // force; case: (dblock _ _ _ _ _) => // Jt.
  case: (dmul Jt _) => // a; case: (segw _ _ _ _) => // h1; case: (dmul _ tnc) => // b; case: (segw _ _ _ _) => // h.
  case: (dmul _ temp) => // x1; case: (dmul _ x1) => // x2.
  case en: (dmul _ x2) => [nf|] //; have [_ [rn _]] := dmul_some en.
  case: (dmul _ nf) => // temp2; case: (seg temp2 _ _) => // t2; case: (dsub tnc t2) => // nNC.
  case: (turned _ _) => // f2; case: (seg h _ _) => // hc; case: (dmul Jt f2) => // y1; case: (dsub hc _) => // y2.
  case: (segw _ _ _ _) => // n1; rewrite /dmul /= rn.
  by have -> : (0 == nr (u_Lam p))%N = false by lia.
have onep hqp i st st' : one solver hqp rb i st p = Some (st', true) ->
    exists p' l, l_done st' = p' :: l /\ same_rtask p p'.
  rewrite /one np; case: hqp.
    move: (ohead (l_done st)) => pv; case: (match pv with Some _ => dadd _ _ | None => Some _ end) => // tprev.
    move: (match pv with Some p0 => u_Null p0 | None => _ end) => Np.
    rewrite /CalcSingleTaskTorqueWithQP_R; case: CalcSingleTaskTorqueWithQP2 => // -[t [|]] //=.
    case: (dadd _ _) => // f; case: (level _ _) => // h; case: (below _ _) => // nR; case: (dadd _ _) => // tR.
    case: (dadd _ _) => // tN [<-]; by do 2 eexists; split; first by [].
  case: (level _ _) => // h; case: (below _ _) => // nR; case: (dadd _ _) => // tR.
  case: (dadd _ _) => // tN [<-]; by do 2 eexists; split; first by [].
have lv hqp st : match levels solver hqp rb 0 st (w_ts rb) with Some (_, _, true) => false | Some (_, _, false) => hqp | None => true end = true.
  have onef i st1 st2 s1 : one solver false rb i st1 s1 = Some (st2, false) -> False.
    rewrite /one; case: (u_nc s1).
      case: (nc_torque _ _ _) => // -[[nR nNC] df]; case: (dadd _ _) => // ?; by case: (dadd _ _).
    case: (level _ _) => // h; case: (below _ _) => // nR; case: (dadd _ _) => // tR; by case: (dadd _ _).
  have lf i st1 ts : match levels solver hqp rb i st1 ts with Some (_, _, false) => hqp | _ => true end.
    case: hqp => //; first by case: (levels _ _ _ _ _ _) => // -[[? ?] []].
    elim: ts i st1 => //= a ts IH i st1; case e: (one _ _ _ _ _ _) => [[st2 [|]]|] //; [exact: IH|by case: (onef i st1 st2 a e)].
  rewrite ets levels_cat; have := lf 0%N st ts1; case: (levels _ _ _ _ _ ts1) => // -[[st1 r1] [_|]] //=.
  case e1 : (one _ _ _ _ st1 p) => [[st2 [|]]|] //; last first.
    by case: (hqp) e1 => // /onef.
  have [p' [l [ed sm]]] := onep _ _ _ _ e1.
  suff -> : one solver hqp rb (0 + size ts1).+1 st2 s = None by [].
  by rewrite /one ns ed /= key.
rewrite /ReducedCalcTaskControlTorque; split.
  by have := lv false (LS (dzero R (w_rm rb) 1) (dzero R (w_nc rb) 1) None (dzero R 6 1) [::]); case: (levels _ _ _ _ _ _) => // -[[? ?] []].
move=> res; have := lv true (LS (dzero R (w_rm rb) 1) (dzero R (w_nc rb) 1) None (dzero R 6 1) [::]).
by case: (levels _ _ _ _ _ _) => // -[[? ?] []] // _ [<-].
Qed.
End Props.
