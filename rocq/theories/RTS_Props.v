(* Theorems about the task space and the hierarchical torque of the reduced model: C118, C119, C120. *)
From mathcomp Require Import all_ssreflect all_algebra.
From mathcomp Require Import zify.
From Verif Require Import LinAlg Dyn_Model Dyn_Spec Dyn_Proofs RedM_Model RedM_Spec RedM_Proofs RedM_Props Red_Model Geo_Spec.
From Verif Require Import DMat DMatL Cone_Model QP_Model RTq_Model RTq_Spec RTq_Proofs RTq_Loop RTq_Props.
From Verif Require Import RTS_Model RTS_Spec RTS_Acc RTS_NC RTS_Loop RTS_Full RTS_Proofs.
Set Implicit Arguments.
Unset Strict Implicit.
Unset Printing Implicit Defensive.
Import Order.TTheory GRing.Theory Num.Theory.
Local Open Scope ring_scope.

Section Whole.
Variable R : realFieldType.
Variables (c n K : nat) (vcj : 'I_(6 + c) -> 'I_(6 + c + n)) (ncj : 'I_n -> 'I_(6 + c + n)).
Variables (A B : 'M[R]_(6 + c + n)) (SI : 'M[R]_(3 + 3)) (Q : 'M[R]_3) (G : 'cV[R]_(6 + c + n)) (J : 'M[R]_(6, n))
  (J_C : 'M[R]_(6 * K, 6 + c + n)) (rd : reduced R c n) (cs : contact_space R (6 * K) (c + 6))
  (tg : 'cV[R]_(c + n)) (tgR : 'cV[R]_(c + 6)) (PC : 'cV[R]_(6 * K)).
Hypothesis std : standing vcj ncj A B SI Q G J J_C rd cs tg tgR PC.
Variables (link_num : nat) (co_link : seq nat) (left right : nat -> bool) (rot : 'M[R]_3) (rb : rrobot R)
  (solver : nat -> qp R -> option (nat -> R)).
Implicit Types (ts us : seq (stask R c n)).

(* the calls on the reduced model *)
Local Notation space ts :=
  (ReducedCalcTaskSpace link_num co_link left right (base_jac c n rot) (invmx A) (ReducedN_C (invmx A) J_C cs) cs rd ts).
Local Notation torque x := (ReducedCalcTaskControlTorque solver false (with_space rb x)).
Local Notation classified ts := (zip (classify link_num co_link left right 0 0 [seq s_fl s | s <- ts]) ts).
Local Notation kind := (con_kind A link_num co_link).

Lemma red_whole ts x (csF : contact_space R (6 * K) (c + n)) : rotation rot -> reduced_members rb rd rot ->
  CalculateContactConstraint (n := c + n) J_C (invmx A) = Some csF ->
  space ts = Some x -> rb_sized (with_space rb x) c n K -> shape J rd None (classified ts) ->
  (if classified ts is (fl, _) :: _ then rt_noncont fl = false else True) ->
  exists res, [/\ torque x = Some res, z_ok res,
    forall a f, contact_motion (n := c + n) A J_C G (tg + mx_of (c + n) 1 (z_task res)) a f ->
      a = racc csF 1%:M None (classified ts) &
    List.Forall2 (fun y o => u_Lam o = of_mx (lam csF y.2) /\ s_J y.2 *m (cs_AinvNC csF : 'M_(6 + c + n)) *m (s_J y.2)^T \in unitmx)
      (classified ts) x.2].
Proof.
move=> hrot [q1 q2 q3 q4] ecF esp szd sh hfirst.
have [[L hA hB hQ] [eJ hJ erd] [hC hCf hm hb] ecs eg] := std.
have [rd' [h0 [h1 h2 h3] h4 [h5 h6] [h7 h8]]] := red_facts L G hA hB hQ eJ hJ.
have ? : rd' = rd by move: erd; rewrite h0 => -[].
subst rd'.
have h4' : rd_AR rd = invmx (rd_ARinv rd) by rewrite h4 h3.
have ecR : CalculateContactConstraint (n := c + 6) (J_CR J_C) (rd_ARinv rd) = Some cs.
  by rewrite -(red_contact hJ hC h1 h3 hm).
have eNC : ReducedN_C (invmx A) J_C cs = cs_NC csF.
  have [a1 a2 a3 a4 _] := ccE ecF.
  have iAR : invmx (rd_AR rd) = rd_ARinv rd by rewrite h4' invmxK.
  have ecR' : CalculateContactConstraint (n := c + 6) (J_CR J_C) (invmx (rd_AR rd)) = Some cs by rewrite iAR.
  have [b1 _ _ _ _] := ccE ecR'.
  have la : cs_lambda cs = cs_lambda csF by rewrite b1 a1 iAR h3 lambda_eq.
  by rewrite /ReducedN_C la a3 a2.
move: esp; rewrite /ReducedCalcTaskSpace eNC; case: leqP => // le.
rewrite (base_R _ le) (jkt_same ecR).
case ejb: (CalculateJKT _ _ _ _) => [[Jb Lb]|] //.
have eM : invmx A *m (cs_NC csF : 'M_(6 + c + n)) = cs_AinvNC csF by have [_ _ _ -> _] := ccE ecF.
rewrite eM.
case es: (space_loop _ _ _ _ _ _) => [out|] // [ex].
have [x1 x2 x3] : [/\ w_Jb (with_space rb x) = of_mx Jb, w_AN (with_space rb x) = of_mx (cs_AinvNC csF : 'M_(6 + c + n)) & x.2 = out].
  by rewrite -ex.
have ejb' : CalculateJKT (n := c + 6) (row_mx (turn (w_rot (with_space rb x))) 0) (rd_ARinv rd) (cs_NC cs) (cs_Winv cs) = Some (Jb, Lb).
  by rewrite /= q4.
have m1 : mx_of (c + 6) 6 (w_Jb (with_space rb x)) = Jb by rewrite x1 mx_of_mx.
have m3 : mx_of (6 + c + n) (6 + c + n) (w_AN (with_space rb x)) = (cs_AinvNC csF : 'M_(6 + c + n)) by rewrite x2 mx_of_mx.
have hrot' : rotation (w_rot (with_space rb x)) by rewrite /= q4.
have := @red_levels R c n (6 * K) K A J J_C rd hA hJ hC hCf hb h1 h3 h4' h5 h6 h8 csF cs ecF ecR solver (with_space rb x) Jb Lb szd hrot'
  ejb' m1 q3 m3 (classified ts) 0 None None (LS (dzero R (c + 6) 1) (dzero R n 1) None (dzero R 6 1) [::]) out 1%:M es sh
  (sim1 J csF) (keep1 rd csF) (conj erefl erefl) (conj erefl erefl).
case=> // st [elv [dR dN ea hL]].
case: (szd) => em ec en ev [er _ _ _ _].
rewrite /ReducedCalcTaskControlTorque em en er.
have -> : w_ts (with_space rb x) = out by rewrite -x3.
rewrite elv.
have [t [-> dt ht]] := @spread_ok _ _ _ _ _ szd (l_R st) (l_NC st) (dzero R (c + 6) 1) (c + 6) dR dN (conj erefl erefl) (leq_addr _ _).
eexists; split; [by []|by []| |by rewrite x3].
rewrite /= => a f hmo.
have [rbF [hrF _ _ _ _]] := UpdateRobotE (n := c + n) G hA hCf.
have eF : rb_cs rbF = csF.
  by move: hrF; rewrite /UpdateRobot inverseE ?posdef_unit // ecF; case=> <-.
have [ag [fg hg]] := rb_motion_ex hA hCf hrF tg.
have ag0 := C83_gravity_partial L hA hB hQ eJ hJ erd hC hCf hm hb ecs eg hg.
have [ea1 _] := proj1 (rb_motion hA hCf hrF _ _ _) hmo.
have [eg1 _] := proj1 (rb_motion hA hCf hrF _ _ _) hg.
have : a - ag = cs_AinvNC csF *m actuate (mx_of (c + n) 1 t).
  rewrite ea1 eg1 eF /acc_of -mulmxBr opprB addrA subrK; congr (_ *m _).
  by rewrite /actuate opp_col_mx add_col_mx subrr addrAC subrr add0r.
rewrite ag0 subr0 => ->.
have -> : mx_of (c + n) 1 t = distribute rd (mx_of (c + 6) 1 (l_R st)) (mx_of n 1 (l_NC st)).
  by rewrite ht /distributed /distribute q1 q2 mx_zero col_mx0 addr0.
have z : distribute rd 0 0 = 0 by rewrite /distribute !linear0 add0r col_mx0.
have := ea; rewrite /= !mx_zero z.
have -> : (actuate 0 : 'cV[R]_(6 + c + n)) = 0 by rewrite /actuate col_mx0.
by rewrite mulmx0 add0r.
Qed.

Lemma kinds_shape ts us : List.Forall kind ts -> List.Forall (limb_task link_num co_link) us -> (us <> [::] -> ts <> [::]) ->
  shape J rd None (classified (ts ++ us)) /\
  (if classified (ts ++ us) is (fl, _) :: _ then rt_noncont fl = false else True).
Proof.
have [[L hA hB hQ] [eJ hJ erd] _ _ _] := std.
have [Mc hMc] := coupling L hB hQ eJ.
have [rd' [h0 [h1 h2 h3] h4 [h5 h6] [h7 h8]]] := red_facts L G hA hB hQ eJ hJ.
have ? : rd' = rd by move: erd; rewrite h0 => -[].
subst rd'.
have hJI := JIJ hA hJ h4 h5 h6.
move=> ht hu ne; split; first exact: (cons_shape hMc hJI).
case: ts ht ne => [|s ts] ht ne.
  by case: (us) ne => //= u us' /(_ ltac:(by [])).
have [fl [[h _ _] e]] := con_kind_ok hMc hJI left right (List.Forall_inv ht) 0 0 [seq s_fl s | s <- ts ++ us].
by rewrite map_cons e.
Qed.

Lemma two_motions ts us x (rbF : robot R (6 * K) (c + n)) : rotation rot -> reduced_members rb rd rot ->
  UpdateRobot (n := c + n) A J_C G = Some rbF ->
  List.Forall kind ts -> List.Forall (limb_task link_num co_link) us -> (size us <= 2)%N -> (us <> [::] -> ts <> [::]) ->
  space (ts ++ us) = Some x -> rb_sized (with_space rb x) c n K ->
  exists res ls, [/\ torque x = Some res /\ z_ok res,
    CalcTaskSpace (rb_Ainv rbF) (rb_cs rbF) None [seq as_task s | s <- ts ++ us] = Some ls,
    List.Forall2 (fun o l => u_Lam o = of_mx (lv_Lambda l)) x.2 ls &
    forall a f a' f', contact_motion (n := c + n) A J_C G (tg + mx_of (c + n) 1 (z_task res)) a f ->
      contact_motion (n := c + n) A J_C G (rb_tgrav rbF + CalcTaskControlTorque ls) a' f' -> a = a'].
Proof.
move=> hrot hm hF hts hus le ne esp szd.
have [sh hf] := kinds_shape hts hus ne.
have [[L hA hB hQ] [eJ hJ erd] [hC hCf hm' hb] ecs eg] := std.
have [Mc hMc] := coupling L hB hQ eJ.
have [rd' [h0 [h1 h2 h3] h4 [h5 h6] [h7 h8]]] := red_facts L G hA hB hQ eJ hJ.
have ? : rd' = rd by move: erd; rewrite h0 => -[].
subst rd'.
have hJI := JIJ hA hJ h4 h5 h6.
have [eAi ecF] : rb_Ainv rbF = invmx A /\ CalculateContactConstraint (n := c + n) J_C (invmx A) = Some (rb_cs rbF).
  by move: hF; rewrite /UpdateRobot inverseE ?posdef_unit //; case e: (CalculateContactConstraint _ _) => [q|] // [<-].
have [res [e1 e2 e3 e4]] := red_whole hrot hm ecF esp szd sh hf.
have sz : size (classify link_num co_link left right 0 0 [seq s_fl s | s <- ts ++ us]) = size (ts ++ us).
  by rewrite size_classify size_map.
have {e4} e4 := Forall2_zip (P := fun y o => u_Lam o = of_mx (lam (rb_cs rbF) y) /\
  s_J y *m (cs_AinvNC (rb_cs rbF) : 'M_(6 + c + n)) *m (s_J y)^T \in unitmx) sz e4.
have units : List.Forall (fun k => tk_J k *m cs_AinvNC (rb_cs rbF) *m (tk_J k)^T \in unitmx) [seq as_task s | s <- ts ++ us].
  by elim: e4 => [|y o l l' [_ u] _ IH] //=; constructor.
have [ls [g1 _ g3 g4]] := full_levels hA hCf hb ecF (prev := None) (N := 1%:M) (P := 1%:M) (tau := 0) (conj erefl erefl)
  (etrans (mulmx1 _) (esym (mul1mx _))) units.
exists res, ls; split=> //; first by rewrite eAi.
  move: g3 g4 e4; move: (ts ++ us) ls {g1 e3 esp sh hf sz units} => l ls; elim: l ls x.2 => [|s l IH] [|v ls] o //= g3 g4 e4.
    by inversion e4.
  inversion e4 as [|y o1 l' o' [h _] h' E1 E2]; subst; case/List.Forall_cons_iff: g4 => g g4.
  case: g3 => ev g3; constructor; last exact: IH.
  by rewrite h g ev.
move=> a f a' f' hmo hmo'.
have -> := full_acc hA hCf hb ecF hF erefl g1 units hmo'.
by rewrite (e3 _ _ hmo) (racc_same hMc hJI).
Qed.

(* the task space is computed when the tasks and the base are not fixed by the contacts *)
Theorem C118_defined ts us (csF : contact_space R (6 * K) (c + n)) : (6 <= n)%N ->
  CalculateContactConstraint (n := c + n) J_C (invmx A) = Some csF ->
  List.Forall (fun s => chain_task link_num co_link s \/ com_task A link_num s) ts ->
  List.Forall (limb_task link_num co_link) us -> (us <> [::] -> ts <> [::]) ->
  List.Forall (fun s => s_J s *m (cs_AinvNC csF : 'M_(6 + c + n)) *m (s_J s)^T \in unitmx) (ts ++ us) ->
  ulsubmx (cs_AinvNC cs) \in unitmx -> rotation rot ->
  exists x, space (ts ++ us) = Some x.
Proof.
move=> le6 ecF hts hus ne units ub hrot.
have [sh hf] := kinds_shape hts hus ne.
have [[L hA hB hQ] [eJ hJ erd] [hC hCf hm hb] ecs eg] := std.
have [rd' [h0 [h1 h2 h3] h4 [h5 h6] [h7 h8]]] := red_facts L G hA hB hQ eJ hJ.
have ? : rd' = rd by move: erd; rewrite h0 => -[].
subst rd'.
have h4' : rd_AR rd = invmx (rd_ARinv rd) by rewrite h4 h3.
have ecR : CalculateContactConstraint (n := c + 6) (J_CR J_C) (rd_ARinv rd) = Some cs.
  by rewrite -(red_contact hJ hC h1 h3 hm).
have eNC : ReducedN_C (invmx A) J_C cs = cs_NC csF.
  have [a1 a2 a3 a4 _] := ccE ecF.
  have iAR : invmx (rd_AR rd) = rd_ARinv rd by rewrite h4' invmxK.
  have ecR' : CalculateContactConstraint (n := c + 6) (J_CR J_C) (invmx (rd_AR rd)) = Some cs by rewrite iAR.
  have [b1 _ _ _ _] := ccE ecR'.
  have la : cs_lambda cs = cs_lambda csF by rewrite b1 a1 iAR h3 lambda_eq.
  by rewrite /ReducedN_C la a3 a2.
rewrite /ReducedCalcTaskSpace eNC.
have le : (6 + c + 6 <= 6 + c + n)%N by rewrite leq_add2l.
rewrite le (base_R _ le).
have eM : invmx A *m (cs_NC csF : 'M_(6 + c + n)) = cs_AinvNC csF by have [_ _ _ -> _] := ccE ecF.
rewrite eM.
have [b ->] : exists b, CalculateJKT_R (row_mx (turn rot) 0) (cs_AinvNC cs) (cs_Winv cs) = Some b.
  have u : (row_mx (turn rot) 0 : 'M_(6, 6 + (c + 6))) *m cs_AinvNC cs *m (row_mx (turn rot) 0)^T \in unitmx.
    rewrite -[cs_AinvNC cs]submxK tr_row_mx trmx0 mul_row_block !mul0mx !addr0 mul_row_col mulmx0 addr0.
    have ut : turn rot \in unitmx by have /mulmx1_unit[] := turn_tr hrot.
    by rewrite !unitmx_mul unitmx_tr ut ub.
  by rewrite /CalculateJKT_R inverseE //; eexists.
have sz : size (classify link_num co_link left right 0 0 [seq s_fl s | s <- ts ++ us]) = size (ts ++ us).
  by rewrite size_classify size_map.
have u' : List.Forall (fun y => s_J y.2 *m (cs_AinvNC csF : 'M_(6 + c + n)) *m (s_J y.2)^T \in unitmx) (classified (ts ++ us)).
  move: sz; move: (classify _ _ _ _ _ _ _) => fls; elim: fls (ts ++ us) units {sh hf} => [|f fls IH] [|s l] //=.
  by move=> /List.Forall_cons_iff[u uu] [e]; constructor; [|apply: IH].
have [out ->] := space_ok hC h3 h4' ecF ecR (prev := None) sh (fun _ => hf) u'; by eexists.
Qed.

(* C118 *)
Theorem C118_contact_hierarchy ts x (rbF : robot R (6 * K) (c + n)) : rotation rot -> reduced_members rb rd rot ->
  UpdateRobot (n := c + n) A J_C G = Some rbF ->
  List.Forall (fun s => chain_task link_num co_link s \/ com_task A link_num s) ts ->
  space ts = Some x -> rb_sized (with_space rb x) c n K ->
  exists res ls, [/\ torque x = Some res /\ z_ok res,
    CalcTaskSpace (rb_Ainv rbF) (rb_cs rbF) None [seq as_task s | s <- ts] = Some ls,
    List.Forall2 (fun o l => u_Lam o = of_mx (lv_Lambda l)) x.2 ls &
    forall a f a' f', contact_motion (n := c + n) A J_C G (tg + mx_of (c + n) 1 (z_task res)) a f ->
      contact_motion (n := c + n) A J_C G (rb_tgrav rbF + CalcTaskControlTorque ls) a' f' -> a = a'].
Proof.
move=> hrot hm hF hts; rewrite -[ts]cats0 => esp szd.
by apply: (two_motions hrot hm hF hts _ _ _ esp szd).
Qed.

(* C119, for at most two tasks on other limbs.  (The full claim has any number of them.) *)
Theorem C119_two_limb_tasks_partial ts us x (rbF : robot R (6 * K) (c + n)) : rotation rot -> reduced_members rb rd rot ->
  UpdateRobot (n := c + n) A J_C G = Some rbF -> ts <> [::] -> (size us <= 2)%N ->
  List.Forall (fun s => chain_task link_num co_link s \/ com_task A link_num s) ts ->
  List.Forall (limb_task link_num co_link) us ->
  space (ts ++ us) = Some x -> rb_sized (with_space rb x) c n K ->
  exists res ls, [/\ torque x = Some res /\ z_ok res,
    CalcTaskSpace (rb_Ainv rbF) (rb_cs rbF) None [seq as_task s | s <- ts ++ us] = Some ls,
    List.Forall2 (fun o l => u_Lam o = of_mx (lv_Lambda l)) x.2 ls &
    forall a f a' f', contact_motion (n := c + n) A J_C G (tg + mx_of (c + n) 1 (z_task res)) a f ->
      contact_motion (n := c + n) A J_C G (rb_tgrav rbF + CalcTaskControlTorque ls) a' f' -> a = a'].
Proof. by move=> hrot hm hF ne le hts hus esp szd; apply: (two_motions hrot hm hF hts hus _ _ esp szd). Qed.

(* C120 *)
Theorem C120_top_task s ts us x : rotation rot -> reduced_members rb rd rot ->
  List.Forall (fun s => chain_task link_num co_link s \/ com_task A link_num s) (s :: ts) ->
  List.Forall (limb_task link_num co_link) us ->
  space (s :: ts ++ us) = Some x -> rb_sized (with_space rb x) c n K ->
  exists res, [/\ torque x = Some res, z_ok res &
    forall a f, contact_motion (n := c + n) A J_C G (tg + mx_of (c + n) 1 (z_task res)) a f -> s_J s *m (a : 'cV_(6 + c + n)) = s_f s].
Proof.
move=> hrot hm hts hus esp szd.
have ne : us <> [::] -> s :: ts <> [::] by [].
have [sh hf] := kinds_shape hts hus ne.
have [[L hA hB hQ] [eJ hJ erd] [hC hCf hm' hb] ecs eg] := std.
have [rbF [hF _ _ _ _]] := UpdateRobotE (n := c + n) G hA hCf.
have ecF : CalculateContactConstraint (n := c + n) J_C (invmx A) = Some (rb_cs rbF).
  by move: hF; rewrite /UpdateRobot inverseE ?posdef_unit //; case e: (CalculateContactConstraint _ _) => [q|] // [<-].
have [res [e1 e2 e3 e4]] := red_whole hrot hm ecF esp szd sh hf.
exists res; split=> // a f hmo; rewrite (e3 _ _ hmo).
move: hf e4; rewrite [(s :: ts) ++ us]cat_cons.
have : size (classify link_num co_link left right 0 0 [seq s_fl y | y <- s :: (ts ++ us)]) = size (s :: (ts ++ us)).
  by rewrite size_classify size_map.
set fls := classify _ _ _ _ _ _ _; case: fls => [|fl fls] //= _.
move=> nc h; inversion h as [|y o l' x' [_ u] h' E1 E2]; subst.
exact: racc_top.
Qed.
End Whole.

