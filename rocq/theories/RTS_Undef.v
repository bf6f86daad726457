(* Tasks that move contact chains and other limbs at once: C121. *)
From mathcomp Require Import all_ssreflect all_algebra.
From mathcomp Require Import zify.
From Verif Require Import LinAlg DMat DMatL Dyn_Model RedM_Model RedM_Props Red_Model Cone_Model QP_Model RTq_Model RTq_Spec RTq_Proofs RTq_Loop.
From Verif Require Import RTS_Model RTS_Spec RTS_Proofs RTq_Ex RTq_NCEx RTq_NCProps RTS_Ex.
Set Implicit Arguments.
Unset Strict Implicit.
Unset Printing Implicit Defensive.
Import Order.TTheory GRing.Theory Num.Theory.
Local Open Scope ring_scope.

(* the flags of one link task after the loop over its links *)
Lemma link_flags link_num co l : forall t k,
  [/\ rt_custom (foldl (classify_link link_num co) (t, k) l).1 = rt_custom t,
      rt_noncont (foldl (classify_link link_num co) (t, k) l).1 = rt_noncont t || has (fun i => (i != link_num) && (i \notin co)) l,
      rt_reduced (foldl (classify_link link_num co) (t, k) l).1 = rt_reduced t || has (fun i => (i != link_num) && (i \in co)) l &
      rt_cmm (foldl (classify_link link_num co) (t, k) l).1 = rt_cmm t || has (fun i => i == link_num) l].
Proof.
elim: l => [|i l IH] t k /=; first by rewrite !orbF.
case: eqP => e /=; first by have [-> -> -> ->] := IH (RedTask (rt_custom t) (rt_links t) (rt_noncont t) (rt_reduced t) true (rt_nch t)) k; rewrite /= orbT.
case: ifP => m /=.
  by have [-> -> -> ->] := IH (RedTask (rt_custom t) (rt_links t) (rt_noncont t) true (rt_cmm t) (rt_nch t)) k; rewrite /= orbT.
by have [-> -> -> ->] := IH (RedTask (rt_custom t) (rt_links t) true (rt_reduced t) (rt_cmm t) k) k.+1; rewrite /= orbT.
Qed.

Section Undef.
Variable R : realFieldType.
Variables c n : nat.
Implicit Types (s : stask R c n).

(* a link task over a contact chain and another limb, or a custom task with entries in both parts *)
Definition mixed_links link_num (co : seq nat) s : Prop :=
  [/\ rt_custom (s_fl s) = false, rt_cmm (s_fl s) = false /\ ~~ has (fun i => i == link_num) (rt_links (s_fl s)),
      has (fun i => i \in co) (rt_links (s_fl s)) & has (fun i => i \notin co) (rt_links (s_fl s))].
Definition mixed_custom (left right : nat -> bool) (i : nat) s : Prop := [/\ rt_custom (s_fl s), left i & right i].

Lemma has_ne link_num (P : pred nat) l : ~~ has (fun i => i == link_num) l -> has (fun i => (i != link_num) && P i) l = has P l.
Proof. by rewrite -all_predC => h; apply: eq_in_has => i /(allP h) /= ->. Qed.

Lemma mixed_flags link_num co left right s ts2 : forall ts1 i k,
  mixed_links link_num co s \/ mixed_custom left right (i + size ts1) s ->
  exists fl fls1 fls2, [/\ classify link_num co left right i k [seq s_fl y | y <- ts1 ++ s :: ts2] = fls1 ++ fl :: fls2,
    size fls1 = size ts1, rt_noncont fl, rt_reduced fl & rt_cmm fl = false].
Proof.
elim=> [|y ts1 IH] i k /= hm.
  case: hm => [[h1 [h2 h3] h4 h5]|[h1 h2 h3]]; last first.
    by rewrite addn0 in h2 h3; rewrite h1; eexists; exists [::]; eexists; split=> //; rewrite ?h2 ?h3.
  rewrite h1; have [] := link_flags link_num co (rt_links (s_fl s)) (s_fl s) k.
  case: (foldl _ _ _) => t' k' /= _ e1 e2 e3; exists t', [::]; eexists; split=> //=.
  - by rewrite e1 has_ne // h5 orbT.
  - by rewrite e2 has_ne // h4 orbT.
  by rewrite e3 h2 (negbTE h3).
rewrite addnS -addSn in hm.
case: (rt_custom (s_fl y)) => /=.
  have [fl [fls1 [fls2 [-> e1 e2 e3 e4]]]] := IH i.+1 (if right i then k.+1 else k) hm.
  by eexists; exists (RedTask true (rt_links (s_fl y)) (right i) (left i) false (if right i then k else rt_nch (s_fl y)) :: fls1), fls2; rewrite /= e1.
case: (foldl _ _ _) => t' k' /=.
have [fl [fls1 [fls2 [-> e1 e2 e3 e4]]]] := IH i.+1 k' hm.
by exists fl, (t' :: fls1), fls2; rewrite /= e1.
Qed.

(* what the loop leaves for such a task: the old Lambda_task_ *)
Lemma mixed_space (X : 'M[R]_(6 + c + n)) (Y : 'M[R]_(6 + (c + 6))) (W : 'M[R]_(c + 6)) (JT : 'M[R]_(6, n)) fl s l2 :
  rt_noncont fl -> rt_reduced fl -> rt_cmm fl = false -> forall l1 prev out,
  space_loop X Y W JT prev (l1 ++ (fl, s) :: l2) = Some out ->
  exists o1 o o2, [/\ out = o1 ++ o :: o2, u_nc o, u_Lam o = u_Lam (s_old s) & u_f o = of_mx (s_f s)].
Proof.
move=> h1 h2 h3; elim=> [|[fl1 s1] l1 IH] prev out /=.
  rewrite /CalcJKT_R h1 h2 h3 /=; case: l2 => [|y l2].
    by move=> [<-]; exists [::]; eexists; exists [::].
  case: prev => // N; case: (space_loop _ _ _ _ _ _) => // l [<-].
  by exists [::]; eexists; eexists; split.
case: (CalcJKT_R _ _ _ _ _ _) => // r.
case el: (l1 ++ _) => [|y l]; first by case: (l1) el.
case: (if rt_noncont fl1 then _ else _) => // N.
rewrite -el; case e: (space_loop _ _ _ _ _ _) => [l'|] // [<-].
have [o1 [o [o2 [-> e1 e2 e3]]]] := IH _ _ e.
by eexists (_ :: o1), o, o2.
Qed.
End Undef.

(* a non-contact task whose Lambda_task_ does not fit *)
Lemma unsized_fails (R : realFieldType) solver (rb : rrobot R) ts1 s ts2 : w_ts rb = ts1 ++ s :: ts2 -> u_nc s -> nc (u_Lam s) <> nr (u_f s) ->
  ReducedCalcTaskControlTorque solver false rb = None /\
  forall res, ReducedCalcTaskControlTorque solver true rb = Some res -> z_ok res = false.
Proof.
move=> ets ns /eqP/negbTE ne.
have key p : nc_torque rb p s = None by rewrite /nc_torque /dmul ne.
have lv hqp st : match levels solver hqp rb 0 st (w_ts rb) with Some (_, _, true) => false | Some (_, _, false) => hqp | None => true end = true.
  have onef i st1 st2 s1 : one solver false rb i st1 s1 = Some (st2, false) -> False.
    rewrite /one; case: (u_nc s1).
      case: (nc_torque _ _ _) => // -[[nR nNC] df]; case: (dadd _ _) => // ?; by case: (dadd _ _).
    case: (level _ _) => // h; case: (below _ _) => // nR; case: (dadd _ _) => // tR; by case: (dadd _ _).
  have lf i st1 ts : match levels solver hqp rb i st1 ts with Some (_, _, false) => hqp | _ => true end.
    case: hqp => //; first by case: (levels _ _ _ _ _ _) => // -[[? ?] []].
    elim: ts i st1 => //= a ts IH i st1; case e: (one _ _ _ _ _ _) => [[st2 [|]]|] //; [exact: IH|by case: (onef i st1 st2 a e)].
  rewrite ets levels_cat; have := lf 0%N st ts1; case: (levels _ _ _ _ _ ts1) => // -[[st1 r1] [_|]] //=.
  by rewrite /one ns key.
rewrite /ReducedCalcTaskControlTorque; split.
  by have := lv false (LS (dzero R (w_rm rb) 1) (dzero R (w_nc rb) 1) None (dzero R 6 1) [::]); case: (levels _ _ _ _ _ _) => // -[[? ?] []].
move=> res; have := lv true (LS (dzero R (w_rm rb) 1) (dzero R (w_nc rb) 1) None (dzero R 6 1) [::]).
by case: (levels _ _ _ _ _ _) => // -[[? ?] []] // _ [<-].
Qed.

(* C121: the torque of a task list with such a task, of which Lambda_task_ was never computed, is not defined (hqp =
   false) or not delivered (hqp = true) *)
Theorem C121_mixed_task_refuted : forall (R : realFieldType) c n m link_num co left right (jac0 : 'M[R]_(6, 6 + c + n)) A_inv N_C
    (cR : contact_space R m (c + 6)) (rd : reduced R c n) ts1 s ts2 x rb solver,
  mixed_links link_num co s \/ mixed_custom left right (size ts1) s -> u_Lam (s_old s) = dzero R 0 0 -> (0 < s_dof s)%N ->
  ReducedCalcTaskSpace link_num co left right jac0 A_inv N_C cR rd (ts1 ++ s :: ts2) = Some x ->
  ReducedCalcTaskControlTorque solver false (with_space rb x) = None /\
  forall res, ReducedCalcTaskControlTorque solver true (with_space rb x) = Some res -> z_ok res = false.
Proof.
move=> R c n m link_num co left right jac0 A_inv N_C cR rd ts1 s ts2 x rb solver hm eL ld.
rewrite /ReducedCalcTaskSpace; case: ifP => // _; case: (CalculateJKT_R _ _ _) => // b.
have [fl [fls1 [fls2 [-> sz e1 e2 e3]]]] := @mixed_flags R c n link_num co left right s ts2 ts1 0 0 hm.
rewrite zip_cat //=; case es: (space_loop _ _ _ _ _ _) => [l|] // [ex].
have [o1 [o [o2 [eo f1 f2 f3]]]] := mixed_space e1 e2 e3 es.
apply: (@unsized_fails R solver (with_space rb x) o1 o o2); [by rewrite -ex|by []|].
by rewrite f2 f3 eL /=; lia.
Qed.

(* a task holding the base (a link of the contact chains) and a hand, on the robot of RTS_Ex *)
Section Ex.
Variable R : realFieldType.
Definition ymixed (f : 'cV[R]_6) : stask R 6 6 := @ST R 6 6 6 (xJ1 R) f (RedTask false [:: 0; 4]%N false false false 0) (yold R).
Example C121_ex : exists rd cs x, [/\ mixed_links 9%N [:: 0%N] (ymixed (yf R)),
  u_Lam (s_old (ymixed (yf R))) = dzero R 0 0, (0 < s_dof (ymixed (yf R)))%N &
  ReducedCalcTaskSpace 9 [:: 0%N] xpredT xpredT (base_jac 6 6 1%:M) (invmx (exA R 6))
    (ReducedN_C (invmx (exA R 6)) (xC R) cs) cs rd ([:: ybase (yf R)] ++ [:: ymixed (yf R)]) = Some x].
Proof.
have [||rd [cs [x [_ _ ex]]]] := y_setup (ybases (yf R)) (List.Forall_nil (limb_task 9 [:: 0%N])); [by []|by constructor; [exact: ybase_u|]|].
move: ex; rewrite /ReducedCalcTaskSpace leqnn; case eb: (CalculateJKT_R _ (cs_AinvNC cs) (cs_Winv cs)) => [b|] //=.
case er: (CalcJKT_R _ _ _ _ _ (ybase (yf R))) => [r|] // _.
by exists rd, cs; rewrite eb /= er /=; eexists; split.
Qed.
End Ex.
Print Assumptions C121_mixed_task_refuted.
