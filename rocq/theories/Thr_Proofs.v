From mathcomp Require Import all_ssreflect all_algebra.
From Verif Require Import LinAlg DMat DMatL Cone_Model Cone_Spec QP_Model QP_Spec QP_Proofs QP_Loop Dyn_Model Dyn_Spec Dyn_Proofs Thr_Model Thr_Spec.
Set Implicit Arguments.
Unset Strict Implicit.
Unset Printing Implicit Defensive.
Import Order.TTheory GRing.Theory Num.Theory.
Local Open Scope ring_scope.

Section ThrLoopProofs.
Variable R : realFieldType.
Local Notation dm := (dm R).
Variable solver : nat -> qp R -> option (nat -> R).
Variables (rd : rdata R) (m K : nat) (d : pcontact R).
Hypothesis rdok : rd_sized rd m K.
Local Notation c := (6 * K - 6)%N.

(* how a level came out *)
Definition level_ran (N : 'M[R]_m) (i : nat) (s : tspace R) : Prop :=
  exists t (q : qp R), [/\ ts_sized m t s, dims (t_fqp s) t 1 /\ dims (t_cqp s) c 1,
    qp_wf q (t + c), 
    (forall x, qp_feasible q x <->
      admissible rd d K (mx_of m 1 (r_grav rd) + level_torque N s (col_of t x)
        + mx_of m c (r_NwJw rd) *m col_of c (fun j => x (t + j)%N))) &
    match solver i q with
    | Some x => [/\ t_err s = false, mx_of t 1 (t_fqp s) = col_of t x &
                    mx_of c 1 (t_cqp s) = col_of c (fun j => x (t + j)%N)]
    | None => [/\ t_err s, mx_of t 1 (t_fqp s) = 0 & mx_of c 1 (t_cqp s) = 0]
    end].
Fixpoint levels_ran (N : 'M[R]_m) (i : nat) (l : seq (tspace R)) : Prop :=
  if l is s :: l' then level_ran N i s /\ levels_ran (mx_of m m (t_Null s)) i.+1 l' else True.

Lemma thr_spec ts : forall i prev ttask,
  tasks_sized m ts ->
  (if prev is Some N then (ts <> [::] -> dims N m m) /\ dims ttask m 1 else ts <> [::]) ->
  exists tk l, [/\ thr_loop solver rd i prev ttask ts = Some (tk, l), dims tk m 1,
    List.Forall2 (@same_task R) ts l,
    mx_of m 1 tk = (if prev is Some _ then mx_of m 1 ttask else 0) + sum_levels (Nof m prev) l &
    levels_ran (Nof m prev) i l].
Proof.
case: (rdok) => rm sK pl dlim [dJ dP dG _].
elim: ts => [|s ts IH] i prev ttask hts hprev /=.
  move: hprev; case: prev => [N [dN dt]|//]; exists ttask, [::]; split=> //; last by rewrite addr0.
case: hts => -[t st] dNull hts'.
have {}hprev : (if prev is Some N then dims N m m /\ dims ttask m 1 else True) : Prop.
  by move: hprev; case: prev => [N [h h']|//]; split=> //; apply: h.
case: (st) => df dJk dL.
set Nprev := if prev is Some N then N else dident R (r_m rd).
have [dNp mNp] : dims Nprev m m /\ mx_of m m Nprev = Nof m prev.
  rewrite /Nprev; clear Nprev; move: hprev; case: prev => [N [h _]|_]; first by split.
  by rewrite rm; apply: dims_ident.
have [s1 [ok [-> sm dfq dcq [q [eq hq]]]]] := single_ok solver d rdok i st dNp dG.
case: (sm) => [ef eJ eL eN].
rewrite ef eJ eL.
have [f [-> dff mff]] := dadd_mx df dfq.
have [JL [-> dJL mJL]] := dmul_mx dJk dL.
have [th [-> dth mth]] := dmul_mx dJL dff.
have [tt1 [-> dtt1 mtt1]] : exists tt1, [/\ (if prev is Some N then (Nh <- dmul N th ;; dadd ttask Nh) else Some th) = Some tt1,
   dims tt1 m 1 & mx_of m 1 tt1 = (if prev is Some _ then mx_of m 1 ttask else 0) + Nof m prev *m mx_of m 1 th].
  move: hprev; clear -dth; case: prev => [N [hp ht]|_].
    have [Nh [-> dNh mNh]] := dmul_mx hp dth.
    have [Z [-> dZ mZ]] := dadd_mx ht dNh.
    by exists Z; rewrite mZ mNh.
  by exists th; rewrite add0r mul1mx.
have dN1 : ts <> [::] -> dims (t_Null s1) m m by rewrite eN.
have [tk [l [-> dtk F2 mtk lr]]] := IH i.+1 (Some (t_Null s1)) tt1 hts' (conj dN1 dtt1).
exists tk, (s1 :: l); split=> //.
- by constructor.
- by rewrite mtk mtt1 mth mff mJL /= ef (proj1 df) /level_torque /= ?ef ?eJ ?eL !mulmxA addrA.
- split; last exact: lr.
  have [q' [eq' wf _ _ h]] := TaskQP_ok d rdok st dNp dG.
  move: eq'; rewrite eq => -[eqq]; rewrite -{}eqq in h wf.
  exists t, q; split.
  + by rewrite /ts_sized ef eJ eL; split.
  + by split.
  + exact: wf.
  + move=> x; rewrite -mNp.
    have -> : level_torque (mx_of m m Nprev) s1 (col_of t x) = level_torque (mx_of m m Nprev) s (col_of t x).
      by rewrite /level_torque ef eJ eL.
    exact: h.
  + by case: (solver i q) hq => [x|] [_ ? ? ?]; split.
Qed.
End ThrLoopProofs.

Section ThrSpaceProofs.
Variable R : realFieldType.

Lemma thr_jkt t n (Jt : 'M[R]_(t, 6 + n)) Ai N W :
  CalculateJKT Jt Ai N W =
  (if CalculateJKTThreaded Jt Ai N W is Some (Q, Qt, L) then Some (W *m Q^T *m mpinv Qt, L) else None).
Proof. by rewrite /CalculateJKT /CalculateJKTThreaded; case: (inverse _). Qed.

Lemma thr_levels m n (Ai : 'M[R]_(6 + n)) (cs : contact_space R m n) ts : forall prev ls,
  CalcTaskSpace Ai cs prev ts = Some ls ->
  exists ls', ThreadedTaskSpace Ai cs ts = Some ls' /\
    List.Forall2 (fun l l' => exists N, l' = Level (lv_Jkt l) (lv_Lambda l) N) ls ls'.
Proof.
elim: ts => [|tk ts IH] prev ls /=; first by case=> <-; exists [::]; split=> //; constructor.
rewrite thr_jkt; case: (CalculateJKTThreaded _ _ _ _) => [[[Q Qt] L]|] //.
case e : (CalcTaskSpace _ _ _ ts) => [ls1|] // [<-].
have [ls1' [-> F]] := IH _ _ e.
eexists; split; first by reflexivity.
by constructor=> //=; eexists.
Qed.

(* two levels *)
Lemma thr_two m n (A : 'M[R]_(6 + n)) (J : 'M[R]_(m, 6 + n)) G rb tk ts ls ref a f :
  posdef A -> row_free J -> UpdateRobot A J G = Some rb -> contacts_fix_base J -> (size ts <= 1)%N ->
  ThreadedTaskSpace (rb_Ainv rb) (rb_cs rb) (tk :: ts) = Some ls ->
  contact_motion A J G (rb_tgrav rb + TaskTorqueLoop ref None 0 ls) a f ->
  exists l0 ls', [/\ ls = l0 :: ls', lv_task l0 = tk & tk_J (lv_task l0) *m a = ref l0].
Proof.
move=> hA hJ hrb hb sz /=.
case hk: (CalculateJKTThreaded _ _ _ _) => [[[Q Qt] Lt]|] //.
have hk' : CalculateJKT (tk_J tk) (rb_Ainv rb) (cs_NC (rb_cs rb)) (cs_Winv (rb_cs rb)) =
  Some (cs_Winv (rb_cs rb) *m Q^T *m mpinv Qt, Lt) by rewrite thr_jkt hk.
case hc: (ThreadedTaskSpace _ _ ts) => [ls'|] // [<-].
move=> /(acc_extra hA hJ hrb hb) -> /=.
eexists; exists ls'; split; [by reflexivity | by [] | rewrite /=].
have h := jkt_inv hA hJ hrb hb hk'.
have h0 := null_self h.
set K := _ *m Q^T *m mpinv Qt in h h0 *.
case: ts sz hc => [|tk2 [|//]] _ /=.
  by case=> <- /=; rewrite mulmxA [LHS]mulmxA h mul1mx.
case: (CalculateJKTThreaded _ _ _ _) => [[[Q2 Qt2] L2]|] // [<-] /=.
rewrite mulmxA mulmxDr [X in X + _]mulmxA h mul1mx [X in _ + X]mulmxA.
by rewrite h0 mul0mx addr0.
Qed.
End ThrSpaceProofs.
