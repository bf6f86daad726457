(* Proofs about the hierarchical loop. *)
From mathcomp Require Import all_ssreflect all_algebra.
From mathcomp Require Import zify.
From Verif Require Import DMat DMatL Cone_Model Cone_Spec QP_Model QP_Spec QP_Proofs.
Set Implicit Arguments.
Unset Strict Implicit.
Unset Printing Implicit Defensive.
Import Order.TTheory GRing.Theory Num.Theory.
Local Open Scope ring_scope.

Section QPLoop.
Variable R : realFieldType.
Local Notation dm := (dm R).
Variable solver : nat -> qp R -> option (nat -> R).
Variables (rd : rdata R) (m K : nat) (d : pcontact R).
Hypothesis rdok : rd_sized rd m K.
Local Notation c := (6 * K - 6)%N.

Lemma seg_vec n x i h : (i + h <= n)%N ->
  exists v : dm, [/\ seg (vec n x) i h = Some v, dims v h 1 & mx_of h 1 v = col_of h (fun j => x (i + j)%N)].
Proof.
move=> le; rewrite /seg /dblock /= le leqnn /=; eexists; split; [by []|by []|].
by apply/matrixP => a b; rewrite !mxE.
Qed.

Lemma dims_ident : dims (dident R m) m m /\ mx_of m m (dident R m) = 1%:M.
Proof. by split=> //; apply/matrixP => i j; rewrite !mxE. Qed.

Lemma single_ok h s t Nprev tprev : ts_sized m t s -> dims Nprev m m -> dims tprev m 1 ->
  exists s1 ok, [/\ CalcSingleTaskTorqueWithQP solver rd h s Nprev tprev = Some (s1, ok),
    same_task s s1, dims (t_fqp s1) t 1, dims (t_cqp s1) c 1 &
    exists q, TaskQP rd s Nprev tprev = Some q /\
    match solver h q with
    | Some x => [/\ ok, t_err s1 = false, mx_of t 1 (t_fqp s1) = col_of t x &
                   mx_of c 1 (t_cqp s1) = col_of c (fun j => x (t + j)%N)]
    | None => [/\ ok = false, t_err s1, mx_of t 1 (t_fqp s1) = 0 & mx_of c 1 (t_cqp s1) = 0]
    end].
Proof.
move=> tsok dN dt.
have [q [eq _ _ _ _]] := TaskQP_ok d rdok tsok dN dt.
case: (rdok) => _ sK pl _ _; have [tot _] := tot_plane pl; rewrite sK in tot.
case: tsok => -[rf cf] _ _.
rewrite /CalcSingleTaskTorqueWithQP eq tot rf.
case es : (solver h q) => [x|]; last first.
  do 2 eexists; split=> //; exists q; split=> //; rewrite es; split=> //.
    by apply/matrixP => i j; rewrite !mxE.
  by apply/matrixP => i j; rewrite !mxE.
have [f [-> df mf]] := @seg_vec (t + c) x 0 t (leq_addr _ _).
have [g [-> dg mg]] := @seg_vec (t + c) x t c (leqnn _).
by do 2 eexists; split=> //; exists q; split=> //; rewrite es; split.
Qed.

Hypothesis dW : dims (r_NwJw rd) m c.

Definition Nof (prev : option dm) : 'M[R]_m := if prev is Some N then mx_of m m N else 1%:M.

Lemma loop_spec ts : forall i prev ttask tcon,
  tasks_sized m ts ->
  (if prev is Some N then ts <> [::] -> dims N m m else mx_of m 1 ttask = 0) -> dims ttask m 1 -> dims tcon m 1 ->
  exists tk tc l b, hqp_loop solver rd i prev ttask tcon ts = Some (tk, tc, l, b) /\
   [/\ dims tk m 1, dims tc m 1 &
   exists done rest, [/\ l = done ++ rest,
     List.Forall2 (@same_task R) (take (size done) ts) done,
     mx_of m 1 tk = mx_of m 1 ttask + sum_levels (Nof prev) done,
     mx_of m 1 tc = (if done is s :: done' then mx_of m c (r_NwJw rd) *m mx_of c 1 (t_cqp (last s done'))
                     else mx_of m 1 tcon) &
   [/\ List.Forall (fun s => t_err s = false) done,
     if b then rest = [::] else exists s0 s1, [/\ rest = s1 :: drop (size done).+1 ts,
        List.nth_error ts (size done) = Some s0, same_task s0 s1, t_err s1 &
        mx_of (nr (t_fstar s1)) 1 (t_fqp s1) = 0 /\ mx_of c 1 (t_cqp s1) = 0]
   & (forall i q x, solver i q = Some x -> qp_feasible q x) -> (0 < size done)%N ->
       admissible rd d K (mx_of m 1 (r_grav rd) + mx_of m 1 tk + mx_of m 1 tc)]]].
Proof.
case: (rdok) => rm sK pl dlim [dJ dP dG _].
elim: ts => [|s ts IH] i prev ttask tcon hts hprev dtt dtc /=.
  do 4 eexists; split; first by [].
  split=> //; exists [::], [::]; split; [by []|exact: List.Forall2_nil|by rewrite addr0|by []|].
  by split=> //; apply: List.Forall_nil.
case: hts => -[t st] dNull hts'.
have {}hprev : if prev is Some N then dims N m m else mx_of m 1 ttask = 0.
  by move: hprev; case: prev => [N h|//]; apply: h.
case: (st) => df dJk dL.
set Nprev := if prev is Some N then N else dident R (r_m rd).
have [dNp mNp] : dims Nprev m m /\ mx_of m m Nprev = Nof prev.
  rewrite /Nprev; clear Nprev; move: hprev; case: prev => [N|_]; first by split.
  by rewrite rm; apply: dims_ident.
have [tprev [e1 dtp mtp]] : exists tprev, [/\ (if prev is Some _ then dadd (r_grav rd) ttask else Some (r_grav rd)) = Some tprev,
    dims tprev m 1 & mx_of m 1 tprev = mx_of m 1 (r_grav rd) + mx_of m 1 ttask].
  move: hprev; clear Nprev dNp mNp; case: prev => [N|] hp; first exact: dadd_mx.
  by exists (r_grav rd); rewrite hp addr0.
rewrite e1.
have [s1 [ok [-> sm dfq dcq [q [eq hq]]]]] := single_ok i st dNp dtp.
case: (sm) => [ef eJ eL eN].
case es : (solver i q) hq => [x|] [-> herr hf hc]; last first.
  do 4 eexists; split; first by [].
  split=> //; exists [::], (s1 :: ts); split; [by []|exact: List.Forall2_nil|by rewrite addr0|by []|].
  split=> //; exists s, s1; split=> //; first by rewrite drop0.
  by rewrite ef (proj1 df).
rewrite ef eJ eL.
have [f [-> dff mff]] := dadd_mx df dfq.
have [JL [-> dJL mJL]] := dmul_mx dJk dL.
have [th [-> dth mth]] := dmul_mx dJL dff.
have [tt1 [-> dtt1 mtt1]] : exists tt1, [/\ (if prev is Some N then (Nh <- dmul N th ;; dadd ttask Nh) else Some th) = Some tt1,
   dims tt1 m 1 & mx_of m 1 tt1 = mx_of m 1 ttask + Nof prev *m mx_of m 1 th].
  move: hprev; clear -dth dtt; case: prev => [N|] hp.
    have [Nh [-> dNh mNh]] := dmul_mx hp dth.
    have [Z [-> dZ mZ]] := dadd_mx dtt dNh.
    by exists Z; rewrite mZ mNh.
  by exists th; rewrite hp add0r mul1mx.
have [tc1 [-> dtc1 mtc1]] := dmul_mx dW dcq.
have dN1 : ts <> [::] -> dims (t_Null s1) m m by rewrite eN.
have [tk [tc [l [b [-> [dtk dtc' [done [rest [el F2 mtk mtc [errs hb adm]]]]]]]]]] :=
  IH i.+1 (Some (t_Null s1)) tt1 tc1 hts' dN1 dtt1 dtc1.
do 4 eexists; split; first by []; split=> //.
set s2 := TS _ _ _ _ _ _ _ _.
exists (s2 :: done), rest; split=> //.
- by rewrite el.
- by rewrite /=; constructor.
- rewrite mtk mtt1 mth mff mJL /= (proj1 df) /level_torque /= ?ef ?eJ ?eL !mulmxA addrA //.
- by rewrite mtc /=; case: (done) => [|s3 dn] //=; rewrite mtc1.
split=> //.
- by constructor.
- move=> feas _; case: (posnP (size done)) => [/size0nil d0|dp]; last exact: adm.
  have := feas _ _ _ es.
  have [q' [eq' _ _ _ h]] := TaskQP_ok d rdok st dNp dtp.
  move: eq'; rewrite eq => -[eqq]; rewrite -{}eqq in h.
  move=> /h; rewrite /tau_of /level_torque mtk mtt1 mth mff mtc d0 /= addr0 mtc1 mtp mNp mJL hf hc.
  by rewrite !mulmxA !addrA.
Qed.

End QPLoop.
