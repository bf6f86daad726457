(* Proofs about the loop over the tasks of the reduced model. *)
From mathcomp Require Import all_ssreflect all_algebra.
From mathcomp Require Import zify.
From Verif Require Import DMat DMatL Cone_Model Cone_Spec QP_Model QP_Spec QP_Proofs QP_Loop Jacc_Proofs RTq_Model RTq_Spec RTq_Proofs.
Set Implicit Arguments.
Unset Strict Implicit.
Unset Printing Implicit Defensive.
Import Order.TTheory GRing.Theory Num.Theory.
Local Open Scope ring_scope.

Section RTqLoop.
Variable R : realFieldType.
Local Notation dm := (dm R).
Variable solver : nat -> qp R -> option (nat -> R).

Lemma same_refl (s : rtask R) : same_rtask s s.
Proof. by []. Qed.

Lemma same_null (s s' : rtask R) x y : same_rtask s s' -> same_rtask s (with_null s' x y).
Proof. by []. Qed.

Lemma nc_torque_same (rb : rrobot R) p p' s : same_rtask p p' -> nc_torque rb (Some p') s = nc_torque rb (Some p) s.
Proof. by case=> _ _ e1 e2 [e3 _ _ e4]; rewrite /nc_torque e1 e2 e3 e4. Qed.

Section Robot.
Variables (rb : rrobot R) (c n K : nat).
Hypothesis szd : rb_sized rb c n K.
Local Notation rm := (c + 6)%N.
Local Notation k := (6 * K - 6)%N.

(* the task as the QP sees it *)
Definition as_ts (s : rtask R) : tspace R :=
  TS (u_f s) (u_Jkt s) (u_Lam s) (u_Null s) (u_fqp s) (u_cqp s) (dzero R 0 1) (u_err s).

Lemma as_ts_sized t s : con_sized c t s -> ts_sized rm t (as_ts s).
Proof. by case. Qed.

(* one QP, for any data of the right sizes *)
Lemma qp2_ok h t (s : tspace R) Nprev tprev : ts_sized rm t s -> dims Nprev rm rm -> dims tprev rm 1 ->
  exists s1 ok, CalcSingleTaskTorqueWithQP2 solver (rd_of rb) h s Nprev tprev = Some (s1, ok) /\
    [/\ dims (t_fqp s1) t 1, ok -> dims (t_cqp s1) k 1 &
    exists q, TaskQP (rd_of rb) s Nprev tprev = Some q /\
    match solver h q with
    | Some x => [/\ ok, t_err s1 = false, mx_of t 1 (t_fqp s1) = col_of t x &
                   mx_of k 1 (t_cqp s1) = col_of k (fun j => x (t + j)%N)]
    | None => [/\ ok = false, t_err s1, mx_of t 1 (t_fqp s1) = 0 & t_cqp s1 = t_cqp s]
    end].
Proof.
case: (szd) => _ _ _ _ [_ rdok _ _ _] tsok dN dt.
have [q [eq _ _ _ _]] := TaskQP_ok (PContact false 0 0 0 0 0 0 0 0) rdok tsok dN dt.
case: (rdok) => _ sK pl _ _; have [tot _] := tot_plane pl; rewrite sK in tot.
case: tsok => -[rf cf] _ _.
rewrite /CalcSingleTaskTorqueWithQP2 eq tot rf.
case es : (solver h q) => [x|]; last first.
  do 2 eexists; split; first by []; split=> //; exists q; split=> //; rewrite es; split=> //.
  by apply/matrixP => i j; rewrite !mxE.
have [f [-> df mf]] := @seg_vec R (t + k) x 0 t (leq_addr _ _).
have [g [-> dg mg]] := @seg_vec R (t + k) x t k (leqnn _).
by do 2 eexists; split; first by []; split=> //; exists q; split=> //; rewrite es; split.
Qed.

Lemma single_R h t s Nprev tprev : con_sized c t s -> dims Nprev rm rm -> dims tprev rm 1 ->
  exists s1 ok, CalcSingleTaskTorqueWithQP_R solver rb h s Nprev tprev = Some (s1, ok) /\
    [/\ same_rtask s s1, dims (u_fqp s1) t 1, ok -> dims (u_cqp s1) k 1 &
    exists q, TaskQP (rd_of rb) (as_ts s) Nprev tprev = Some q /\
    match solver h q with
    | Some x => [/\ ok, u_err s1 = false, mx_of t 1 (u_fqp s1) = col_of t x &
                   mx_of k 1 (u_cqp s1) = col_of k (fun j => x (t + j)%N)]
    | None => [/\ ok = false, u_err s1, mx_of t 1 (u_fqp s1) = 0 & u_cqp s1 = u_cqp s]
    end].
Proof.
move=> cs dN dt.
have [s1 [ok [e [df dc [q [eq hq]]]]]] := qp2_ok h (as_ts_sized cs) dN dt.
rewrite /CalcSingleTaskTorqueWithQP_R -/(as_ts s) e; do 2 eexists; split; first by [].
by split=> //; exists q.
Qed.

Definition Nprev (l : seq (rtask R)) : 'M[R]_rm := if ohead l is Some p then mx_of rm rm (u_Null p) else 1%:M.

(* what the loop needs of its state *)
Definition ok_state (ts : seq (rtask R)) (st : lstate R) : Prop :=
  [/\ dims (l_R st) rm 1, dims (l_NC st) n 1, dims (l_force st) 6 1 &
      ts <> [::] -> if ohead (l_done st) is Some p then dims (u_Null p) rm rm else mx_of rm 1 (l_R st) = 0].

Lemma con_levels_hqp (d : pcontact R) ts : forall i st,
  List.Forall (fun s => exists t, con_sized c t s) ts -> nulls_sized c ts -> ok_state ts st ->
  exists st' rest b, levels solver true rb i st ts = Some (st', rest, b) /\
   [/\ dims (l_R st') rm 1, dims (l_NC st') n 1 /\ mx_of n 1 (l_NC st') = mx_of n 1 (l_NC st),
       l_first st' = l_first st, l_force st' = l_force st &
   exists done fail, [/\ l_done st' = rev (done ++ fail) ++ l_done st,
     List.Forall2 (@same_rtask R) (take (size done) ts) done,
     mx_of rm 1 (l_R st') = mx_of rm 1 (l_R st) + sum_rlevels true (Nprev (l_done st)) done,
     (if b then [/\ fail = [::], size done = size ts & rest = [::]]
      else exists s0 s1, [/\ fail = [:: s1], List.nth_error ts (size done) = Some s0, same_rtask s0 s1, u_err s1 &
             mx_of (nr (u_f s1)) 1 (u_fqp s1) = 0 /\ rest = drop (size done).+1 ts]) &
     List.Forall (fun s => u_err s = false) done /\
     ((forall i q x, solver i q = Some x -> qp_feasible q x) -> forall done' s, done = rcons done' s ->
       admissible (rd_of rb) d K (mx_of rm 1 (w_grav rb) + mx_of rm 1 (l_R st') + mx_of rm k (w_NwJw rb) *m mx_of k 1 (u_cqp s)))]].
Proof.
case: (szd) => _ _ en _ [er rdok _ _ _].
case: (rdok) => _ _ _ _ [_ _ dG _].
elim: ts => [|s ts IH] i st hts hnu [dR dN dF hp] /=.
  do 3 eexists; split; first by [].
  split=> //; exists [::], [::]; split=> //; [by rewrite addr0|].
  by split=> [|_ []]; first exact: List.Forall_nil.
have [t st1] := List.Forall_inv hts; have hts' := List.Forall_inv_tail hts.
case: (st1) => es df dJ dL.
case: hnu => dNu hnu; have {}hp := hp ltac:(by []).
rewrite /one es en er.
set pv := ohead (l_done st) in hp *.
have [Np [eNp dNp mNp]] : exists Np, [/\ (if pv is Some p then u_Null p else dident R rm) = Np,
    dims Np rm rm & mx_of rm rm Np = Nprev (l_done st)].
  rewrite /Nprev -/pv; move: hp; case: pv => [p|] hp; eexists; split=> //.
  by have [_ ->] := dims_ident R rm.
rewrite eNp.
have [tp [etp dtp mtp]] : exists tp, [/\ (if pv is Some _ then dadd (w_grav rb) (l_R st) else Some (w_grav rb)) = Some tp,
    dims tp rm 1 & mx_of rm 1 tp = mx_of rm 1 (w_grav rb) + mx_of rm 1 (l_R st)].
  move: hp; clear eNp; case: pv => [p|] hp; first exact: dadd_mx.
  by exists (w_grav rb); rewrite hp addr0.
rewrite etp.
have [s1 [ok [-> [sm dfq dcq [q [eq hq]]]]]] := single_R i st1 dNp dtp.
case: (sm) => e1 e2 e3 e4 [e5 e6 e7 e8].
case esv : (solver i q) hq => [x|] [eok herr hf hc]; rewrite eok; last first.
  do 3 eexists; split; first by [].
  split=> //; exists [::], [:: with_null s1 (dzero R rm 1) (dzero R n 1)]; split=> //.
  - exact: List.Forall2_nil.
  - by rewrite addr0.
  - exists s, (with_null s1 (dzero R rm 1) (dzero R n 1)); split=> //.
    by split; [rewrite /= e6 (proj1 df)|rewrite drop0].
  - by split=> [|_ []].
rewrite e6.
have [f [-> dff mff]] := dadd_mx df dfq.
rewrite /level e7 e5.
have [JL [-> dJL mJL]] := dmul_mx dJ dL.
have [h [-> dh mh]] := dmul_mx dJL dff.
have [nR [-> dnR mnR]] : exists nR, [/\ below pv h = Some nR, dims nR rm 1 &
    mx_of rm 1 nR = Nprev (l_done st) *m mx_of rm 1 h].
  rewrite /below /Nprev -/pv; move: hp; clear eNp etp; case: pv => [p|] hp; first exact: dmul_mx.
  by exists h; rewrite mul1mx.
have [tR [-> dtR mtR]] := dadd_mx dR dnR.
have [tN [-> dtN mtN]] := dadd_mx dN (conj erefl erefl : dims (dzero R n 1) n 1).
rewrite mx_zero addr0 in mtN.
set s2 := with_null s1 nR (dzero R n 1).
have [|st' [rest [b [-> [h1 [h2 h2'] h3 h4 [done [fail [g1 g2 g3 g4 [g5 g6]]]]]]]]] :=
  IH i.+1 (LS tR tN (l_first st) (l_force st) (s2 :: l_done st)) hts' hnu.
  by split=> //=; rewrite e8.
do 3 eexists; split; first by [].
split=> //; first by rewrite h2' mtN.
exists (s2 :: done), fail; split.
- by rewrite g1 /= rev_cons cat_rcons.
- by constructor.
- rewrite g3 mtR mnR mh mff mJL /= /Nprev /= e6 (proj1 df) e7 e5 e8 addrA //.
- by move: g4; case: b => //= -[-> ->].
split; first by constructor.
move=> feas done' s'; case/lastP: done g2 g3 g4 g5 g6 {g1} => [|dn sl] g2 g3 g4 g5 g6 ed; last first.
  move: ed; rewrite -rcons_cons => /rcons_inj[_ <-]; exact: g6.
case: done' ed => [|a [|b' l]] //= [<-].
have := feas _ _ _ esv.
have [q' [eq' _ _ _ hh]] := TaskQP_ok d rdok (as_ts_sized st1) dNp dtp.
move: eq'; rewrite eq => -[eqq]; rewrite -{}eqq in hh.
move=> /hh; rewrite /tau_of /level_torque g3 mtR mnR mh mff mJL hf hc mtp mNp /= addr0.
by rewrite !mulmxA !addrA.
Qed.

Lemma con_levels_plain ts : forall i st,
  List.Forall (fun s => exists t, con_sized c t s) ts -> nulls_sized c ts -> ok_state ts st ->
  exists st', levels solver false rb i st ts = Some (st', [::], true) /\
   [/\ dims (l_R st') rm 1, dims (l_NC st') n 1 /\ mx_of n 1 (l_NC st') = mx_of n 1 (l_NC st),
       l_first st' = l_first st, l_force st' = l_force st &
   exists done, [/\ l_done st' = rev done ++ l_done st, List.Forall2 (@same_rtask R) ts done &
     mx_of rm 1 (l_R st') = mx_of rm 1 (l_R st) + sum_rlevels false (Nprev (l_done st)) ts]].
Proof.
case: (szd) => _ _ en _ [er _ _ _ _].
elim: ts => [|s ts IH] i st hts hnu [dR dN dF hp] /=.
  eexists; split; first by [].
  by split=> //; exists [::]; split=> //; rewrite addr0.
have [t st1] := List.Forall_inv hts; have hts' := List.Forall_inv_tail hts.
case: (st1) => es df dJ dL.
case: hnu => dNu hnu; have {}hp := hp ltac:(by []).
rewrite /one es en /level.
set pv := ohead (l_done st) in hp *.
have [JL [-> dJL mJL]] := dmul_mx dJ dL.
have [h [-> dh mh]] := dmul_mx dJL df.
have [nR [-> dnR mnR]] : exists nR, [/\ below pv h = Some nR, dims nR rm 1 &
    mx_of rm 1 nR = Nprev (l_done st) *m mx_of rm 1 h].
  rewrite /below /Nprev -/pv; move: hp; case: pv => [p|] hp; first exact: dmul_mx.
  by exists h; rewrite mul1mx.
have [tR [-> dtR mtR]] := dadd_mx dR dnR.
have [tN [-> dtN mtN]] := dadd_mx dN (conj erefl erefl : dims (dzero R n 1) n 1).
rewrite mx_zero addr0 in mtN.
set s2 := with_null s nR (dzero R n 1).
have [|st' [-> [h1 [h2 h2'] h3 h4 [done [g1 g2 g3]]]]] :=
  IH i.+1 (LS tR tN (l_first st) (l_force st) (s2 :: l_done st)) hts' hnu; first by [].
eexists; split; first by [].
split=> //; first by rewrite h2' mtN.
exists (s2 :: done); split; first by rewrite g1 /= rev_cons cat_rcons.
  by constructor.
by rewrite g3 mtR mnR mh mJL /= /Nprev /= (proj1 df) addr0 addrA.
Qed.

(* zero corrections make no difference *)
Lemma sum_rlevels_zero ts : forall done (N : 'M[R]_rm), List.Forall2 (@same_rtask R) ts done ->
  List.Forall (fun s => mx_of (nr (u_f s)) 1 (u_fqp s) = 0) done ->
  sum_rlevels true N done = sum_rlevels false N ts.
Proof.
elim: ts => [|s ts IH] done N h; inversion h as [|s0 s' l0 done' sm h' E1 E2]; subst => //.
case: (sm) => [e1 e2 e3 e4 [e5 e6 e7 e8]] /List.Forall_cons_iff[hz hzs] /=.
by rewrite (IH done') // e5 e6 e7 e8; rewrite e6 in hz; rewrite hz.
Qed.

(* the torques kept in a task *)
Definition ok_null (s : rtask R) : Prop := [/\ u_nc s, dims (u_nullR s) rm 1 & dims (u_nullNC s) n 1].
Definition sumR (l : seq (rtask R)) : 'cV[R]_rm := \sum_(s <- l) mx_of rm 1 (u_nullR s).
Definition sumN (l : seq (rtask R)) : 'cV[R]_n := \sum_(s <- l) mx_of n 1 (u_nullNC s).

Lemma add_nc_ok l : forall X Y, List.Forall ok_null l -> dims X rm 1 -> dims Y n 1 ->
  exists X' Y', [/\ add_nc l X Y = Some (X', Y'), dims X' rm 1, dims Y' n 1,
    mx_of rm 1 X' = mx_of rm 1 X + sumR l & mx_of n 1 Y' = mx_of n 1 Y + sumN l].
Proof.
elim: l => [|s l IH] X Y h dX dY /=.
  by exists X, Y; rewrite /sumR /sumN !big_nil !addr0.
case/List.Forall_cons_iff: h => -[-> dR dN] h.
have [X1 [-> dX1 mX1]] := dadd_mx dX dR.
have [Y1 [-> dY1 mY1]] := dadd_mx dY dN.
have [X' [Y' [-> dX' dY' mX' mY']]] := IH X1 Y1 h dX1 dY1.
by exists X', Y'; split=> //; rewrite /sumR /sumN !big_cons addrA -?mX1 -?mY1.
Qed.

(* the state is good for a non-contact task s *)
Definition fits (p s : rtask R) : Prop :=
  dims (u_Null p) rm rm /\ (u_nch s <> 0%N -> exists t, nc_sized c n t p).

Lemma nc_levels ns : forall i p done p' done' tR tN fs F tR' tN' fs' F',
  same_rtask p p' -> List.Forall (fun s => exists t, nc_sized c n t s) ns -> nulls_sized c ns ->
  (if ns is s :: ns' then fits p s /\ List.Forall (fun s => u_nch s <> 0%N) ns' else True) ->
  dims tR' rm 1 -> dims tN' n 1 -> dims F 6 1 ->
  exists nd F1 sp, [/\
    levels solver true rb i (LS tR tN fs F (p :: done)) ns =
      Some (LS tR tN (if ns is s :: _ then if u_nch s == 0%N then Some i else fs else fs) F1 (rev nd ++ p :: done), [::], true),
    levels solver false rb i (LS tR' tN' fs' F' (p' :: done')) ns = Some (sp, [::], true),
    List.Forall ok_null nd /\ dims F1 6 1, List.Forall2 (@same_rtask R) ns nd &
    [/\ dims (l_R sp) rm 1, dims (l_NC sp) n 1, mx_of rm 1 (l_R sp) = mx_of rm 1 tR' + sumR nd &
        mx_of n 1 (l_NC sp) = mx_of n 1 tN' + sumN nd]].
Proof.
elim: ns => [|s ns IH] i p done p' done' tR tN fs F tR' tN' fs' F' sm hns hnu hf dR' dN' dF /=.
  do 3 eexists; rewrite -[p :: done]/(rev [::] ++ p :: done); split; [by []|by []|by []|exact: List.Forall2_nil|].
  by split=> //; rewrite /sumR /sumN big_nil addr0.
case/List.Forall_cons_iff: hns => -[t st] hns; case: hf => -[dNp hp] hnch; case: hnu => dNu hnu.
have [nR [nNC [df [e [d1 d2 d3]]]]] : exists nR nNC df, nc_torque rb (Some p) s = Some (nR, nNC, df) /\
    [/\ dims nR rm 1, dims nNC n 1 & dims df 6 1].
  case: (eqVneq (u_nch s) 0%N) => [e0|/eqP ne].
    have [nR [tnc [fo [e [d1 d2 d3] _]]]] := nc_first_ok szd st e0 dNp.
    by exists nR, tnc, fo.
  have [tp hp'] := hp ne; exact: (nc_next_ok szd st ne hp' dNp).
rewrite /one; case: (st) => enc df' dJ dJNC dL; rewrite enc /= (nc_torque_same _ _ sm) e.
have [F2 [-> dF2 _]] := dadd_mx dF d3.
have [R2 [-> dR2 mR2]] := dadd_mx dR' d1.
have [N2 [-> dN2 mN2]] := dadd_mx dN' d2.
set s1 := with_null s nR nNC.
have [|nd [F1 [sp [h1 h2 [h3 h3'] h4 [h5 h6 h7 h8]]]]] := IH i.+1 s1 (p :: done) s1 (p' :: done') tR tN
   (if u_nch s == 0%N then Some i else fs) F2 R2 N2 (if u_nch s == 0%N then Some i else fs') F' (same_refl s1) hns hnu _ dR2 dN2 dF2.
  case: (ns) hnch dNu => // s3 ns3 /List.Forall_cons_iff[n3 h3] dNu; split=> //; split=> [|_]; first exact: dNu.
  by exists t.
rewrite h1 h2; exists (s1 :: nd), F1, sp; split=> //.
- rewrite rev_cons cat_rcons; do 2 f_equal; f_equal; f_equal.
  by case: (ns) hnch => // s3 ns3 /List.Forall_cons_iff[/eqP/negbTE -> _].
- by split=> //; constructor.
- by constructor.
by split=> //; rewrite ?h7 ?h8 ?mR2 ?mN2 /sumR /sumN big_cons addrA.
Qed.
End Robot.

Lemma nulls_cat c (ts1 ts2 : seq (rtask R)) : nulls_sized c (ts1 ++ ts2) -> [/\ nulls_sized c ts1, nulls_sized c ts2 &
  forall ts p, ts1 = rcons ts p -> ts2 <> [::] -> dims (u_Null p) (c + 6) (c + 6)].
Proof.
elim: ts1 => [|s ts1 IH] /=; first by split=> // -[|? ?] //.
case=> h /IH[h1 h2 h3]; split=> //.
  by split=> // ne; apply: h; case: (ts1) ne.
move=> [|a ts] p /= [? e] ne; subst; first by apply: h.
exact: (h3 _ _ erefl ne).
Qed.

Lemma levels_cat hqp (rb : rrobot R) ts1 : forall i st ts2,
  levels solver hqp rb i st (ts1 ++ ts2) =
  match levels solver hqp rb i st ts1 with
  | Some (st', _, true) => levels solver hqp rb (i + size ts1) st' ts2
  | Some (st', rest, false) => Some (st', rest ++ ts2, false)
  | None => None
  end.
Proof.
elim: ts1 => [|s ts1 IH] i st ts2 /=; first by rewrite addn0.
case: (one _ _ _ _ _ _) => // -[st' [|]] //.
by rewrite IH addSnnS.
Qed.
End RTqLoop.
