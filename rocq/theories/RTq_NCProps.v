(* C115: the torque of the reduced hierarchy with a non-contact task and the contact cones. *)
From mathcomp Require Import all_ssreflect all_algebra.
From mathcomp Require Import zify.
From Verif Require Import LinAlg Dyn_Model Dyn_Spec Dyn_Proofs Dyn_Props Geo_Spec RedM_Model RedM_Spec RedM_Proofs RedM_Props.
From Verif Require Import DMat DMatL Cone_Model Cone_Spec QP_Model QP_Spec QP_Proofs QP_Loop QP_Props.
From Verif Require Import RTq_Model RTq_Spec RTq_Proofs RTq_Loop RTq_NC RTq_Props RTq_Ex RTq_NCEx.
Set Implicit Arguments.
Unset Strict Implicit.
Unset Printing Implicit Defensive.
Import Order.TTheory GRing.Theory Num.Theory.
Local Open Scope ring_scope.

Lemma Some_inj (T : Type) (x y : T) : Some x = Some y -> x = y. Proof. by case. Qed.

Section Partial.
Variable R : realFieldType.
Implicit Types (rb : rrobot R) (s p : rtask R) (d : pcontact R).

(* C115, contact tasks cs, p and one non-contact task s: what the QP of s certifies is the torque of the contact
   tasks with the base torque that s and its correction fq ask for, projected by the null space of p.  What is
   applied has, for the non-contact joints, J_I_nc_inv_T times the torque of s instead, and the correction of the
   contact joints without the projection.  (The full claim has the same torque in both places; several
   non-contact tasks are missing too.) *)
Theorem C115_certified_partial : forall solver rb c n K d cs p s t res, rb_sized rb c n K -> w_ts rb = rcons cs p ++ [:: s] ->
  List.Forall (fun s => exists t, con_sized c t s) (rcons cs p) -> nc_sized c n t s -> nulls_sized c (w_ts rb) -> u_nch s = 0%N ->
  (forall i q x, solver i q = Some x -> qp_feasible q x) ->
  ReducedCalcTaskControlTorque solver true rb = Some res -> z_ok res ->
  let T := (mx_of t (6 + c + n) (u_J s))^T *m (mx_of t t (u_Lam s) *m mx_of t 1 (u_f s)) in
  let F := wrench (w_rot rb) (of_mx T) : 'cV_6 in
  let N := mx_of (c + 6) (c + 6) (u_Null p) in
  let Jb := mx_of (c + 6) 6 (w_Jb rb) in
  let L := sum_rlevels true 1%:M (take (size cs).+1 (z_ts res)) in
  exists (fq : 'cV[R]_6) (cf : 'cV[R]_(6 * K - 6)),
   [/\ applied rb c res = L + N *m col_mx (usubmx Jb *m F) (mx_of 6 n (w_JIT rb) *m dsubmx T) + col_mx (usubmx Jb *m fq) 0,
       distributed rb (mx_of (c + n) 1 (z_task res)) (applied rb c res) (dsubmx T) &
       admissible (rd_of rb) d K (mx_of (c + 6) 1 (w_grav rb) + L + N *m Jb *m (F + fq)
         + mx_of (c + 6) (6 * K - 6) (w_NwJw rb) *m cf)].
Proof.
move=> solver rb c n K d cs p s t res szd ets hcs hs hnu e0 feas; rewrite /ReducedCalcTaskControlTorque ets levels_cat.
move: hnu; rewrite ets => /nulls_cat[hn1 _ hn3].
case: (szd) => em _ en _ [er rdok dJb dJT _]; case: (rdok) => _ _ _ _ [_ _ dG _].
rewrite en er.
set st0 := LS _ _ _ _ _.
have ok0 : ok_state c n (rcons cs p) st0 by split=> // _; rewrite /= mx_zero.
have [st [rest [b [-> [dR [dN mN] hf hF [done [fail [h1 h2 h3 h4 [h5 h6]]]]]]]]] := con_levels_hqp solver szd d 0 hcs hn1 ok0.
case: b h4 => [[ef es er']|_]; last by case=> <-.
rewrite ef cats0 in h1; rewrite es take_size in h2.
rewrite /= mx_zero in mN hf; rewrite mx_zero add0r /= in h3.
rewrite /st0 /= cats0 in h1.
case/lastP: done es h1 h2 h3 h5 h6 => [|dn p1]; first by rewrite size_rcons.
move=> es h1 h2 h3 h5 h6.
have sz1 : size dn = size cs by move: es; rewrite !size_rcons => -[].
have [eN dNp] : u_Null p1 = u_Null p /\ dims (u_Null p) (c + 6) (c + 6).
  by case: (lastF2 h2) => _ _ _ _ [_ _ _ ->]; split=> //; apply: (hn3 _ _ erefl).
rewrite rev_rcons in h1; rewrite /= in hF.
have -> : st = LS (l_R st) (l_NC st) None (dzero R 6 1) (p1 :: rev dn) by rewrite -h1 -hF -hf; case: (st).
have := @nc_tail R solver rb c n K szd p1 s (rev dn) t (l_R st) (l_NC st) (size cs) hs e0.
rewrite eN size_rev => /(_ dNp dR dN mN (esym sz1)) [F [tp [q [s1 [[dF mF] [dtp mtp] eq e1 [res' [eres hres]]]]]]].
rewrite add0n size_rcons => eR okr; rewrite /= e1 cats0 in eR.
have ? : res' = res by apply: Some_inj; exact: etrans (esym eres) eR.
subst res'.
case eS: (solver (size cs).+1 q) hres => [x|] hres; last by rewrite hres in okr.
case: hres => _ [fq [efq mfq]] hR hd hts; set L := sum_rlevels true _ _.
have eL : L = mx_of (c + 6) 1 (l_R st).
  rewrite h3 /L hts; congr (sum_rlevels _ _ _).
  rewrite !rev_cons revK -cats1.
  by rewrite take_size_cat // size_rcons sz1.
have tsz : ts_sized (c + 6) 6 (nc_ts rb c F) by [].
have [q' [eq' _ _ _ hx]] := TaskQP_ok d rdok tsz dNp dtp.
have ? : q' = q by move: eq; rewrite eq' => -[].
subst q'.
exists (col_of 6 x), (col_of (6 * K - 6) (fun j => x (6 + j)%N)); split=> //.
  by rewrite /applied efq mfq hR eL.
have := proj1 (hx x) (feas _ _ _ eS); rewrite /tau_of /level_torque /= mtp mF eL.
by have -> : mx_of 6 6 (dident R 6) = 1%:M by [apply/matrixP => a b; rewrite !mxE /=]; rewrite mulmx1.
Qed.
End Partial.

(* the members of the robot and its tasks as ReducedCalcTaskSpace (src/dwbc.cpp:3152-3252) and CalcJKT_R
   (src/task.cpp:95-137) compute them, for a base task J0 followed by a non-contact task J1 *)
Section Computed.
Variables (R : realFieldType) (c n K t t1 : nat).
Variables (A : 'M[R]_(6 + c + n)) (J_C : 'M[R]_(6 * K, 6 + c + n)) (rd : reduced R c n) (cs : contact_space R (6 * K) (c + 6)).
Definition base_computed (rb : rrobot R) : Prop :=
  [/\ exists L, CalculateJKT (row_mx 1%:M 0 : 'M_(6, 6 + (c + 6))) (rd_ARinv rd) (cs_NC cs) (cs_Winv cs) =
        Some (mx_of (c + 6) 6 (w_Jb rb), L),
      mx_of 6 n (w_JIT rb) = rd_JIinvT rd &
      mx_of (6 + c + n) (6 + c + n) (w_AN rb) =
        invmx A *m (1%:M - J_C^T *m (invmx (J_C *m invmx A *m J_C^T) *m J_C *m invmx A))].
Definition contact_task_computed (s : rtask R) : Prop :=
  let J0 := mx_of t (6 + c + n) (u_J s) in
  let JR : 'M[R]_(t, 6 + (c + 6)) := (row_mx (lsubmx J0) 0 : 'M_(t, 6 + c + 6)) in
  [/\ rsubmx J0 = 0, CalculateJKT JR (rd_ARinv rd) (cs_NC cs) (cs_Winv cs) = Some (mx_of (c + 6) t (u_Jkt s), mx_of t t (u_Lam s)) &
      mx_of (c + 6) (c + 6) (u_Null s) =
        CalculateTaskNullSpace (mx_of (c + 6) t (u_Jkt s)) (mx_of t t (u_Lam s)) JR (cs_AinvNC cs) 1%:M].
Definition nc_task_computed (rb : rrobot R) (s : rtask R) : Prop :=
  let J1 := mx_of t1 (6 + c + n) (u_J s) in
  inverse (J1 *m mx_of (6 + c + n) (6 + c + n) (w_AN rb) *m J1^T) = Some (mx_of t1 t1 (u_Lam s)) /\
  mx_of t1 n (u_JNC s) = rsubmx J1.
End Computed.

Section Witness.
Variable R : realFieldType.
Definition xfoot : pcontact R := PContact true 6 10 1%:M 1 1 1 1 0.
Definition xp : rtask R := RT false 0 (of_mx (xJ0 R)) (dzero R 0 0) (of_mx (xLam R)) (of_mx (0 : 'cV[R]_6)) (of_mx (xJkt R)) (of_mx (xNull R))
  (dzero R 0 1) (dzero R 0 1) false (dzero R 0 1) (dzero R 0 1).
Definition xs : rtask R := RT true 0 (of_mx (xJ1 R)) (of_mx (rsubmx (xJ1 R))) (of_mx (xLam R)) (of_mx (xf R)) (dzero R 12 6) (dzero R 0 0)
  (dzero R 0 1) (dzero R 0 1) false (dzero R 0 1) (dzero R 0 1).
Definition xrb : rrobot R := RR 12 6 6 12 12 [:: xfoot] false (dzero R 0 0) (dzero R 12 0) (of_mx (tn 6 18 (tJc R))) (of_mx (xPC R))
  (of_mx (xtg R)) (of_mx (xJkt R)) (of_mx (1%:M : 'M[R]_6)) (of_mx (1%:M : 'M[R]_6)) (of_mx (0 : 'M[R]_6)) (of_mx (tn 18 18 (tAN R)))
  1%:M [:: xp; xs].

Definition xrb1 : rrobot R := RR 12 6 6 12 12 [:: xfoot] false (dzero R 0 0) (dzero R 12 0) (of_mx (tn 6 18 (tJc R))) (of_mx (xPC R))
  (of_mx (xtg R)) (of_mx (xJkt R)) (of_mx (1%:M : 'M[R]_6)) (of_mx (1%:M : 'M[R]_6)) (of_mx (0 : 'M[R]_6)) (of_mx (tn 18 18 (tAN R)))
  1%:M [:: xp].

Lemma xrb_sized : rb_sized xrb 6 6 1.
Proof.
split=> //; split=> //; split=> //.
by apply: List.Forall_cons => //; exact: List.Forall_nil.
Qed.
Lemma xrb1_sized : rb_sized xrb1 6 6 1.
Proof. exact: xrb_sized. Qed.
Lemma xp_sized : con_sized 6 6 xp. Proof. by []. Qed.
Lemma xs_sized : nc_sized 6 6 6 xs. Proof. by []. Qed.

Lemma foot_at (F : 'cV[R]_(6 * 1)) z : F = tv (6 * 1) (fun _ => z) ->
  in_cone xfoot (blk3 (fun j => ent (of_mx F) j 0) (6 * 0)) (blk3 (fun j => ent (of_mx F) j 0) (6 * 0 + 3)) <-> z <= 0.
Proof.
move=> ->.
have e (j : nat) (l : (j < 6 * 1)%N) : ent (of_mx (tv (6 * 1) (fun _ => z))) j 0 = (j %% 6 == 2)%N%:R * z.
  by rewrite (of_mxO _ l (isT : (0 < 1)%N)) mxE.
set f := blk3 _ (6 * 0); set m := blk3 _ (6 * 0 + 3).
have ef : f = \col_i ((val i == 2%N)%:R * z).
  by apply/matrixP => i j; rewrite [LHS]mxE e ?mxE; case: i => [[|[|[|]]]].
have em : m = 0.
  by apply/matrixP => i j; rewrite [LHS]mxE e ?mxE; case: i => [[|[|[|]]]] //= *; rewrite mul0r.
rewrite /in_cone ef em /= trmx1 !mul1mx /vx /vy /vz !mxE /= !mul0r mul1r normr0 !mul1r oppr_ge0.
by split=> [[] //|h]; split.
Qed.
Lemma x_adm (tau : 'cV[R]_(6 + 6)) : tau = xtg R -> admissible (rd_of xrb) xfoot 1 tau.
Proof.
move=> ->; split=> // -[|k] // _; rewrite /contact_force /= !mx_of_mx.
apply/(foot_at (z := - 20%:R)); first exact: x_stand.
by rewrite oppr_le0 ler0n.
Qed.

Lemma zero_opt (q : qp R) t c : qp_wf q (t + c) -> (forall i j, ent (q_H q) i j = ((i < t)%N && (j < t)%N && (i == j))%:R) ->
  (forall i, ent (q_g q) i 0 = 0) -> qp_feasible q (fun _ => 0) -> qp_optimal q (fun _ => 0).
Proof.
move=> wf hH hg fe; split=> // y _; rewrite !(@level_cost _ q t c) //.
apply: ler_wpmul2l; first by rewrite divr_ge0 ?ler01 ?ler0n.
rewrite {1}/sqnorm big1 => [|i _]; last by rewrite mxE expr0n.
by apply: sumr_ge0 => i _; exact: sqr_ge0.
Qed.

(* a solver that needs no correction where none is needed *)
Definition lazy_at_zero (solver : nat -> qp R -> option (nat -> R)) : Prop :=
  forall i q t c, qp_wf q (t + c) -> (forall i j, ent (q_H q) i j = ((i < t)%N && (j < t)%N && (i == j))%:R) ->
  (forall i, ent (q_g q) i 0 = 0) -> qp_feasible q (fun _ => 0) -> exists x, solver i q = Some x /\ col_of t x = 0.

Lemma opt_lazy solver : (forall i q x, solver i q = Some x -> qp_optimal q x) ->
  (forall i q, (exists x, qp_optimal q x) -> solver i q <> None) -> lazy_at_zero solver.
Proof.
move=> opt tot i q t c wf hH hg fe.
have [x es] : exists x, solver i q = Some x.
  by have := tot i q (ex_intro _ _ (zero_opt wf hH hg fe)); case: (solver i q) => // x _; exists x.
exists x; split=> //; have [_ /(_ _ fe)] := opt _ _ _ es; rewrite !(@level_cost _ q t c) // ler_pmul2l ?divr_gt0 ?ltr01 ?ltr0n //.
have -> : sqnorm (col_of t (fun _ => 0 : R)) = 0 by rewrite /sqnorm big1 // => k _; rewrite mxE expr0n.
move=> le0; apply/matrixP => k j; rewrite ord1 [RHS]mxE; apply/eqP; rewrite -sqrf_eq0 eq_le sqr_ge0 andbT.
apply: le_trans le0; rewrite /sqnorm (bigD1 k) //= ler_addl; apply: sumr_ge0 => l _; exact: sqr_ge0.
Qed.

Lemma x_run solver : lazy_at_zero solver ->
  (exists res, ReducedCalcTaskControlTorque solver true xrb1 = Some res /\ z_ok res) /\
  exists res, [/\ ReducedCalcTaskControlTorque solver true xrb = Some res, z_ok res, applied xrb 6 res = xnR R,
    distributed xrb (mx_of (6 + 6) 1 (z_task res)) (applied xrb 6 res) (tv 6 (fun _ => - 100%:R)) &
    List.Forall (fun s => mx_of (nr (u_f s)) 1 (u_fqp s) = 0) (take 1 (z_ts res)) /\
    (if z_fqp res is Some f then mx_of 6 1 f = 0 else True)].
Proof.
move=> lz; have szd := xrb_sized; case: (szd) => _ _ _ _ [_ rdok _ _ _].
have tsz0 := as_ts_sized xp_sized.
have dI : dims (dident R (6 + 6)) (6 + 6) (6 + 6) by [].
have dg : dims (w_grav xrb) (6 + 6) 1 by [].
have [q0 [eq0 wf0 hH0 hg0 hx0]] := TaskQP_ok xfoot rdok tsz0 dI dg.
have lt0 (N : 'M[R]_(6 + 6)) : level_torque N (as_ts xp) (0 : 'cV[R]_6) = 0.
  by rewrite /level_torque /= !mx_of_mx addr0 mulmx0.
have col0 k (f : nat -> nat) : col_of k (fun j => (fun _ : nat => 0 : R) (f j)) = 0.
  by apply/matrixP => i j; rewrite !mxE.
have fe0 : qp_feasible q0 (fun _ => 0).
  apply/hx0; apply: x_adm; rewrite /tau_of (col0 _ id) (col0 _ (fun j => 6 + j)%N) lt0 mulmx0 !addr0.
  by rewrite /= mx_of_mx.
have [x0 [es0 c0]] := lz 0%N _ _ _ wf0 hH0 hg0 fe0.
have [s1 [ok [e1 [sm dfq _ [q0' [eq0' hq0]]]]]] := single_R solver szd 0 xp_sized dI dg.
have ? : q0' = q0 by move: eq0'; rewrite eq0 => -[].
subst q0'; rewrite es0 c0 in hq0; case: hq0 => ok1 _ mfq _; rewrite ok1 in e1.
case: (sm) => _ _ _ _ [eL ef eJk eNu].
have [tR [tN [p1 [e2 [dR mR] [dN mN] [eNp z1]]]]] : exists tR tN p1, [/\ one solver true xrb 0 (LS (dzero R 12 1) (dzero R 6 1) None (dzero R 6 1) [::]) xp =
    Some (LS tR tN None (dzero R 6 1) [:: p1], true), dims tR (6 + 6) 1 /\ mx_of (6 + 6) 1 tR = 0, dims tN 6 1 /\ mx_of 6 1 tN = 0 &
    u_Null p1 = of_mx (xNull R) /\ mx_of (nr (u_f p1)) 1 (u_fqp p1) = 0].
  have e1' : CalcSingleTaskTorqueWithQP_R solver xrb 0 xp (dident R 12) (of_mx (xtg R)) = Some (s1, true) := e1.
  rewrite /one /= e1'.
  rewrite /level /below /= ef eL eJk.
  have [f [-> df mf]] := dadd_mx (dims_of (0 : 'cV[R]_6)) dfq.
  rewrite mfq mx_of_mx addr0 in mf.
  have [JL [-> dJL mJL]] := dmul_mx (dims_of (xJkt R)) (dims_of (xLam R)).
  have [hh [-> dh mh]] := dmul_mx dJL df; rewrite mf mulmx0 in mh.
  have [tR [-> dR mR]] := dadd_mx (conj erefl erefl : dims (dzero R 12 1) (6 + 6) 1) dh.
  do 3 eexists; split; [by []| | |by rewrite /= eNu ef].
    by split=> //; rewrite mR mh mx_zero addr0.
  by split=> //; apply/matrixP => ? ?; rewrite !mxE /= addr0.
split.
  rewrite /ReducedCalcTaskControlTorque /=.
  have -> : one solver true xrb1 0 (LS (dzero R 12 1) (dzero R 6 1) None (dzero R 6 1) [::]) xp =
    Some (LS tR tN None (dzero R 6 1) [:: p1], true) by rewrite -e2.
  have [t1 [/= -> _ _]] := @spread_ok _ _ _ _ _ (xrb1_sized) tR tN (dzero R 12 1) 12 dR dN (conj erefl erefl) isT.
  by eexists; split.
have dNp : dims (u_Null p1) (6 + 6) (6 + 6) by rewrite eNp.
have [F [tp [q [s2 [[dF mF] [dtp mtp] eq e3 [res [eres hres]]]]]]] :=
  @nc_tail R solver xrb 6 6 1 szd p1 xs [::] 6 tR tN 0 xs_sized erefl dNp dR dN mN erefl.
exists res; move: hres; rewrite /= !mx_of_mx x_T.
have eD : dsubmx (tv (6 + 6 + 6) (fun i => [:: - 100%:R; 0; - 100%:R]`_i)) = tv 6 (fun _ => - 100%:R) :> 'cV[R]_6.
  by rewrite (@tv_d R (6 + 6) 6 2) //; apply: (@tv_ext _ _ 1) => // -[|?].
have eF : wrench 1%:M (of_mx (tv (6 + 6 + 6) (fun i => [:: - 100%:R; 0; - 100%:R]`_i))) = tv 6 (fun _ => - 100%:R) :> 'cV[R]_6.
  have eT (j : nat) : (j < 6)%N -> ent (of_mx (tv (6 + 6 + 6) (fun i => [:: - 100%:R; 0; - 100%:R]`_i))) j 0 = (j == 2%N)%:R * - 100%:R :> R.
    move=> lj; have l18 : (j < 6 + 6 + 6)%N by lia.
    by rewrite (of_mxO _ l18 (isT : (0 < 1)%N)) mxE /= divn_small // modn_small.
  rewrite /wrench mul1mx; apply/matrixP => a b; rewrite (ord1 b) [LHS]mxE [RHS]mxE.
  have la : (a < 6)%N := ltn_ord a; rewrite modn_small //.
  case: splitP => k ek; have lk := ltn_ord k; rewrite [LHS]mxE.
    rewrite eT; last by apply: leq_trans lk _.
    by rewrite -ek.
  rewrite eT; last by rewrite (ltn_add2l 3 k 3).
  by rewrite -[(3 + k)%N]ek.
rewrite eD eF; have col6 : mx_of 6 1 F = tv 6 (fun _ => - 100%:R) by rewrite mF /= !mx_of_mx x_T eF.
have dlt (f : 'cV[R]_6) : level_torque (mx_of (6 + 6) (6 + 6) (u_Null p1)) (nc_ts xrb 6 F) f = 0.
  by rewrite /level_torque eNp /= !mx_of_mx x_Nb !mul0mx.
have mtp' : mx_of (6 + 6) 1 tp = xtg R by rewrite mtp mR addr0 /= mx_of_mx.
have tsz : ts_sized (6 + 6) 6 (nc_ts xrb 6 F) by [].
have [q' [eq' wf hH hg hx]] := TaskQP_ok xfoot rdok tsz dNp dtp.
have ? : q' = q by move: eq; rewrite eq' => -[].
subst q'.
have fe : qp_feasible q (fun _ => 0).
  by apply/hx; apply: x_adm; rewrite /tau_of (col0 _ id) (col0 _ (fun j => 6 + j)%N) dlt mulmx0 !addr0.
have [x [es cx]] := lz 1%N _ _ _ wf hH hg fe.
rewrite es => -[okr [fq [efq mfq']] hR hd ets].
have eA : applied xrb 6 res = xnR R.
  by rewrite /applied efq mfq' cx mulmx0 col_mx0 addr0 hR mR add0r eNp !mx_of_mx mul1mx.
split=> //; first by rewrite /ReducedCalcTaskControlTorque /= e2 e3; exact: eres.
rewrite efq mfq' cx ets; split=> //=; constructor=> //; exact: List.Forall_nil.
Qed.
End Witness.

(* C115 refuted: a robot standing on one plane contact, a base task that asks for nothing and a task of a hand.  The
   gravity torque alone keeps the contact pressed with 20; every QP is solvable, and with any solver that finds optima
   the function returns 1 without a correction, but the torque it leaves pulls on the contact with 30 *)
Theorem C115_contact_refuted : forall R : realFieldType,
  exists (A : 'M[R]_(6 + 6 + 6)) SI G J (J_C : 'M[R]_(6 * 1, 6 + 6 + 6)) rd cs tg tgR PC rb p s d,
  [/\ standing (K := 1) (@exv 6) (@exn 6) A A SI 1%:M G J J_C rd cs tg tgR PC /\ members_of rd cs tgR PC rb,
      rb_sized rb 6 6 1 /\ w_ts rb = [:: p; s],
      base_computed A J_C rd cs rb, contact_task_computed 6 rd cs p /\ nc_task_computed 6 6 6 rb s &
      [/\ con_sized 6 6 p, nc_sized 6 6 6 s /\ nulls_sized 6 (w_ts rb), in_cones A G J_C d (w_cc rb) tg &
      forall solver, (forall i q x, solver i q = Some x -> qp_optimal q x) ->
        (forall i q, (exists x, qp_optimal q x) -> solver i q <> None) ->
        exists res, [/\ ReducedCalcTaskControlTorque solver true rb = Some res, z_ok res &
          ~ in_cones A G J_C d (w_cc rb) (tg + mx_of (6 + 6) 1 (z_task res))]]].
Proof.
move=> R; have [rd [erd [h1 h2] h3 [h4 h5] h6]] := x_red R.
have [cs [ecs k1 k2 k3 k4]] := x_contact erd.
have eg := x_grav erd ecs.
set tg := col_mx (usubmx (xtg R)) (dsubmx (xG R)) in eg.
exists (exA R 6), (exSI R), (xG R), 1%:M, (xC R), rd, cs, tg, (xtg R), (xPC R), (xrb R), (xp R), (xs R), (xfoot R).
have std : standing (K := 1) (@exv 6) (@exn 6) (exA R 6) (exA R 6) (exSI R) 1%:M (xG R) 1%:M (xC R) rd cs tg (xtg R) (xPC R).
  split=> //.
  - by split; [exact: ex_lead|exact: exA_posdef|exact: ex_carried|exact: ex_rot1].
  - by split; [exact: ex_J|exact: ex_free|].
  - by split; [exact: xC_chains|exact: xC_free| |exact: xC_base].
split.
- by split=> //; split; rewrite /= ?mx_of_mx ?h1 ?h5 ?k1.
- by split=> //; exact: xrb_sized.
- split; rewrite /= ?mx_of_mx ?h4 ?x_AN //; exists (xLam R); rewrite h2 k2 k4; exact: x_jkt.
- split; split; rewrite /= ?mx_of_mx.
  + by rewrite /xJ0 row_mxKr.
  + by rewrite x_base_task h2 k2 k4; exact: x_jkt.
  + by rewrite x_base_task k3 x_null.
  + exact: x_lam1.
  + by [].
split; [exact: xp_sized|by split; first exact: xs_sized| |].
  move=> a f hm [|k] // _; apply/(foot_at (z := - 20%:R)); last by rewrite oppr_le0 ler0n.
  have hm' : contact_motion (n := 6 + 6) (exA R 6) (xC R) (xG R) (tg + distribute rd 0 0) a f.
    by rewrite /distribute !mulmx0 addr0 [usubmx 0]raddf0 [dsubmx 0]raddf0 mulmx0 col_mx0 addr0.
  by rewrite (force_of std hm') addr0 k1 x_stand.
move=> solver opt tot; have [_ [res [eres okr ea hd _]]] := x_run (opt_lazy opt tot).
exists res; split=> // hin.
have [a [f hm]] := motion_exists_of (tg + mx_of (6 + 6) 1 (z_task res)) std.
have /(foot_at (z := 30%:R)) := hin a f hm 0%N isT.
rewrite hd ea in hm.
have hm' : contact_motion (n := 6 + 6) (exA R 6) (xC R) (xG R) (tg + distribute rd (xnR R) (tv 6 (fun _ => - 100%:R))) a f.
  by move: hm; rewrite /distribute /= !mx_of_mx h1 h5.
by rewrite (force_of std hm') k1 x_lift => /(_ erefl); rewrite lern0.
Qed.

(* ---- examples ---- *)
Section Examples.
Variable R : realFieldType.
(* a solver that tries only the zero vector *)
Definition zs (i : nat) (q : qp R) : option (nat -> R) :=
  if all (fun i => (if lent (q_lb q) i is Some l then l <= rowdot (q_A q) i (fun=> 0) else true) &&
                   (rowdot (q_A q) i (fun=> 0) <= ent (q_ub q) i 0)) (iota 0 (nr (q_A q)))
  then Some (fun=> 0) else None.
Lemma zs_ok i q : qp_feasible q (fun=> 0) -> zs i q = Some (fun=> 0).
Proof.
rewrite /zs => fs; case: allP => // -[] j; rewrite mem_iota /= add0n => lj; have [h1 h2] := fs j lj.
by rewrite h2 andbT; case e: (lent _ j) => [l|] //; apply: h1.
Qed.
Lemma zs_sound i q x : zs i q = Some x -> qp_feasible q x.
Proof.
rewrite /zs; case: allP => [h [<-]|//] j lj; have /andP[] := h j ltac:(by rewrite mem_iota).
by case: (lent _ j) => [l|] h1 h2; split=> // ? [<-].
Qed.
Lemma zs_lazy : lazy_at_zero zs.
Proof.
move=> i q t c _ _ _ fe; exists (fun=> 0); split; first exact: zs_ok.
by apply/matrixP => a b; rewrite !mxE.
Qed.

(* seven non-contact joints, a limit for each of the thirteen joints *)
Definition lim_rb : rrobot R := RR 13 6 7 12 12 [:: xfoot R] true (DM 13 1 (fun _ _ => 100%:R)) (dzero R 12 0) (of_mx (tn 6 18 (tJc R)))
  (of_mx (xPC R)) (of_mx (xtg R)) (of_mx (xJkt R)) (of_mx (1%:M : 'M[R]_6)) (of_mx (1%:M : 'M[R]_6)) (of_mx (0 : 'M[R]_6))
  (of_mx (tn 18 18 (tAN R))) 1%:M [:: xp R].
Example C113_ex : [/\ w_ts lim_rb = [:: xp R], w_lset lim_rb, nr (w_lim lim_rb) = (6 + 7)%N, w_rm lim_rb = (6 + 6)%N & nr (w_lim lim_rb) <> w_rm lim_rb].
Proof. by []. Qed.

Example C114_ex : [/\ rb_sized (xrb1 R) 6 6 1, List.Forall (fun s => exists t, con_sized 6 t s) (w_ts (xrb1 R)) /\ nulls_sized 6 (w_ts (xrb1 R)), w_ts (xrb1 R) <> [::],
  (forall i q x, zs i q = Some x -> qp_feasible q x) &
  exists res, ReducedCalcTaskControlTorque zs true (xrb1 R) = Some res /\ z_ok res].
Proof.
split=> //; [exact: xrb1_sized| |exact: zs_sound|exact: (x_run zs_lazy).1].
split=> //; by constructor; [exists 6%N; exact: xp_sized|exact: List.Forall_nil].
Qed.
Example C114_forces_ex : exists rd cs tg, standing (K := 1) (@exv 6) (@exn 6) (exA R 6) (exA R 6) (exSI R) 1%:M (xG R) 1%:M (xC R) rd cs tg (xtg R) (xPC R)
  /\ members_of rd cs (xtg R) (xPC R) (xrb1 R).
Proof.
have [rd [erd [h1 h2] h3 [h4 h5] h6]] := x_red R.
have [cs [ecs k1 k2 k3 k4]] := x_contact erd.
have eg := x_grav erd ecs.
exists rd, cs, (col_mx (usubmx (xtg R)) (dsubmx (xG R))); split.
  split=> //.
  - by split; [exact: ex_lead|exact: exA_posdef|exact: ex_carried|exact: ex_rot1].
  - by split; [exact: ex_J|exact: ex_free|].
  - by split; [exact: xC_chains|exact: xC_free| |exact: xC_base].
by split; rewrite /= ?mx_of_mx ?h1 ?h5 ?k1.
Qed.
(* a solver that never answers makes the call fail *)
Example C114_failure_ex : exists res, ReducedCalcTaskControlTorque (fun _ _ => None) true (xrb1 R) = Some res /\ z_ok res = false.
Proof.
suff gen solver : (forall i q, solver i q = None) -> exists res, ReducedCalcTaskControlTorque solver true (xrb1 R) = Some res /\ z_ok res = false.
  exact: (gen (fun _ _ => None)).
move=> nev.
have hts : List.Forall (fun s => exists t, con_sized 6 t s) (w_ts (xrb1 R)).
  by constructor; [exists 6%N; exact: xp_sized|exact: List.Forall_nil].
have [//|i q x|res [eres [_ _ h]]] := C114_contact_tasks (solver := solver) (xfoot R) (xrb1_sized R) hts ltac:(by []).
  by rewrite nev.
exists res; split=> //; case: (boolP (z_ok res)) => // ok.
move: eres ok; rewrite /ReducedCalcTaskControlTorque /= /one /=.
have dI : dims (dident R (6 + 6)) (6 + 6) (6 + 6) by [].
have [s1 [ok [e1 [_ _ _ [q [_ ek]]]]]] := single_R solver (xrb1_sized R) 0 (xp_sized R) dI (conj erefl erefl : dims (w_grav (xrb1 R)) (6 + 6) 1).
rewrite nev in ek; case: ek => ek _ _ _; rewrite ek in e1.
have e1' : CalcSingleTaskTorqueWithQP_R solver (xrb1 R) 0 (xp R) (dident R 12) (of_mx (xtg R)) = Some (s1, false) := e1.
by rewrite e1' => -[<-].
Qed.

Example C115_ex : [/\ rb_sized (xrb R) 6 6 1, w_ts (xrb R) = rcons [::] (xp R) ++ [:: xs R],
  List.Forall (fun s => exists t, con_sized 6 t s) (rcons [::] (xp R)), nc_sized 6 6 6 (xs R) /\ u_nch (xs R) = 0%N /\ nulls_sized 6 (w_ts (xrb R)) &
  exists res, ReducedCalcTaskControlTorque zs true (xrb R) = Some res /\ z_ok res].
Proof.
split; [exact: xrb_sized|by []| |by split; [exact: xs_sized|]|by have [_ [res [e1 e2 _ _ _]]] := x_run zs_lazy; exists res].
by constructor; [exists 6%N; exact: xp_sized|exact: List.Forall_nil].
Qed.

Example C116_ex : [/\ rb_sized (xrb R) 6 6 1, w_ts (xrb R) = [:: xp R] ++ [:: xs R],
  List.Forall (fun s => exists t, con_sized 6 t s) [:: xp R], List.Forall (fun s => exists t, nc_sized 6 6 t s) [:: xs R] /\ nulls_sized 6 (w_ts (xrb R)) /\ nch_ok [:: xs R] &
  exists res, [/\ ReducedCalcTaskControlTorque zs true (xrb R) = Some res, z_ok res,
    List.Forall (fun s => mx_of (nr (u_f s)) 1 (u_fqp s) = 0) (take (size [:: xp R]) (z_ts res)) &
    if z_fqp res is Some f then mx_of 6 1 f = 0 else True]].
Proof.
split=> //; first exact: xrb_sized.
- by constructor; [exists 6%N; exact: xp_sized|exact: List.Forall_nil].
- by split; first by [constructor; [exists 6%N; exact: xs_sized|exact: List.Forall_nil]].
by have [_ [res [e1 e2 _ _ [z1 z2]]]] := x_run zs_lazy; exists res.
Qed.

(* the hand task classified as the second non-contact one, directly below the base task *)
Definition xs1 : rtask R := RT true 1 (u_J (xs R)) (u_JNC (xs R)) (u_Lam (xs R)) (u_f (xs R)) (u_Jkt (xs R)) (u_Null (xs R))
  (u_fqp (xs R)) (u_cqp (xs R)) false (u_nullR (xs R)) (u_nullNC (xs R)).
Example C117_ex : [/\ u_nc (xp R) = false, u_JNC (xp R) = dzero R 0 0, (0 < nr (u_Lam (xp R)))%N, u_nc xs1 & u_nch xs1 <> 0%N].
Proof. by []. Qed.
End Examples.

Print Assumptions C113_limit_size_refuted.
Print Assumptions C113_all_joint_limits_refuted.
Print Assumptions C114_contact_tasks.
Print Assumptions C114_failure.
Print Assumptions C114_contact_forces.
Print Assumptions C115_certified_partial.
Print Assumptions C115_contact_refuted.
Print Assumptions C116_no_correction.
Print Assumptions C117_below_contact_refuted.
