(* C131-C138: the Python bridge. *)
From mathcomp Require Import all_ssreflect all_algebra.
From mathcomp Require Import zify all_real_closed.
From Verif Require Import LinAlg Geo_Model Geo_Spec Dyn_Model Dyn_Spec Dyn_Proofs Dyn_Props.
From Verif Require Import Redis_Model Redis_Spec Redis_Proofs Redis_Dyn Redis_Props Redis_Ex Brg_Model Brg_Spec Brg_Proofs Brg_Ex.
Set Implicit Arguments.
Unset Strict Implicit.
Unset Printing Implicit Defensive.
Import Order.TTheory GRing.Theory Num.Theory.
Local Open Scope ring_scope.

Section Props.
Variable R : rcfType.
Variables (zs : bool) (n : nat) (phys : seq R -> seq R -> seq R -> snap R n) (codV2 : 'M[R]_n -> {k : nat & 'M[R]_(k, n)}).
Local Notation step := (step zs phys codV2).
Local Notation run := (run zs phys codV2).
Local Notation session := (session zs phys codV2).
Local Notation brg := (brg R n).

(* C131 *)
Theorem C131_state_transferred q0 os s qpos qvel qacc q v a : session q0 os s -> state_arrays n qpos qvel qacc q v a ->
  posdef (sn_A (phys q v a)) ->
  exists s', [/\ step s (KUpdate qpos qvel qacc) = Some s',
    [/\ b_q s' = q, b_qd s' = v, b_qdd s' = a, b_now s' = phys q v a & b_Ainv s' = invmx (sn_A (phys q v a))],
    [/\ b_on s' = b_on s, b_feet s' = b_feet s & b_con s' = b_con s],
    [/\ b_f0 s' = b_f0 s, b_f1 s' = b_f1 s & b_lim s' = b_lim s] &
    getTorqueCommand s' = getTorqueCommand s].
Proof.
move=> /session_sized sz [c1 c2 c3 [x [y [z [qw [qx [qy [qz [js [sj h ->]]]]]]]]] [sv sa h2 h3]] pA.
rewrite /= (update_ok phys sz c1 c2 c3 sj sv sa h h2 h3) inverseE ?posdef_unit //=; eexists; split; first reflexivity.
all: by split.
Qed.

(* C132: an array with gaps between its elements is read as if it had none *)
Theorem C132_strided_refuted q0 os s qvel qacc v a : session q0 os s ->
  contiguous qvel -> contiguous qacc -> size v = (6 + n)%N -> size a = (6 + n)%N -> holds qvel v -> holds qacc a ->
  (forall q v a, posdef (sn_A (phys q v a))) ->
  exists qpos xs s', [/\ holds qpos xs, size xs = (n + 7)%N, step s (KUpdate qpos qvel qacc) = Some s' &
    nth 0 (b_q s') 1 <> nth 0 xs 1].
Proof.
move=> /session_sized sz c2 c3 sv sa h2 h3 pA.
pose mem := fun i : int => Some (i%:~R : R).
pose qpos := PyArr mem 0 2 (n + 7).
pose qc := PyArr mem 0 1 (n + 7).
pose xs := mkseq (fun i => (2 * i)%N%:R : R) (n + 7).
pose ys := mkseq (fun i => i%:R : R) (n + 7).
have hq : holds qc ys.
  by split; rewrite size_mkseq // => i hi; rewrite nth_mkseq // /elem /= add0r mulr1 /mem -pmulrn.
have sy : size ys = (n + 7)%N by rewrite size_mkseq.
have rE : reads qpos 0 (n + 7) = Some ys by rewrite -(readsA (erefl : contiguous qc) hq sy); exact: reads_ext.
exists qpos, xs; eexists; split; [|by rewrite size_mkseq| |].
2: by rewrite /= /UpdateKinematics rE (readsA c2 h2 sv) (readsA c3 h3 sa) inverseE ?posdef_unit.
  split; rewrite size_mkseq // => i hi; rewrite nth_mkseq // /elem /= add0r /mem.
  by rewrite -PoszM -pmulrn mulnC.
case: sz => sq _ _; have h7 : (1 < n + 7)%N by lia.
rewrite /= /fill_q (fill_loop (fun j => nth 0 ys (j + 7)%N)) /=.
do 6!rewrite nth_set_nth /=; rewrite !nth_mkseq // => /eqP.
by rewrite eqr_nat.
Qed.

(* an array that is too short is read past its end *)
Theorem C132_short_refuted s qpos qvel qacc xs : contiguous qpos -> holds qpos xs -> (size xs < n + 7)%N ->
  pa_mem qpos (pa_ptr qpos + (size xs)%:Z) = None -> step s (KUpdate qpos qvel qacc) = None.
Proof.
move=> c h lt hm; rewrite /= /UpdateKinematics.
suff -> : reads qpos 0 (n + 7) = None by [].
suff H k i : (i <= size xs < i + k)%N -> reads qpos i k = None by apply: H; lia.
elim: k i => [|k IH] i hi /=; first by lia.
have [e|ne] := eqVneq i (size xs); first by rewrite /ptr_at e hm.
by rewrite IH; [case: ptr_at|lia].
Qed.

(* the references are what was last given *)
Theorem C131_references s h f xs s' : contiguous f -> holds f xs -> step s (KTask h f) = Some s' ->
  [/\ b_f0 s' = (if h == 0 then xs else b_f0 s), b_f1 s' = (if h == 0 then b_f1 s else xs),
      b_now s' = b_now s, b_con s' = b_con s & b_tq s' = b_tq s].
Proof.
move=> c hf; rewrite /= /SetTaskSpace (readsA c hf) //; last by case: hf.
by case: ifP => _; [|case: ifP => // _]; case=> <-.
Qed.
Theorem C131_references_kept s o s' : step s o = Some s' -> (forall h f, o <> KTask h f) -> b_f0 s' = b_f0 s /\ b_f1 s' = b_f1 s.
Proof.
case: o => [qp qv qa|l r|h f||] //=.
- by rewrite /UpdateKinematics; case: reads => // p; case: reads => // v; case: reads => // a; case: inverse => // Ai [<-].
- by rewrite /SetContact; case: (match l with true => _ | false => _ end) => // c [<-].
- by move=> _ /(_ h f).
- by rewrite /CalcTorque; case: (match b_con s with Some _ => _ | None => _ end) => // c [<-].
- by case=> <-.
Qed.

(* a state whose contact members belong to the current robot state *)
Lemma fresh s qpos qvel qacc q v a l r os1 os2 s2 : sized s -> state_arrays n qpos qvel qacc q v a ->
  posdef (sn_A (phys q v a)) -> all (@quiet R) os1 -> all (@quiet R) os2 ->
  run s (KUpdate qpos qvel qacc :: os1 ++ KContact l r :: os2) = Some s2 ->
  [/\ b_now s2 = phys q v a, b_Ainv s2 = invmx (sn_A (phys q v a)), b_on s2 = (l, r),
      b_feet s2 = (sn_pl (phys q v a), sn_pr (phys q v a)) &
      exists s1 s3, [/\ SetContact codV2 s1 l r = Some s3, b_now s1 = phys q v a, b_Ainv s1 = invmx (sn_A (phys q v a)) & b_con s2 = b_con s3]].
Proof.
move=> sz [c1 c2 c3 [x [y [z [qw [qx [qy [qz [js [sj h ->]]]]]]]]] [sv sa h2 h3]] pA q1 q2.
set sn := phys _ v a in pA *.
rewrite /= (update_ok phys sz c1 c2 c3 sj sv sa h h2 h3) inverseE ?posdef_unit //= -/sn run_cat.
set s0 := Brg _ _ _ _ _ _ _ _ _ _ _ _ _; case E1: run => [s1|] //=.
have [n1 a1 o1 f1 k1] := quiet_run q1 E1.
case E2: SetContact => [s3|] // E3.
have [n3 a3 o3 f3 k3] := quiet_run q2 E3.
have [n2 a2 o2 f2] : [/\ b_now s3 = b_now s1, b_Ainv s3 = b_Ainv s1, b_on s3 = (l, r) & b_feet s3 = (sn_pl (b_now s1), sn_pr (b_now s1))].
  by move: E2; rewrite /SetContact; case: (match l with true => _ | false => _ end) => // c [<-].
rewrite n3 a3 o3 f3 k3 n2 a2 o2 f2 n1 a1; split=> //; exists s1, s3; by rewrite n1 a1.
Qed.

(* one foot on the ground *)
Lemma one_foot_con s1 l r s3 : l != r -> SetContact codV2 s1 l r = Some s3 ->
  exists cs, b_con s3 = Some (OneFoot cs) /\ CalculateContactConstraint (foot_J (b_now s1) r) (b_Ainv s1) = Some cs.
Proof.
by case: l; case: r => // _; rewrite /SetContact /foot_J; case: CalculateContactConstraint => //= cs [<-]; exists cs.
Qed.

(* what CalcTorque computes, on members that belong together *)
Lemma two_tasks m Ai (cs : contact_space R m n) tk0 tk1 ls : CalcTaskSpace Ai cs None [:: tk0; tk1] = Some ls ->
  exists K0 L0 N0 K1 L1 N1, ls = [:: @Level R n tk0 K0 L0 N0; @Level R n tk1 K1 L1 N1].
Proof. by move=> /=; case: CalculateJKT => // -[K0 L0]; case: CalculateJKT => // -[K1 L1] [<-]; do 6!eexists. Qed.
Lemma steps_robot s m (J : 'M[R]_(m, 6 + n)) cs red t : posdef (sn_A (b_now s)) -> b_Ainv s = invmx (sn_A (b_now s)) ->
  CalculateContactConstraint J (invmx (sn_A (b_now s))) = Some cs -> torque_steps s cs red = Some t ->
  exists rb ls, [/\ UpdateRobot (sn_A (b_now s)) J (sn_G (b_now s)) = Some rb, rb_cs rb = cs,
    CalcTaskSpace (rb_Ainv rb) (rb_cs rb) None
      [:: Task (sn_Jp (b_now s)) (cvec 6 (b_f0 s)); Task (sn_Jt (b_now s)) (cvec 3 (b_f1 s))] = Some ls &
    red rb (Torques (rb_tgrav rb) (CalcTaskControlTorque ls) 0) = Some t].
Proof.
move=> pA eA ec; rewrite /torque_steps eA /= /tasks; case: ifP => // _.
case E: CalcTaskSpace => [ls|] // h.
by eexists; exists ls; split; [exact: (UpdateRobot_con _ pA ec)|..].
Qed.
Lemma zero_refs m Ai (cs : contact_space R m n) Jp Jt ls :
  CalcTaskSpace Ai cs None [:: @Task R n 6 Jp 0; @Task R n 3 Jt 0] = Some ls -> CalcTaskControlTorque ls = 0.
Proof.
by case/two_tasks=> K0 [L0 [N0 [K1 [L1 [N1 ->]]]]]; rewrite /CalcTaskControlTorque /= !mulmx0 addr0.
Qed.
Lemma cvec0 k j : cvec k (nseq j (0 : R)) = 0.
Proof. by apply/matrixP => i x; rewrite !mxE nth_nseq; case: ifP. Qed.

(* C133: standing on one foot *)
Theorem C133_one_foot q0 os s qpos qvel qacc q v a l r os1 os2 s' : session q0 os s ->
  state_arrays n qpos qvel qacc q v a -> all (@quiet R) os1 -> all (@quiet R) os2 -> l != r ->
  let sn := phys q v a in let J := foot_J sn r in
  posdef (sn_A sn) -> row_free J -> contacts_fix_base J ->
  run s (KUpdate qpos qvel qacc :: os1 ++ KContact l r :: os2 ++ [:: KTorque]) = Some s' ->
  forall acc f, contact_motion (sn_A sn) J (sn_G sn) (getTorqueCommand s') acc f ->
  [/\ sn_Jp sn *m acc = cvec 6 (b_f0 s'), tq_con (b_tq s') = 0 &
      b_f0 s' = nseq 6 0 -> b_f1 s' = nseq 3 0 -> acc = 0].
Proof.
move=> /session_sized sz hs q1 q2 lr sn J pA fJ bJ.
rewrite (_ : _ :: _ = (KUpdate qpos qvel qacc :: os1 ++ KContact l r :: os2) ++ [:: KTorque]); last by rewrite /= -catA.
rewrite run_cat; case E: run => [s2|] //= h acc f.
have [en ea eo ef [s1 [s3 [ec n1 a1 k1]]]] := fresh sz hs pA q1 q2 E.
have [cs [kc cE]] := one_foot_con lr ec.
rewrite n1 a1 -/sn in cE.
move: h; rewrite /CalcTorque k1 kc; case T: torque_steps => [t|] //= [<-] /=.
rewrite -[phys q v a]/sn in en ea.
have pA2 : posdef (sn_A (b_now s2)) by rewrite en.
have ea2 : b_Ainv s2 = invmx (sn_A (b_now s2)) by rewrite en ea.
have ec2 : CalculateContactConstraint J (invmx (sn_A (b_now s2))) = Some cs by rewrite en cE.
have [rb [ls [hrb ecs hts ht]]] := steps_robot pA2 ea2 ec2 T.
rewrite en in hrb hts; case: ht => <- /=.
rewrite /getTorqueCommand /= addr0 => hm.
split=> //; first exact: (C19_top_priority_undisturbed pA fJ bJ hrb hts hm).
move=> z0 z1.
have c0 : cvec 6 (b_f0 s2) = 0 by rewrite z0; exact: (cvec0 6 6).
have c1 : cvec 3 (b_f1 s2) = 0 by rewrite z1; exact: (cvec0 3 3).
rewrite c0 c1 in hts; rewrite (zero_refs hts) addr0 in hm.
by have [_ /(_ bJ) []] := rb_grav pA fJ hrb hm.
Qed.

(* C133: standing on both feet *)
Theorem C133_two_feet q0 os s qpos qvel qacc q v a os1 os2 s' : session q0 os s ->
  state_arrays n qpos qvel qacc q v a -> all (@quiet R) os1 -> all (@quiet R) os2 ->
  (forall W, left_null_basis W (projT2 (codV2 W))) ->
  let sn := phys q v a in let J := feet_J sn in
  posdef (sn_A sn) -> row_free J -> (exists p0 B, B \in unitmx /\ rigid_feet p0 B (sn_pl sn) (sn_pr sn) J) ->
  sn_c sn * sn_c sn + sn_s sn * sn_s sn = 1 ->
  run s (KUpdate qpos qvel qacc :: os1 ++ KContact true true :: os2 ++ [:: KTorque]) = Some s' ->
  forall acc f, contact_motion (sn_A sn) J (sn_G sn) (getTorqueCommand s') acc f ->
  [/\ sn_Jp sn *m acc = cvec 6 (b_f0 s'),
      exists e f0, [/\ 1 / 100%:R <= e <= 99%:R / 100%:R,
        contact_motion (sn_A sn) J (sn_G sn) (tq_grav (b_tq s') + tq_task (b_tq s')) acc f0 &
        f = split_wrench (sn_pl sn) (sn_pr sn) f0 e] &
      b_f0 s' = nseq 6 0 -> b_f1 s' = nseq 3 0 -> acc = 0].
Proof.
move=> /session_sized sz hs q1 q2 cod sn J pA fJ rg yw.
rewrite (_ : _ :: _ = (KUpdate qpos qvel qacc :: os1 ++ KContact true true :: os2) ++ [:: KTorque]); last by rewrite /= -catA.
rewrite run_cat; case E: run => [s2|] //= h acc f.
have [en ea eo ef [s1 [s3 [ec n1 a1 k1]]]] := fresh sz hs pA q1 q2 E.
rewrite -[phys q v a]/sn in en ea n1 a1 ef.
have [cs [kc cE]] : exists cs, b_con s3 = Some (TwoFoot cs) /\ CalculateContactConstraint J (invmx (sn_A sn)) = Some cs.
  move: ec; rewrite /SetContact n1 a1 -/(feet_J sn) -/J; case: CalculateContactConstraint => // cs; case: ifP => // _ [<-].
  by exists cs.
move: h; rewrite /CalcTorque k1 kc; case T: torque_steps => [t|] //= [<-] /=.
have pA2 : posdef (sn_A (b_now s2)) by rewrite en.
have ea2 : b_Ainv s2 = invmx (sn_A (b_now s2)) by rewrite en ea.
have ec2 : CalculateContactConstraint J (invmx (sn_A (b_now s2))) = Some cs by rewrite en cE.
have [rb [ls [hrb ecs hts ht]]] := steps_robot pA2 ea2 ec2 T.
rewrite en in hrb hts ht; rewrite eo ef /= in ht.
set ft := Feet _ _ _ _ in ht; set t0 := Torques _ _ _ in ht.
have tf : two_feet (sn_A sn) J (sn_G sn) rb (projT2 (codV2 (cs_W cs))) ft (sn_pl sn) (sn_pr sn).
  by split=> //; [rewrite ecs; exact: cod|exists true, true, [::]].
have [acc0 [f0 m0]] := rb_motion_ex pA fJ hrb (command t0).
rewrite /getTorqueCommand -/(command t) => hm.
have [g1 g2 ea3 [e [he fe]]] := C28_force_produced_partial tf (erefl : tq_con t0 = 0) ht m0 hm.
have bJ : contacts_fix_base J by case: rg => p0 [B [uB rg]]; exact: (feet_fix_base uB rg).
have m1 := m0; rewrite /command /= addr0 in m1.
rewrite ea3; split; first exact: (C19_top_priority_undisturbed pA fJ bJ hrb hts m1).
  by exists e, f0; split=> //; rewrite g1 g2.
move=> z0 z1.
have c0 : cvec 6 (b_f0 s2) = 0 by rewrite z0; exact: (cvec0 6 6).
have c1 : cvec 3 (b_f1 s2) = 0 by rewrite z1; exact: (cvec0 3 3).
rewrite c0 c1 in hts; rewrite (zero_refs hts) addr0 in m1.
by have [_ /(_ bJ) []] := rb_grav pA fJ hrb m1.
Qed.

(* on one foot, every call is defined *)
Lemma jkt_def m (J : 'M[R]_(m, 6 + n)) A G rb t (Jt : 'M[R]_(t, 6 + n)) : posdef A -> row_free J ->
  UpdateRobot A J G = Some rb -> row_free (col_mx J Jt) ->
  exists K L, CalculateJKT Jt (rb_Ainv rb) (cs_NC (rb_cs rb)) (cs_Winv (rb_cs rb)) = Some (K, L).
Proof.
by move=> pA fJ hrb fr; have [K [L [h _ _ _]]] := jktE pA fJ hrb (task_unit pA fJ hrb fr); exists K, L.
Qed.
Lemma contact_def s r : on_foot (b_now s) (foot_J (b_now s) r) -> b_Ainv s = invmx (sn_A (b_now s)) ->
  exists s' cs, [/\ step s (KContact (~~ r) r) = Some s', b_con s' = Some (OneFoot cs),
    CalculateContactConstraint (foot_J (b_now s) r) (b_Ainv s) = Some cs, b_now s' = b_now s &
    [/\ b_Ainv s' = b_Ainv s, b_f0 s' = b_f0 s & b_f1 s' = b_f1 s]].
Proof.
move=> [pA fJ _ _ _] eA; have [cs h] := con_exists pA fJ; rewrite -eA in h.
by case: r fJ h => fJ h; rewrite /= /SetContact /foot_J in h *; rewrite h /=; eexists; exists cs.
Qed.
Lemma torque_def s cs (J : 'M[R]_(6, 6 + n)) : on_foot (b_now s) J -> b_Ainv s = invmx (sn_A (b_now s)) ->
  CalculateContactConstraint J (b_Ainv s) = Some cs -> b_con s = Some (OneFoot cs) ->
  size (b_f0 s) = 6%N -> size (b_f1 s) = 3%N -> exists s', step s KTorque = Some s'.
Proof.
move=> [pA fJ bJ fp ft] eA ec kc z0 z1; rewrite /= /CalcTorque kc /torque_steps /= /tasks z0 z1 !eqxx /=.
rewrite eA in ec *; have hrb := UpdateRobot_con (sn_G (b_now s)) pA ec.
have [K0 [L0 /= ->]] := jkt_def pA fJ hrb fp; have [K1 [L1 /= ->]] := jkt_def pA fJ hrb ft.
by eexists.
Qed.
(* C133: on one foot the usual sequence of calls always gives a command *)
Theorem C133_defined q0 os s qpos qvel qacc q v a r f g xs ys : session q0 os s -> state_arrays n qpos qvel qacc q v a ->
  on_foot (phys q v a) (foot_J (phys q v a) r) -> contiguous f -> contiguous g -> holds f xs -> holds g ys ->
  size xs = 6%N -> size ys = 3%N ->
  exists s', [/\ run s [:: KUpdate qpos qvel qacc; KContact (~~ r) r; KTask 0 f; KTask 1 g; KTorque] = Some s',
    b_f0 s' = xs & b_f1 s' = ys].
Proof.
move=> hs sa oF c1 c2 h1 h2 z1 z2; have pA := of_A oF.
have [s1 [e1 [_ _ _ n1 a1] _ _ _]] := C131_state_transferred hs sa pA.
rewrite -n1 in oF a1.
have [s2 [cs [e2 kc ec n2 [a2 _ _]]]] := contact_def oF a1.
rewrite /run -/run e1 e2 /= /SetTaskSpace (readsA c1 h1) ?(readsA c2 h2); try by case: h1; case: h2.
rewrite /=; set s3 := Brg _ _ _ _ _ _ _ _ _ _ _ _ _.
have [] := @torque_def s3 cs (foot_J (b_now s1) r) => //=; rewrite ?n2 ?a2 //.
move=> s' hs'; rewrite hs'; exists s'; split=> //.
all: have nk : forall h f, (KTorque : call R) <> KTask h f by [].
all: by have [] := @C131_references_kept s3 KTorque s' hs' nk.
Qed.

(* C134: whatever the limit, some reference makes the command exceed it *)
Theorem C134_torque_limit_refuted q0 os s qpos qvel qacc q v a r (L : R) : session q0 os s -> state_arrays n qpos qvel qacc q v a ->
  on_foot (phys q v a) (foot_J (phys q v a) r) ->
  exists f g s', run s [:: KUpdate qpos qvel qacc; KContact (~~ r) r; KTask 0 f; KTask 1 g; KTorque] = Some s' /\
    exists i, L < `|getTorqueCommand s' i 0|.
Proof.
move=> hs sa oF; set sn := phys q v a in oF; set J := foot_J sn r in oF.
have [pA fJ bJ fp ft] := oF.
have [rb [hrb _ _ _ _]] := UpdateRobotE (sn_G sn) pA fJ.
set AN := cs_AinvNC (rb_cs rb); pose M := sn_Jp sn *m rsubmx AN; pose g := sn_Jp sn *m (AN *m sn_G sn).
pose big := 1 + (\sum_j `|M 0 j| * `|L| + `|g 0 0|).
pose arr (xs : seq R) := PyArr (fun i : int => if i is Posz k then (if (k < size xs)%N then Some (nth 0 xs k) else None) else None) 0 1 (size xs).
have ah xs : holds (arr xs) xs by split=> // i hi; rewrite /elem [pa_ptr _]/= [pa_stride _]/= mulr1 add0r /= hi.
have [s' [e f0 f1]] := C133_defined hs sa oF (erefl : contiguous (arr (nseq 6 big))) (erefl : contiguous (arr (nseq 3 0)))
   (ah _) (ah _) (size_nseq _ _) (size_nseq _ _).
exists (arr (nseq 6 big)), (arr (nseq 3 0)), s'; split=> //.
have [acc [f hm]] := rb_motion_ex pA fJ hrb (getTorqueCommand s').
have nr : ~~ r != r by case: (r).
have := @C133_one_foot q0 os s qpos qvel qacc q v a (~~ r) r [::] [:: KTask 0 (arr (nseq 6 big)); KTask 1 (arr (nseq 3 0))]
  s' hs sa isT isT nr pA fJ bJ e acc f hm.
case=> ep _ _; have [eacc _] := (rb_motion pA fJ hrb _ _ _).1 hm.
have bE : (M *m getTorqueCommand s') 0 0 - g 0 0 = big.
  have := congr1 (fun x : 'cV_6 => x 0 0) ep; rewrite f0 [RHS]mxE /= => <-.
  by rewrite eacc /acc_of -/AN mulmxBr mul_actuate mulmxBr mulmxA -/g [RHS]mxE [X in _ = _ + X]mxE.
have [/existsP [i hi]|] := boolP [exists i, L < `|getTorqueCommand s' i 0|]; first by exists i.
rewrite negb_exists => /forallP hall; exfalso.
have : big <= \sum_j `|M 0 j| * `|L| + `|g 0 0|.
  rewrite -bE; apply: le_trans (ler_norm _) _; apply: le_trans (ler_norm_sub _ _) _; rewrite ler_add2r mxE.
  apply: le_trans (ler_norm_sum _ _ _) _; apply: ler_sum => j _; rewrite normrM ler_wpmul2l //.
  by apply: le_trans (ler_norm L); rewrite leNgt; exact: hall.
by rewrite /big -ler_subr_addr subrr ler10.
Qed.

(* C135: leaving out the calls of Reset changes no command *)
Definition with_init (t : brg) b : brg :=
  Brg (b_q t) (b_qd t) (b_qdd t) (b_now t) (b_Ainv t) (b_on t) (b_feet t) (b_con t) (b_f0 t) (b_f1 t) (b_tq t) (b_lim t) b.
Lemma torque_tq (s : brg) t b : CalcTorque zs codV2
  (Brg (b_q s) (b_qd s) (b_qdd s) (b_now s) (b_Ainv s) (b_on s) (b_feet s) (b_con s) (b_f0 s) (b_f1 s) t (b_lim s) b) = CalcTorque zs codV2 s.
Proof. by []. Qed.
Lemma step_init t o b : exists b', step (with_init t b) o = omap (with_init^~ b') (step t o).
Proof.
case: o => [qp qv qa|l r|h f||] /=.
- exists b; rewrite /UpdateKinematics; case: reads => // p; case: reads => // v; case: reads => // a /=.
  by case: inverse.
- by exists b; rewrite /SetContact /=; case: (match l with true => _ | false => _ end).
- by exists b; rewrite /SetTaskSpace; case: reads => // g; case: ifP => _ //; case: ifP.
- exists false; rewrite [CalcTorque zs codV2 (with_init t b)]torque_tq /CalcTorque.
  by case: (match b_con t with Some _ => _ | None => _ end).
- by exists true.
Qed.
Lemma run_init os : forall t b, exists b', run (with_init t b) os = omap (with_init^~ b') (run t os).
Proof.
elim: os => [|o os IH] t b /=; first by exists b.
have [b1 ->] := step_init t o b; case: step => [u|] /=; [exact: IH|by exists b].
Qed.
Theorem C135_reset_ignored_refuted os : forall s,
  omap (@getTorqueCommand R n) (run s os) = omap (@getTorqueCommand R n) (run s [seq o <- os | ~~ is_reset o]).
Proof.
elim: os => [|o os IH] s //; case: (boolP (is_reset o)) => hr /=.
  case: o hr => //= _; rewrite -IH -[Reset s]/(with_init s true).
  by have [b ->] := run_init os s true; case: run.
by rewrite hr /=; case: step.
Qed.

(* C136 *)
Theorem C136_again s s' : step s KTorque = Some s' -> step s' KTorque = Some s'.
Proof.
rewrite /= => h; move: (h); rewrite /CalcTorque; case: (match b_con s with Some _ => _ | None => _ end) => [t|] // [e].
by rewrite -[X in CalcTorque _ _ X = _]e (torque_tq s).
Qed.
Lemma invmx_scale k (c : R) (M : 'M[R]_k) : c \is a GRing.unit -> M \in unitmx -> invmx (c *: M) = c^-1 *: invmx M.
Proof.
move=> uc uM; have u : c *: M \in unitmx by rewrite unitmxZ.
by rewrite -[RHS](mulmxK u) -scalemxAl -scalemxAr scalerA mulVr // scale1r mulVmx // mul1mx.
Qed.
Lemma steps_ext (s t : brg) m (cs : contact_space R m n) red : b_Ainv s = b_Ainv t -> b_now s = b_now t ->
  b_f0 s = b_f0 t -> b_f1 s = b_f1 t -> torque_steps s cs red = torque_steps t cs red.
Proof. by rewrite /torque_steps /tasks => -> -> -> ->. Qed.
Lemma torque_ext (s t : brg) : b_now s = b_now t -> b_Ainv s = b_Ainv t -> b_f0 s = b_f0 t -> b_f1 s = b_f1 t ->
  b_on s = b_on t -> b_feet s = b_feet t -> b_con s = b_con t ->
  omap (@getTorqueCommand R n) (CalcTorque zs codV2 s) = omap (@getTorqueCommand R n) (CalcTorque zs codV2 t).
Proof.
move=> en ea e0 e1 eo ef ec; rewrite /CalcTorque eo ef ec en.
by case: (b_con t) => [[cs|cs]|] //; rewrite (steps_ext cs _ ea en e0 e1); case: torque_steps.
Qed.
Theorem C136_history q0 q0' os os' s t qpos qvel qacc q v a l r f g : session q0 os s -> session q0' os' t ->
  state_arrays n qpos qvel qacc q v a ->
  let calls := [:: KUpdate qpos qvel qacc; KContact l r; KTask 0 f; KTask 1 g; KTorque] in
  omap (@getTorqueCommand R n) (run s calls) = omap (@getTorqueCommand R n) (run t calls).
Proof.
move=> /session_sized sz /session_sized tz [c1 c2 c3 [x [y [z [qw [qx [qy [qz [js [sj h _]]]]]]]]] [sv sa h2 h3]] /=.
rewrite (update_ok phys sz c1 c2 c3 sj sv sa h h2 h3) (update_ok phys tz c1 c2 c3 sj sv sa h h2 h3).
case: inverse => //= Ai; rewrite /SetContact /=.
case: (match l with true => _ | false => _ end) => //= c; rewrite /SetTaskSpace.
case: reads => //= xs; case: reads => //= ys.
have so (o : option brg) : (if o is Some s' then Some s' else None) = o by case: o.
by rewrite !so; exact: torque_ext.
Qed.

(* C137: UpdateKinematics without SetContact.  The robot is at rest and nothing but the mass matrix has changed, yet the
   command of zero references does not hold it *)
Theorem C137_stale_refuted q0 os s qpos qvel qacc q v a qpos' qvel' qacc' q' v' a' r f g : session q0 os s ->
  state_arrays n qpos qvel qacc q v a -> state_arrays n qpos' qvel' qacc' q' v' a' ->
  let sn := phys q v a in let sn' := phys q' v' a' in let J := foot_J sn r in
  on_foot sn J -> sn_A sn' = 2%:R *: sn_A sn ->
  [/\ foot_J sn' r = J, sn_G sn' = sn_G sn, sn_Jp sn' = sn_Jp sn & sn_Jt sn' = sn_Jt sn] ->
  contiguous f -> contiguous g -> holds f (nseq 6 0) -> holds g (nseq 3 0) ->
  (forall w, J^T *m w + sn_G sn <> 0) ->
  exists s', run s [:: KUpdate qpos qvel qacc; KContact (~~ r) r; KTask 0 f; KTask 1 g; KUpdate qpos' qvel' qacc'; KTorque] = Some s' /\
    forall acc w, contact_motion (sn_A sn') (foot_J sn' r) (sn_G sn') (getTorqueCommand s') acc w -> acc <> 0.
Proof.
move=> hs sa sa' sn sn' J oF eA' [eJ' eG' ep et] c1 c2 h1 h2 hG.
have [pA fJ bJ fp ft] := oF; have u2 : (2%:R : R) \is a GRing.unit by rewrite unitfE pnatr_eq0.
have uA' : sn_A sn' \in unitmx by rewrite eA' unitmxZ // posdef_unit.
have [s1 [e1 [_ _ _ n1 a1] _ _ _]] := C131_state_transferred hs sa pA.
have oF1 : on_foot (b_now s1) (foot_J (b_now s1) r) by rewrite n1.
have a1' : b_Ainv s1 = invmx (sn_A (b_now s1)) by rewrite n1.
have [s2 [cs [e2 kc ec n2 [a2 _ _]]]] := contact_def oF1 a1'.
rewrite n1 a1 -/sn -/J in ec.
rewrite /run -/run e1 e2 /= /SetTaskSpace (readsA c1 h1) ?(readsA c2 h2); try by case: h1; case: h2.
rewrite /=; set s3 := Brg _ _ _ _ _ _ _ _ _ _ _ _ _.
have sz3 : sized s3 by exact: (step_sized e2 (step_sized e1 (session_sized hs))).
case: sa' => d1 d2 d3 [x [y [z [qw [qx [qy [qz [js [sj h eq']]]]]]]]] [sv sa2 h3 h4].
rewrite (update_ok phys sz3 d1 d2 d3 sj sv sa2 h h3 h4) -eq' -/sn' inverseE //=.
have hrb := UpdateRobot_con (sn_G sn) pA ec.
have eI : invmx (sn_A sn') = 2%:R^-1 *: invmx (sn_A sn).
  by rewrite eA'; rewrite invmx_scale ?posdef_unit.
have jd t (Jt : 'M[R]_(t, 6 + n)) : row_free (col_mx J Jt) ->
    exists K L, CalculateJKT Jt (invmx (sn_A sn')) (cs_NC cs) (cs_Winv cs) = Some (K, L).
  move=> fr; have := task_unit pA fJ hrb fr; rewrite /= => ut.
  rewrite /CalculateJKT eI inverseE; first by do 2!eexists.
  by rewrite -scalemxAr -!scalemxAl unitmxZ // unitrV.
have [K0 [L0 E0]] := jd _ _ fp; have [K1 [L1 E1]] := jd _ _ ft.
rewrite /CalcTorque /= kc /torque_steps /= ep et E0 E1; eexists; split; first reflexivity.
move=> acc w; rewrite /getTorqueCommand /= addr0 eJ' eG' => -[em _] acc0; rewrite acc0 mulmx0 add0r in em.
set rb := Robot _ _ _ _ in hrb; have [acc1 [f1 hm1]] := rb_motion_ex pA fJ hrb (rb_tgrav rb).
have [_ /(_ bJ) [_ e3]] := rb_grav pA fJ hrb hm1.
apply: (hG (2%:R *: w - f1)).
have eg : actuate (rb_tgrav rb) = 2%:R *: (J^T *m w + sn_G sn).
  rewrite em; set t := CalcTaskControlTorque _.
  have t0 : t = 0.
    have c0 : \col_(i < 6) nth 0 [:: 0; 0; 0; 0; 0; 0] i = 0 :> 'cV[R]_6 by exact: (cvec0 6 6).
    have c3 : \col_(i < 3) nth 0 [:: 0; 0; 0] i = 0 :> 'cV[R]_3 by exact: (cvec0 3 3).
    by rewrite /t /CalcTaskControlTorque /= c0 c3 !mulmx0 addr0.
  rewrite t0 addr0 eI linearZ /= -scalemxAl -scalemxAr /actuate scale_col_mx scaler0 scalerA divff ?scale1r //.
  by rewrite pnatr_eq0.
move: (etrans e3 eg); rewrite mulmxBr -scalemxAr; move: (J^T *m f1) (J^T *m w) (sn_G sn) => Y X Z e4.
have -> : 2%:R *: X - Y + Z = 2%:R *: (X + Z) - (Y + Z).
  rewrite opprD scalerDr (scaler_nat 2 Z) mulr2n -addrA -[in RHS]addrA; congr (_ + _).
  by rewrite [- Y - Z]addrC addrA addrK addrC.
by rewrite e4 subrr.
Qed.

(* C138 *)
Theorem C138_no_foot_refuted s : step s (KContact false false) = None.
Proof. by []. Qed.
Theorem C138_some_foot q0 os s l r : session q0 os s -> l || r -> posdef (sn_A (b_now s)) -> b_Ainv s = invmx (sn_A (b_now s)) ->
  (forall W, left_null_basis W (projT2 (codV2 W))) -> contacts_fix_base (feet_J (b_now s)) -> row_free (feet_J (b_now s)) ->
  exists s', [/\ step s (KContact l r) = Some s', b_on s' = (l, r) & getTorqueCommand s' = getTorqueCommand s].
Proof.
move=> _ lr pA eA cod bJ fJ.
have fl : row_free (sn_Jl (b_now s)) by exact: col_free_top fJ.
have fr : row_free (sn_Jr (b_now s)) by exact: col_free_bot fJ.
have [cl hl] := con_exists pA fl; have [cr hr] := con_exists pA fr; have [cb hb] := con_exists pA fJ.
rewrite -eA in hl hr hb.
case: l r lr => [] [] //= _; rewrite /SetContact ?hl ?hr /=; try by eexists.
rewrite -/(feet_J (b_now s)) hb.
have hrb := UpdateRobot_con 0 pA (etrans (congr1 _ (esym eA)) hb).
have [_ _ k6] := cod (cs_W cb).
by rewrite k6 (rb_W_null pA fJ hrb bJ) /=; eexists.
Qed.

(* C133: on two feet a command is given unless, at the motion that follows, the moment about both feet vanishes along the
   heading (see C28_defined_iff) *)
Theorem C133_two_defined q0 os s qpos qvel qacc q v a f g xs ys : session q0 os s -> state_arrays n qpos qvel qacc q v a ->
  (forall W, left_null_basis W (projT2 (codV2 W))) ->
  let sn := phys q v a in let J := feet_J sn in
  posdef (sn_A sn) -> row_free J -> (exists p0 B, B \in unitmx /\ rigid_feet p0 B (sn_pl sn) (sn_pr sn) J) ->
  sn_c sn * sn_c sn + sn_s sn * sn_s sn = 1 ->
  row_free (col_mx J (sn_Jp sn)) -> row_free (col_mx J (sn_Jt sn)) ->
  contiguous f -> contiguous g -> holds f xs -> holds g ys -> size xs = 6%N -> size ys = 3%N ->
  let along v := sn_c sn * X v + sn_s sn * Y v in
  (forall tau acc w, contact_motion (sn_A sn) J (sn_G sn) tau acc w -> sn_Jp sn *m acc = cvec 6 xs ->
    ~ (along (net_moment (sn_pl sn) (sn_pl sn) (sn_pr sn) w) = 0 /\ along (net_moment (sn_pr sn) (sn_pl sn) (sn_pr sn) w) = 0)) ->
  exists s', [/\ run s [:: KUpdate qpos qvel qacc; KContact true true; KTask 0 f; KTask 1 g; KTorque] = Some s',
    b_f0 s' = xs & b_f1 s' = ys].
Proof.
move=> hs sa cod sn J pA fJ rg yw fp ft c1 c2 h1 h2 z1 z2 along hA.
have bJ : contacts_fix_base J by case: rg => p0 [B [uB rg']]; exact: (feet_fix_base uB rg').
have [s1 [e1 [_ _ _ n1 a1] _ _ _]] := C131_state_transferred hs sa pA.
have [cs ec] := con_exists pA fJ.
have hrb := UpdateRobot_con (sn_G sn) pA ec.
have k6 : projT1 (codV2 (cs_W cs)) = 6%N by have [_ _ ->] := cod (cs_W cs); rewrite (rb_W_null pA fJ hrb bJ).
rewrite /run -/run e1 /= /SetContact n1 a1 -/sn -/(feet_J sn) -/J ec k6 /= /SetTaskSpace.
rewrite (readsA c1 h1) ?(readsA c2 h2); try by case: h1; case: h2.
rewrite /= /CalcTorque /= /torque_steps /= /tasks /= z1 z2 !eqxx /= -/sn.
set rb := Robot _ _ _ _ in hrb *.
have [K0 [L0 E0]] := jkt_def pA fJ hrb fp; have [K1 [L1 E1]] := jkt_def pA fJ hrb ft.
rewrite /= in E0 E1.
have [ls hls] : exists ls, CalcTaskSpace (rb_Ainv rb) (rb_cs rb) None
    [:: Task (sn_Jp sn) (cvec 6 xs); Task (sn_Jt sn) (cvec 3 ys)] = Some ls by rewrite /= E0 E1; eexists.
have := hls; rewrite /= E0 E1 => -[->].
set t := Torques _ _ _; set fe := Feet _ _ _ _.
have tf : two_feet (sn_A sn) J (sn_G sn) rb (projT2 (codV2 (cs_W cs))) fe (sn_pl sn) (sn_pr sn).
  by split=> //; first [exact: cod | by exists true, true, [::]].
have [acc [w hm]] := rb_motion_ex pA fJ hrb (command t).
have hm' := hm; rewrite /command /= addr0 in hm'.
have hp : sn_Jp sn *m acc = cvec 6 xs := C19_top_priority_undisturbed pA fJ bJ hrb hls hm'.
have [t' ->] := (C28_defined_iff zs tf hm).2 (hA _ _ _ hm hp).
by eexists.
Qed.
End Props.

Section Examples.
Variable R : rcfType.
Variable zs : bool.
Local Notation run := (run zs (@physx R) (@codx R)).
Local Notation session := (session zs (@physx R) (@codx R)).
Local Notation f6 := (arr (nseq 6 (0 : R))).
Local Notation f3 := (arr (nseq 3 (0 : R))).
Local Notation start s := (session (q0x R) [::] s).
Let refs (f g : seq R) := [:: KTask 0 (arr f); KTask 1 (arr g)].
Let up c := KUpdate (posa R) (vela c) (vela (0 : R)).

(* C131 *)
Example C131_ex : exists s s', [/\ start s, run s [:: up 1] = Some s', b_q s' = qx R & b_qd s' = vx 1].
Proof.
have [s hs] := sessionx R zs.
have [|s' [e [h1 h2 _ _ _] _ _ _]] := C131_state_transferred hs (statex (1 : R)).
  by rewrite phys1; apply: posx; rewrite ltr0n.
by exists s, s'; split=> //=; rewrite /= in e; rewrite e.
Qed.
(* C132 *)
Example C132_ex : exists s qpos xs s', [/\ start s, holds qpos xs, size xs = (nx + 7)%N,
  run s [:: KUpdate qpos (vela 0) (vela 0)] = Some s' & nth 0 (b_q s') 1 <> nth 0 xs 1].
Proof.
have [s hs] := sessionx R zs; have [_ c2 c3 _ [sv sa h2 h3]] := statex (0 : R).
have pA q v a : posdef (sn_A (@physx R q v a)) by apply: posx; case: ifP => _; rewrite ?ltr01 ?ltr0n.
have [qp [xs [s' [h k e n]]]] := C132_strided_refuted hs c2 c3 sv sa h2 h3 pA.
by exists s, qp, xs, s'; split=> //; rewrite /= in e *; rewrite e.
Qed.
Example C132_short_ex (s : brg R nx) : run s [:: KUpdate (arr [:: 0; 0; 0; 1; 0; 0; 0]) (vela 0) (vela 0)] = None.
Proof.
have [c h] := arrP [:: 0; 0; 0; 1; 0; 0; (0 : R)].
by rewrite /Brg_Model.run (C132_short_refuted zs (@physx R) (@codx R) s (vela 0) (vela 0) c h erefl erefl).
Qed.
(* C133: on the left foot, zero references *)
Example C133_one_ex : exists s s', [/\ start s,
  run s ([:: up 0; KContact true false] ++ refs (nseq 6 0) (nseq 3 0) ++ [:: KTorque]) = Some s' &
  forall acc f, contact_motion 1%:M (JLx R) (GGx R) (getTorqueCommand s') acc f -> acc = 0].
Proof.
have [s hs] := sessionx R zs; have [cf hf] := arrP (nseq 6 (0 : R)); have [cg hg] := arrP (nseq 3 (0 : R)).
have on := @onx R 1 ltr01; rewrite -(phys0 (qx R) (vx 0)) in on.
have [s' [e e0 e1]] := C133_defined (r := false) hs (statex (0 : R)) on cf cg hf hg (size_nseq _ _) (size_nseq _ _).
exists s, s'; split=> //.
have [pA fJ bJ _ _] := on.
move=> acc f hm0; pose sn := physx (qx R) (vx 0) (vx 0).
have hm : contact_motion (sn_A sn) (foot_J sn false) (sn_G sn) (getTorqueCommand s') acc f by rewrite /sn phys0.
have [_ _] := @C133_one_foot R zs nx (@physx R) (@codx R) _ _ _ _ _ _ _ _ _ true false [::] (refs (nseq 6 0) (nseq 3 0)) s'
  hs (statex (0 : R)) isT isT isT pA fJ bJ e acc f hm.
exact.
Qed.
(* on both feet *)
Example C133_two_ex : exists s s', [/\ start s,
  run s ([:: up 0; KContact true true] ++ refs (nseq 6 0) (nseq 3 0) ++ [:: KTorque]) = Some s' &
  forall acc f, contact_motion 1%:M (col_mx (JLx R) (JRx R)) (GGx R) (getTorqueCommand s') acc f -> acc = 0].
Proof.
have [s hs] := sessionx R zs; have [cf hf] := arrP (nseq 6 (0 : R)); have [cg hg] := arrP (nseq 3 (0 : R)).
have pA := @posx R 1 ltr01.
have rg : exists p0 B, B \in unitmx /\ rigid_feet p0 B (xl R) (xr R) (col_mx (JLx R) (JRx R)).
  by exists 0, 1%:M; split; [exact: unitmx1|exact: rigidx].
have yw : 1 * 1 + 0 * 0 = 1 :> R by rewrite mulr1 mulr0 addr0.
have P0 := phys0 (qx R) (vx 0).
have [] := @C133_two_defined R zs nx (@physx R) (@codx R) _ _ _ _ _ _ _ _ _ _ _ _ _ hs (statex (0 : R)) (@codxP R)
  _ _ _ _ _ _ cf cg hf hg (size_nseq _ _) (size_nseq _ _); rewrite ?P0 //; try exact: Jfree; try exact: Jx_p; try exact: Jx_t.
  move=> tau acc w hm hp [_]; rewrite mul1r mul0r addr0; apply: (momentx hm).
  by rewrite hp; exact: (cvec0 R 6 6).
move=> s' [e e0 e1]; exists s, s'; split=> //.
move=> acc f hm.
have [] := @C133_two_feet R zs nx (@physx R) (@codx R) _ _ _ _ _ _ _ _ _ [::] (refs (nseq 6 0) (nseq 3 0)) s'
  hs (statex (0 : R)) isT isT (@codxP R) _ _ _ _ e acc f; rewrite ?P0 //; first exact: Jfree.
by move=> _ _; apply.
Qed.
(* C134 *)
Example C134_ex (L : R) : exists s f g s', [/\ start s,
  run s [:: up 0; KContact true false; KTask 0 f; KTask 1 g; KTorque] = Some s' & exists i, L < `|getTorqueCommand s' i 0|].
Proof.
have [s hs] := sessionx R zs; have on := @onx R 1 ltr01; rewrite -(phys0 (qx R) (vx 0)) in on.
by have [f [g [s' [e h]]]] := C134_torque_limit_refuted (r := false) L hs (statex (0 : R)) on; exists s, f, g, s'.
Qed.
(* C135, C136: the command is defined *)
Example C135_ex : exists s s', start s /\
  run s ([:: up 0; KContact true false; KReset] ++ refs (nseq 6 0) (nseq 3 0) ++ [:: KReset; KTorque]) = Some s'.
Proof.
have [s [s' [hs e _]]] := C133_one_ex; exists s.
have := C135_reset_ignored_refuted zs (@physx R) (@codx R)
  ([:: up 0; KContact true false; KReset] ++ refs (nseq 6 0) (nseq 3 0) ++ [:: KReset; KTorque]) s.
rewrite [X in _ = omap _ (run s X)](_ : _ = [:: up 0; KContact true false] ++ refs (nseq 6 0) (nseq 3 0) ++ [:: KTorque]) // e.
by case: run => // t _; exists t.
Qed.
(* C137 *)
Example C137_ex : exists s s', [/\ start s,
  run s ([:: up 0; KContact true false] ++ refs (nseq 6 0) (nseq 3 0) ++ [:: up 1; KTorque]) = Some s' &
  forall acc w, contact_motion (2%:R%:M) (JLx R) (GGx R) (getTorqueCommand s') acc w -> acc <> 0].
Proof.
have [s hs] := sessionx R zs; have [cf hf] := arrP (nseq 6 (0 : R)); have [cg hg] := arrP (nseq 3 (0 : R)).
have on := @onx R 1 ltr01; rewrite -(phys0 (qx R) (vx 0)) in on.
have [] := @C137_stale_refuted R zs nx (@physx R) (@codx R) _ _ _ _ _ _ _ _ _ _ _ _ _ _ _ false _ _ hs (statex (0 : R)) (statex (1 : R)) on
  _ _ cf cg hf hg _; rewrite ?phys0 ?phys1 //=.
- by rewrite scale_scalar_mx mulr1.
- exact: hangx.
by move=> s' [e h]; exists s, s'.
Qed.
(* C138 *)
Example C138_ex l r : l || r -> exists s s', start s /\ run s [:: up 0; KContact l r] = Some s'.
Proof.
move=> lr; have [s hs] := sessionx R zs; have pA := @posx R 1 ltr01.
have [|s1 [e [_ _ _ n1 a1] _ _ _]] := C131_state_transferred hs (statex (0 : R)); first by rewrite phys0.
have h1 : session (q0x R) [:: up 0] s1.
  by case: hs => sq [s0 [hb hr]]; split=> //; exists s0; split=> //; case: hr => ->; rewrite /= in e *; rewrite e.
rewrite phys0 in n1 a1.
have [] := C138_some_foot h1 lr _ _ (@codxP R); rewrite ?n1 ?a1 //.
- by apply: (feet_fix_base (unitmx1 _ _)); exact: rigidx.
- exact: Jfree.
by move=> s' [e' _ _]; exists s, s'; split=> //; rewrite /= in e e' *; rewrite e e'.
Qed.
End Examples.

Print Assumptions C131_state_transferred.
Print Assumptions C132_strided_refuted.
Print Assumptions C132_short_refuted.
Print Assumptions C131_references.
Print Assumptions C131_references_kept.
Print Assumptions C133_one_foot.
Print Assumptions C133_two_feet.
Print Assumptions C133_defined.
Print Assumptions C134_torque_limit_refuted.
Print Assumptions C135_reset_ignored_refuted.
Print Assumptions C136_again.
Print Assumptions C136_history.
Print Assumptions C137_stale_refuted.
Print Assumptions C138_no_foot_refuted.
Print Assumptions C138_some_foot.
Print Assumptions C133_two_defined.
Print Assumptions C131_ex.
Print Assumptions C132_ex.
Print Assumptions C132_short_ex.
Print Assumptions C133_one_ex.
Print Assumptions C133_two_ex.
Print Assumptions C134_ex.
Print Assumptions C135_ex.
Print Assumptions C137_ex.
Print Assumptions C138_ex.
