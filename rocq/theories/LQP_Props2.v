(* Theorems about the LQP controllers, continued: examples, the limits the user sets, attainable
   tasks, repeated configuration, the reduced version. *)
From mathcomp Require Import all_ssreflect all_algebra.
From mathcomp Require Import zify.
From mathcomp.algebra_tactics Require Import ring.
From Verif Require Import LinAlg DMat DMatL Cone_Model Cone_Spec Cone_Props QP_Model QP_Spec HQP_Model HQP_Spec HQP_Proofs HQP_Thm HQP_Ex HQP_Props LQP_Model LQP_Spec LQP_Proofs LQP_Thm LQP_Props LQP_Ex LQP_Run.
Set Implicit Arguments.
Unset Strict Implicit.
Unset Printing Implicit Defensive.
Import Order.TTheory GRing.Theory Num.Theory.
Local Open Scope ring_scope.

Section LQPProps2.
Variable R : rcfType.
Local Notation dm := (dm R).
Local Notation level := (level R).
Local Notation d0 := (initLevel R 0 0 0).
Local Notation answer := LQP_Spec.answer.

(* a free-flying robot with one joint, one task: the hypotheses of C97-C101 are met *)
Example C97_example : null_space_ok (@f7 R) /\ robot_ok (rb7 (1 : R)) 1 /\ size (q_ts (rb7 (1 : R))) = 1%N.
Proof. by split; [exact: f7_ok|split; [exact: rb7_ok|]]. Qed.

Example C98_example : exists hs hs' : seq level, [/\ ConfigureLQP (@f7 R) (rb7 1) [::] = Some hs, solved (@osqp7 R) hs hs', size hs' = 3%N &
  answer (nth d0 hs' 2) 6 <> 0].
Proof.
have [hs [hs' [e [ca _] _ _ [_ Y2 sz]]]] := run7 (1 : R).
exists hs, hs'; split=> //; first exact: call_solved ca.
rewrite Y2 // eqxx mulr1 => t0; have [] := t7_bounds R; by rewrite t0 ltr10.
Qed.

Example C99_example : exists hs hs' : seq level, [/\ ConfigureLQP (@f7 R) (rb7 1) [::] = Some hs, call (@osqp7 R) hs true hs',
  found_feasible hs' & forall i, (0 < i < size hs')%N -> nothing_dropped (l_qA (nth d0 hs' i))].
Proof.
have [hs [hs' [e [ca fe] [x1 _ _] [x2 _ _] [_ _ sz]]]] := run7 (1 : R).
exists hs, hs'; split=> //; first by move=> i li l _; apply: fe.
by move=> i; rewrite sz; case: i => [|[|[|]]].
Qed.

(* the robot can stand still; level 1 was solved exactly and does stand still *)
Example C100_example : exists hs hs' : seq level, [/\ ConfigureLQP (@f7 R) (rb7 1) [::] = Some hs, call (@osqp7 R) hs true hs',
  exactly_solved hs' 1, inertia_spd (dataLQP (rb7 (1 : R))) & can_stand_still (rb7 (1 : R)) (fun=> 0)].
Proof.
have [hs [hs' [e [ca _] x1 _ _]]] := run7 (1 : R).
exists hs, hs'; split=> //; first exact: spd7.
split=> //; first by move=> r r6; rewrite gen7 // (leq_trans r6).
by case=> // _; rewrite /torque gen7 // normr0 ler0n.
Qed.

(* C99, refuted as stated.  ConfigureLQP never looks at the torque limits the user set ... *)
Theorem C99_limits_ignored (f : dm -> dm) (rb : lrobot R) (lim : dm) hs :
  ConfigureLQP f (LRB (q_nv rb) (q_m rb) (q_cdof rb) (q_cln rb) (q_A rb) (q_Ainv rb) (q_B rb) (q_JC rb) (q_cc rb) lim (q_ts rb)
     (q_rnv rb) (q_rm rb) (q_AR rb) (q_ARinv rb) (q_GR rb) (q_JCR rb) (q_JRinvT rb)) hs = ConfigureLQP f rb hs.
Proof. by []. Qed.

(* ... and an exact solve exceeds them: limit 1, torque more than 1. *)
Theorem C99_user_limit_refuted : exists (f : dm -> dm) (rb : lrobot R) osqp hs hs' (m r : nat),
  [/\ null_space_ok f, robot_ok rb m /\ inertia_spd (dataLQP rb), ConfigureLQP f rb [::] = Some hs, call osqp hs true hs' &
  [/\ forall i, (0 < i < size hs')%N -> exactly_solved hs' i, (r < m)%N, 0 < ent (q_lim rb) r 0 &
      ent (q_lim rb) r 0 < torque (dataLQP rb) (final hs') r]].
Proof.
have [hs [hs' [e [ca _] x1 x2 [_ Y2 sz]]]] := run7 (1 : R).
exists (@f7 R), (rb7 1), (@osqp7 R), hs, hs', 1%N, 0%N; split=> //.
- exact: f7_ok.
- by split; [exact: rb7_ok|exact: spd7].
split=> //; [by move=> i; rewrite sz; case: i => [|[|[|]]]|exact: ltr01|].
have -> : final hs' = answer (nth d0 hs' 2) by rewrite /final -nth_last sz.
by rewrite /torque gen7 // Y2 // eqxx mulr1; have [] := t7_bounds R.
Qed.

(* C101, refuted as stated: the acceleration 4 is attainable (torque 4, joint acceleration within
   5, no contact), every level is solved exactly, and the task is not met. *)
Theorem C101_attainable_task_refuted : exists (f : dm -> dm) (rb : lrobot R) osqp hs hs' (m : nat) t x,
  [/\ null_space_ok f, robot_ok rb m /\ inertia_spd (dataLQP rb), ConfigureLQP f rb [::] = Some hs, call osqp hs true hs' &
  [/\ forall i, (0 < i < size hs')%N -> exactly_solved hs' i, q_ts rb = [:: t],
      [/\ base_dynamics (dataLQP rb) x, forall r, (r < m)%N -> `|torque (dataLQP rb) x r| <= 200%:R,
          forall r, (r < m)%N -> `|x (6 + r)%N| <= 5%:R & q_cdof rb = 0%N], task_met (6 + m) t (k_J t) x &
      ~ task_met (6 + m) t (k_J t) (final hs')]].
Proof.
have [hs [hs' [e [ca fe] x1 x2 [Y1 Y2 sz]]]] := run7 (1 : R).
exists (@f7 R), (rb7 1), (@osqp7 R), hs, hs', 1%N, (task7 R), (fun j => 4%:R * (j == 6%N)%:R); split=> //.
- exact: f7_ok.
- by split; [exact: rb7_ok|exact: spd7].
split=> //.
- by move=> i; rewrite sz; case: i => [|[|[|]]].
- split=> //.
  + by move=> r r6; rewrite gen7 ?(leq_trans r6) // ltn_eqF // mulr0.
  + by case=> // _; rewrite /torque gen7 // eqxx mulr1 normr_nat ler_nat.
  + by case=> // _; rewrite eqxx mulr1 normr_nat ler_nat.
- case=> // _; rewrite /accel /= (@sum_window _ 6 1) // ?big_nat1 ?addn0 ?eqxx ?mul1r ?mulr1 //.
  by move=> j lj; rewrite ltnS -eqn_leq eq_sym => /negbTE ->; rewrite mul0r.
have -> : final hs' = answer (nth d0 hs' 2) by rewrite /final -nth_last sz.
have [nd1 _ [fe1 _]] := x1.
apply: (C101_task_never_met (@f7_ok R) (rb7_ok 1) (spd7 1) e ca (erefl : q_ts (rb7 1) = [:: task7 R])) => //.
by exists 0%N; split=> //=; apply/eqP; rewrite pnatr_eq0.
Qed.

(* ------------------------------------------------------------------ repeated configuration *)
Lemma updAt_size (hs hs' : seq level) i g : updAt hs i g = Some hs' -> size hs' = size hs /\ (i < size hs)%N.
Proof.
rewrite /updAt; case: ltnP => // li; case: (g _) => //= l [<-]; rewrite size_set_nth; split=> //.
by apply/maxn_idPr.
Qed.
Lemma updAt_nth (hs hs' : seq level) i g k : updAt hs i g = Some hs' -> k <> i -> nth d0 hs' k = nth d0 hs k.
Proof.
rewrite /updAt; case: ltnP => // li; case: (g _) => //= l [<-] ne; rewrite nth_set_nth /=.
by case: eqP.
Qed.

(* a level as addHierarchy leaves it: no constraint has ever been written *)
Definition blank (l : level) : Prop :=
  [/\ forall i j, ent (l_B l) i j = 0, forall i j, ent (l_b l) i j = 0, forall i j, ent (l_A l) i j = 0,
      forall i j, ent (l_a l) i j = 0 & l_cost l = false].
Lemma blank_init n nin neq : blank (initLevel R n nin neq).
Proof. by split=> //= i j; case: ifP. Qed.
(* all levels from k on are blank *)
Definition blank_from (k : nat) (hs : seq level) : Prop := forall i, (k <= i < size hs)%N -> blank (nth d0 hs i).

Lemma blank_step k n nin neq hs hs' i g : blank_from k hs -> (i < k)%N -> updAt (addHierarchy n hs nin neq) i g = Some hs' ->
  size hs' = (size hs).+1 /\ blank_from k hs'.
Proof.
move=> b li e; have [s _] := updAt_size e; rewrite size_rcons in s; split=> // j /andP[lkj ljs].
rewrite (updAt_nth e); last by lia.
rewrite s in ljs; rewrite nth_rcons; case: ltnP => lj; first by apply: b; rewrite lkj.
by have -> : j == size hs by [apply/eqP; lia]; apply: blank_init.
Qed.

Lemma tasks_blank D H i ts hs hs' k : tasks_loop D H i ts hs = Some hs' -> (2 + i + size ts <= k)%N -> blank_from k hs ->
  size hs' = (size hs + size ts)%N /\ blank_from k hs'.
Proof.
elim: ts i hs => [|t ts IH] i hs /=; first by move=> [<-] _ b; rewrite addn0.
case E: task_level => [hs1|] //= e lk b.
have lk' : (2 + i.+1 + size ts <= k)%N by lia.
have lik : (2 + i < k)%N by lia.
suff [s1 b1] : size hs1 = (size hs).+1 /\ blank_from k hs1.
  by have [s2 b2] := IH _ _ e lk' b1; rewrite s2 s1 addSnnS.
move: E; rewrite /task_level; case: blockw => //= B; case: segw => //= bb E.
by apply: blank_step E.
Qed.
Lemma prepare_rest_blank f Zp (hs hs' : seq level) : prepare_rest f Zp hs = Some hs' ->
  size hs' = size hs /\ forall i, blank (nth d0 hs i) -> blank (nth d0 hs' i).
Proof.
elim: hs hs' Zp => [|l hs IH] hs' Zp /=; first by move=> [<-].
case: dmul => //= Bn; case: dmul => //= Z; case E: prepare_rest => [r|] //= [<-].
have [s h] := IH _ _ E; rewrite /= s; split=> // -[|i] //=; exact: h.
Qed.

(* C102, refuted as stated.  Configuring again does not replace the hierarchy: the levels are
   appended.  In general: the size grows by 2 + the number of tasks with every call, and if the
   hierarchy was already configured for this many tasks, none of the new levels is ever filled
   in: they stay blank, and the last level - where the answer is read - is one of them. *)
Theorem C102_reconfigure_appends (f : dm -> dm) (rb : lrobot R) hs hs2 :
  ConfigureLQP f rb hs = Some hs2 -> (2 + size (q_ts rb) <= size hs)%N ->
  size hs2 = (size hs + (2 + size (q_ts rb)))%N /\ blank_from (size hs) hs2.
Proof.
rewrite /ConfigureLQP; cbv zeta; set D := dataLQP rb; case: cost_h => //= H; case E1: priority1 => [h1|] //=.
case E2: priority2 => [h2|] //=; case E3: tasks_loop => [h3|] //= E4 le.
have b0 : blank_from (size hs) hs by move=> i; lia.
have [s1 b1] : size h1 = (size hs).+1 /\ blank_from (size hs) h1.
  move: E1; rewrite /priority1; case: base_rows => //= Bb; case: torque_rows => //= Aa; case: dmul => //= y.
  by move/(blank_step b0); apply; lia.
have [s2 b2] : size h2 = (size h1).+1 /\ blank_from (size hs) h2.
  move: E2; rewrite /priority2; case: getContactConstraintMatrix => //= C; case: contact_rows => //= Aa; case: blockw => //= B.
  by move/(blank_step b1); apply; lia.
have [s3 b3] := tasks_blank E3 (le : (2 + 0 + _ <= _)%N) b2.
have sz : size h3 = (size hs + (2 + size (q_ts rb)))%N by rewrite s3 s2 s1; lia.
case: h3 E3 E4 s3 b3 sz => //= l h3 _; case E: prepare_rest => [r|] //= [<-] s3 b3 sz.
have [s h] := prepare_rest_blank E; rewrite /= s; split=> // -[|i] li; first by lia.
by apply: h; apply: (b3 i.+1); rewrite /= -s; exact: li.
Qed.

(* ... and the second call does go through. *)
Lemma upd_again n (l : level) (A a B b : dm) : shaped n l -> dims A (l_nin l) n -> dims a (l_nin l) 1 -> dims B (l_neq l) n -> dims b (l_neq l) 1 ->
  exists l1, [/\ updateConstraintMatrix (lvars l) l A a B b = Some l1, shaped n l1, l_nin l1 = l_nin l /\ l_neq l1 = l_neq l & l_y l1 = l_y l].
Proof.
move=> sh [rA cA] [ra ca] [rB cB] [rb cb]; have [[_ cn] _ hA hH [dy dv]] := sh.
rewrite /updateConstraintMatrix /sized /lvars cn rA cA ra ca rB cB rb cb !eqxx /=.
by case: ifP => [ni|ni] /=; eexists; split=> //; split=> //= _; have [] := hA ni.
Qed.
Lemma shaped_init n nin neq : shaped n (initLevel R n nin neq).
Proof. by split=> //=; [move=> ->|case: ifP => // /negbT; rewrite -eqn0Ngt => /eqP ->]. Qed.

Lemma updAt_shaped n (hs : seq level) nin neq i g l1 : (forall k, (k < size hs)%N -> shaped n (nth d0 hs k)) -> (i < size hs)%N ->
  g (nth d0 hs i) = Some l1 -> shaped n l1 -> l_nin l1 = l_nin (nth d0 hs i) -> l_neq l1 = l_neq (nth d0 hs i) ->
  exists hs', [/\ updAt (addHierarchy n hs nin neq) i g = Some hs', size hs' = (size hs).+1,
    forall k, (k < size hs')%N -> shaped n (nth d0 hs' k) &
    forall k, (k < size hs)%N -> l_nin (nth d0 hs' k) = l_nin (nth d0 hs k) /\ l_neq (nth d0 hs' k) = l_neq (nth d0 hs k)].
Proof.
move=> sh li eg s1 n1 n2; rewrite /updAt size_rcons ltnS (ltnW li) nth_rcons li eg; eexists; split=> //.
- by rewrite size_set_nth size_rcons; apply/maxn_idPr; rewrite ltnS ltnW.
- move=> k; rewrite size_set_nth size_rcons; have -> : maxn i.+1 (size hs).+1 = (size hs).+1 by apply/maxn_idPr; rewrite ltnS ltnW.
  move=> lk; rewrite nth_set_nth /=; case: eqP => // _; rewrite nth_rcons; case: ltnP => h; first exact: sh.
  have -> : k == size hs by [apply/eqP; lia].
  exact: shaped_init.
by move=> k lk; rewrite nth_set_nth /=; case: eqP => [->|_] //; rewrite nth_rcons lk.
Qed.

Lemma tasks_again (D : lqdata R) m c H i ts hs : lq_ok D m c -> dims H (6 + m + c) (6 + m + c) ->
  List.Forall (fun t => task_ok (6 + m) t (k_J t)) ts ->
  (forall k, (k < size hs)%N -> shaped (6 + m + c) (nth d0 hs k)) -> (2 + i + size ts <= size hs)%N ->
  (forall k t, nth None [seq Some t | t <- ts] k = Some t -> l_nin (nth d0 hs (2 + i + k)) = 0%N /\ l_neq (nth d0 hs (2 + i + k)) = k_dof t) ->
  exists hs', [/\ tasks_loop D H i ts hs = Some hs', (size hs <= size hs')%N & forall k, (k < size hs')%N -> shaped (6 + m + c) (nth d0 hs' k)].
Proof.
move=> ok dH; have nE := lq_vars ok; have [nvE mE cE _ _] := ok; have [rH cH] := dH.
elim: ts i hs => [|t ts IH] i hs; first by move=> *; exists hs.
case/List.Forall_cons_iff => -[dJ df] okt sh le nn.
have [ni ne] := nn 0%N t erefl; rewrite addn0 in ni ne.
have [B [eB dB _]] := jac_rows_ok c dJ.
have [b [eb db]] : exists b, segw (dzero R (k_dof t) 1) 0 (k_dof t) (dopp (k_fstar t)) = Some b /\ dims b (k_dof t) 1.
  by case: df => rf cf; rewrite /segw blockwE //=; eexists.
have li : (2 + i < size hs)%N by rewrite /= in le; lia.
have [dB' db'] : dims B (l_neq (nth d0 hs (2 + i))) (6 + m + c) /\ dims b (l_neq (nth d0 hs (2 + i))) 1 by rewrite ne.
have [l1 [e1 s1 [n1 n2] _]] : exists l1, [/\ updateConstraintMatrix (lvars (nth d0 hs (2 + i))) (nth d0 hs (2 + i)) (dzero R 0 0) (dzero R 0 1) B b = Some l1,
    shaped (6 + m + c) l1, l_nin l1 = l_nin (nth d0 hs (2 + i)) /\ l_neq l1 = l_neq (nth d0 hs (2 + i)) & l_y l1 = l_y (nth d0 hs (2 + i))].
  have [dz1 dz2] : dims (dzero R 0 (6 + m + c)) (l_nin (nth d0 hs (2 + i))) (6 + m + c) /\ dims (dzero R 0 1) (l_nin (nth d0 hs (2 + i))) 1.
    by rewrite ni.
  have [l1 [e1 s1 n1 y1]] := upd_again (sh _ li) dz1 dz2 dB' db'.
  exists l1; split=> //.
  by move: e1; rewrite /updateConstraintMatrix ni.
have e2 : updateCostMatrix (lvars (nth d0 hs (2 + i))) l1 H (dzero R (6 + m + c) 1) = Some (setCost l1 H (dzero R (6 + m + c) 1)).
  have [[_ cn] _ _ _ _] := sh _ li; by rewrite /updateCostMatrix /sized /lvars cn rH cH !eqxx.
have s2 : shaped (6 + m + c) (setCost l1 H (dzero R (6 + m + c) 1)) by case: s1 => ? ? ? _ ?; split.
have [s3 [n3 n4] _ _ _] := C33_normalisation s2.
pose g (l : level) := (l1 <- updateConstraintMatrix (lvars l) l (dzero R 0 0) (dzero R 0 1) B b ;;
    l2 <- updateCostMatrix (lvars l) l1 H (dzero R (6 + m + c) 1) ;; Some (normalizeConstraintMatrix l2)).
have eg : g (nth d0 hs (2 + i)) = Some (normalizeConstraintMatrix (setCost l1 H (dzero R (6 + m + c) 1))).
  by rewrite /g e1 e2.
have [hs1 [eh sz1 sh1 nn1]] := updAt_shaped 0 (k_dof t) sh li eg s3 (etrans n3 n1) (etrans n4 n2).
have [||||hs' [e' le' sh']] := IH i.+1 hs1 => //.
- by rewrite sz1 /=; rewrite /= in le; lia.
- move=> k t' ek; have [h1 h2] := nn k.+1 t' ek.
  have -> : (2 + i.+1 + k = 2 + i + k.+1)%N by lia.
  have lk : (k < size ts)%N by case: (ltnP k (size ts)) => // gt; move: ek; rewrite nth_default // size_map.
  have [|-> ->] := nn1 (2 + i + k.+1)%N; first by rewrite /= in le; lia.
  by [].
exists hs'; split=> //; last by rewrite (leq_trans _ le') // sz1.
by rewrite /= /task_level nE nvE eB /= eb /= -/g eh.
Qed.

Theorem C102_again_defined (f : dm -> dm) (rb : lrobot R) m hs : null_space_ok f -> robot_ok rb m ->
  ConfigureLQP f rb [::] = Some hs -> exists hs2, ConfigureLQP f rb hs = Some hs2.
Proof.
move=> fok rok e; have [hs' [C [H [e' cf ms [dH nrC] cone]]]] := conf_nr fok rok.
move: e'; rewrite e => -[E]; rewrite -{hs'}E in cf.
have [[pl clnE cdE] ok inv okt] := rok; set D := dataLQP rb in ok inv cf ms *.
have nE := lq_vars ok; have [nvE mE cE _ [_ _ dJ]] := ok; have [rH cH] := dH; set n := (6 + m + q_cdof rb)%N in nE dH rH cH *.
have sh0 := cf_shaped cf; rewrite nE in sh0; have sz := cf_size cf; rewrite size_map in sz.
have l0 : (0 < size hs)%N by rewrite sz. have l1 : (1 < size hs)%N by rewrite sz.
have [H' [eH dH' _]] := cost_h_ok ok (frob_pos ok inv); have [rH' cH'] := dH'.
have [B [b [eB dB db _]]] := base_rows_ok ok.
have [A [a [eA dA da _]]] := torque_rows_ok (fun=> 200%:R) ok.
have [y0 [ey [ry cy] _]] := first_answer ok.
have [ni0 ne0] := cf_n0 cf; have [ni1 ne1] := cf_n1 cf; rewrite mE in ni0 ni1; rewrite cE in ne1.
have [dA' da'] : dims A (l_nin (nth d0 hs 0)) n /\ dims a (l_nin (nth d0 hs 0)) 1 by rewrite ni0.
have [dB' db'] : dims B (l_neq (nth d0 hs 0)) n /\ dims b (l_neq (nth d0 hs 0)) 1 by rewrite ne0.
have [u1 [e1 s1 [n1 n2] yE]] := upd_again (sh0 _ l0) dA' da' dB' db'.
have [s2 [n3 n4] _ _ _] := C33_normalisation s1; have [yN _ _ _] := norm_kept u1.
have [y [ey' dy]] : exists y, segw (l_y (normalizeConstraintMatrix u1)) 0 (6 + m) y0 = Some y /\ dims y n 1.
  have [_ _ _ _ [[ry' cy'] _]] := s2; rewrite /segw blockwE ?ry' ?cy' //; last by rewrite /n; lia.
  by eexists; split=> //; rewrite /dims /= ry' cy'.
pose g1 (l : level) := (l1 <- updateConstraintMatrix (lvars l) l A a B b ;;
    let l2 := normalizeConstraintMatrix l1 in
    y <- segw (l_y l2) 0 (6 + m) y0 ;;
    Some (setAns l2 y (dzero R (m * 2) 1) (dzero R 6 1) (l_ans l2))).
have eg1 : g1 (nth d0 hs 0) = Some (setAns (normalizeConstraintMatrix u1) y (dzero R (m * 2) 1) (dzero R 6 1) (l_ans (normalizeConstraintMatrix u1))).
  by rewrite /g1 e1 /= ey'.
have s3 : shaped n (setAns (normalizeConstraintMatrix u1) y (dzero R (m * 2) 1) (dzero R 6 1) (l_ans (normalizeConstraintMatrix u1))).
  by case: s2 => ? ? ? ? _; split=> //=; rewrite n3 n1 ni0.
have [h1 [eh1 sz1 sh1 nn1]] := updAt_shaped (m * 2) 6 sh0 l0 eg1 s3 (etrans n3 n1) (etrans n4 n2).
have P1 : priority1 D (tlimLQP R (d_m D)) hs = Some h1.
  by rewrite /priority1 /tlimLQP mE eB eA ey nE nvE.
(* priority 2 *)
pose c0 := @PContact R false 0 0 0 0 0 0 0 0.
have [C' [eC [rC cC _]]] := C08_constraint_matrix_is_cone c0 pl.
rewrite -cdE in eC cC; rewrite -clnE in eC rC.
have dC : dims C' (q_cln rb * 10) (q_cdof rb) by split=> //; rewrite rC mulnC.
have [A2 [a2 [eA2 dA2 da2 _]]] := contact_rows_ok ok dC.
have [B2 [eB2 dB2 _]] := jac_rows_ok (q_cdof rb) dJ.
have l1' : (1 < size h1)%N by rewrite sz1 (leq_trans l1).
have [ni1' ne1'] := nn1 1%N l1; rewrite ni1 nrC in ni1'; rewrite ne1 in ne1'.
have [dA2' da2'] : dims A2 (l_nin (nth d0 h1 1)) n /\ dims a2 (l_nin (nth d0 h1 1)) 1 by rewrite ni1'.
have [dB2' db2'] : dims B2 (l_neq (nth d0 h1 1)) n /\ dims (dzero R (q_cdof rb) 1) (l_neq (nth d0 h1 1)) 1 by rewrite ne1'.
have [u2 [e2 t1 [m1 m2] _]] := upd_again (sh1 _ l1') dA2' da2' dB2' db2'.
have e3 : updateCostMatrix (lvars (nth d0 h1 1)) u2 H' (dzero R n 1) = Some (setCost u2 H' (dzero R n 1)).
  have [[_ cn] _ _ _ _] := sh1 _ l1'; by rewrite /updateCostMatrix /sized /lvars cn rH' cH' !eqxx.
have t2 : shaped n (setCost u2 H' (dzero R n 1)) by case: t1 => ? ? ? _ ?; split.
have [t3 [m3 m4] _ _ _] := C33_normalisation t2.
pose g2 (l : level) := (l1 <- updateConstraintMatrix (lvars l) l A2 a2 B2 (dzero R (q_cdof rb) 1) ;;
    l2 <- updateCostMatrix (lvars l) l1 H' (dzero R n 1) ;; Some (normalizeConstraintMatrix l2)).
have eg2 : g2 (nth d0 h1 1) = Some (normalizeConstraintMatrix (setCost u2 H' (dzero R n 1))) by rewrite /g2 e2 e3.
have [h2 [eh2 sz2 sh2 nn2]] := updAt_shaped (q_cln rb * 10 + m * 2) (q_cdof rb) sh1 l1' eg2 t3 (etrans m3 m1) (etrans m4 m2).
have P2 : priority2 D rb H' h1 = Some h2.
  by rewrite /priority2 eC; cbv zeta iota; rewrite mE nE nvE cE eA2; cbv iota; rewrite eB2.
have [||h3 [P3 le3 sh3]] := tasks_again ok dH' okt sh2 _ _ (i := 0).
- by rewrite sz2 sz1 sz; lia.
- move=> k t ek; have ek' : nth None [seq Some p | p <- [seq (t, k_J t) | t <- q_ts rb]] k = Some (t, k_J t).
    have lk : (k < size (q_ts rb))%N.
      by case: (ltnP k (size (q_ts rb))) => // g; move: ek; rewrite nth_default // size_map.
    by move: ek; rewrite -map_comp; rewrite !(nth_map t) // => -[->].
  have [i2 i3 _ _ _] := cf_task cf ek'.
  have lk : (k < size (q_ts rb))%N by case: (ltnP k (size (q_ts rb))) => // g; move: ek; rewrite nth_default // size_map.
  have [|-> ->] := nn2 (2 + 0 + k)%N; first by rewrite sz1 sz; lia.
  by have [|-> ->] := nn1 (2 + 0 + k)%N; first by rewrite sz; lia.
have ne3 : h3 <> [::] by move=> h; move: le3; rewrite h sz2.
have [hs2 [P4 _ _ _]] := C29_null_space_bases fok ne3 sh3.
exists hs2; rewrite /ConfigureLQP; cbv zeta; rewrite -/D [cost_h _ _]eH P1 P2 P3; exact: P4.
Qed.

Theorem C102_reconfigure_refuted : exists (f : dm -> dm) (rb : lrobot R) m hs hs2,
  [/\ null_space_ok f, robot_ok rb m, ConfigureLQP f rb [::] = Some hs, ConfigureLQP f rb hs = Some hs2 &
    size hs2 <> size hs /\ blank (last d0 hs2)].
Proof.
have [l0 [l1 [l2 [e _ _ _ _]]]] := conf7 (1 : R).
have [hs2 e2] := C102_again_defined (@f7_ok R) (rb7_ok 1) e.
have [s b] := C102_reconfigure_appends e2 isT.
exists (@f7 R), (rb7 1), 1%N, [:: l0; l1; l2], hs2; split=> //; [exact: f7_ok|exact: rb7_ok|].
by split; [rewrite s|rewrite -nth_last s; apply: b; rewrite s].
Qed.

(* ------------------------------------------------------------------ the reduced version *)
(* once a non-contact task has been skipped, the next contact task writes past the end *)
Lemma tasks_R_late (D : lqdata R) Jt H i ts hs : (size hs < 2 + i)%N -> ~ List.Forall (fun t => k_noncont t) ts ->
  tasks_loop_R D Jt H i ts hs = None.
Proof.
elim: ts i => [|t ts IH] i lt nf /=; first by case: nf.
case nc: (k_noncont t) => /=.
  by apply: IH => [|h]; [lia|apply: nf; constructor].
case: dmul => //= J; rewrite /task_level; case: blockw => //= B; case: segw => //= b.
rewrite /updAt size_rcons ifF //; apply/negbTE; lia.
Qed.

Lemma tasks_R_order (D : lqdata R) Jt H i ts hs : size hs = (2 + i)%N -> tasks_loop_R D Jt H i ts hs <> None -> contact_first ts.
Proof.
elim: ts i hs => [|t ts IH] i hs sz /=; first by exists [::], [::].
case nc: (k_noncont t) => /= h.
  exists [::], (t :: ts); split=> //; constructor=> //.
  case: (List.Forall_dec (fun t => k_noncont t) (fun t => decP (idP : reflect (k_noncont t) _)) ts) => // nf.
  by case: h; apply: tasks_R_late => //; lia.
move: h; case: dmul => //= J; case E: task_level => [hs1|] //= h.
have sz1 : size hs1 = (2 + i.+1)%N.
  move: E; rewrite /task_level; case: blockw => //= B; case: segw => //= b /updAt_size[-> _].
  by rewrite size_rcons sz.
have [ts1 [ts2 [-> f1 f2]]] := IH _ _ sz1 h.
by exists (t :: ts1), ts2; split=> //; constructor.
Qed.

Lemma accelR_mul nv (Jt J : dm) (x : nat -> R) r : nr Jt = nv ->
  accel nv (DM (nr J) (nr Jt) (fun r j => \sum_(0 <= k < nc J) ent J r k * ent Jt j k)) x r = accelR Jt J x r.
Proof.
move=> e; rewrite /accel /accelR /= e.
under eq_bigr do rewrite mulr_suml.
rewrite exchange_big_nat; apply: eq_bigr => k _; rewrite mulr_sumr; apply: eq_bigr => j _.
by rewrite mulrA.
Qed.

Lemma tasks_R_some (D : lqdata R) Jt H i ts1 ts2 hs : List.Forall (fun t => k_noncont t = false) ts1 -> List.Forall (fun t => k_noncont t) ts2 ->
  List.Forall (fun t => nc (k_J t) = nc Jt) ts1 ->
  tasks_loop_R D Jt H i (ts1 ++ ts2) hs =
  pairs_loop D H i [seq (t, DM (nr (k_J t)) (nr Jt) (fun r j => \sum_(0 <= k < nc (k_J t)) ent (k_J t) r k * ent Jt j k)) | t <- ts1] hs.
Proof.
move=> f1 f2; elim: ts1 f1 i hs => [|t ts1 IH] /= f1 i hs.
  move=> _; elim: ts2 f2 i hs => //= t ts2 IH /List.Forall_cons_iff[nt f2] i hs; rewrite nt; exact: IH.
case/List.Forall_cons_iff: f1 => nt f1 /List.Forall_cons_iff[et e1]; rewrite nt /dmul /= et eqxx.
case: task_level => //= hs1; exact: IH.
Qed.

(* C103, the part that holds: when the contact tasks come first, ConfigureLQP_R succeeds and its
   levels mean what those of ConfigureLQP mean, for the reduced dynamics; limit 200 for every joint
   but the one at m - 4, whose limit is 600; the non-contact tasks are left out.
   Missing: task lists in another order. *)
Theorem C103_reduced_hierarchy_partial (f : dm -> dm) (rb : lrobot R) m nv ts1 ts2 :
  null_space_ok f -> robotR_ok rb m nv -> (4 <= m)%N ->
  q_ts rb = ts1 ++ ts2 -> List.Forall (fun t => k_noncont t = false) ts1 -> List.Forall (fun t => k_noncont t) ts2 ->
  let D := dataLQP_R rb in
  exists hs, [/\ ConfigureLQP_R f rb [::] = Some hs, size hs = (2 + size ts1)%N,
    means_eq (nth d0 hs 0) (base_dynamics D) /\
    means_ineq (nth d0 hs 0) (fun x => forall r, (r < m)%N -> `|torque D x r| <= if r == (m - 4)%N then 600%:R else 200%:R),
    means_eq (nth d0 hs 1) (fun x => forall r, (r < q_cdof rb)%N -> accel (6 + m) (q_JCR rb) x r = 0) /\
    means_ineq (nth d0 hs 1) (fun x => in_cones rb (6 + m) x /\ forall r, (r < m)%N -> `|x (6 + r)%N| <= 5%:R) &
    (forall k t, nth None [seq Some t | t <- ts1] k = Some t ->
       means_eq (nth d0 hs (2 + k)) (fun x => forall r, (r < k_dof t)%N -> accelR (q_JRinvT rb) (k_J t) x r = ent (k_fstar t) r 0) /\
       l_nin (nth d0 hs (2 + k)) = 0%N)].
Proof.
move=> fok [[pl clnE cdE] ok [rJ cJ] fr okt] m4 ets f1 f2 D; rewrite -/D in ok.
have [nvE mE cE _ _] := ok.
have [H [eH dH ms]] := cost_h_ok ok fr.
pose c0 := @PContact R false 0 0 0 0 0 0 0 0.
have [C [eC [rC cC cone]]] := C08_constraint_matrix_is_cone c0 pl.
rewrite -cdE in eC cC; rewrite -clnE in eC rC.
have dC : dims C (q_cln rb * 10) (q_cdof rb) by split=> //; rewrite rC mulnC.
pose JR t := DM (nr (k_J t)) (nr (q_JRinvT rb)) (fun r j => \sum_(0 <= k < nc (k_J t)) ent (k_J t) r k * ent (q_JRinvT rb) j k).
have ok1 : List.Forall (fun t => task_ok nv t (k_J t)) ts1.
  move: okt; rewrite ets => /List.Forall_app[+ _]; elim: f1 => [|t ts nt _ IH] //.
  by case/List.Forall_cons_iff => -[nt'|h] h'; [rewrite nt in nt'|constructor=> //; apply: IH].
have okp : List.Forall (fun p : ltask R * dm => task_ok (6 + m) p.1 p.2) [seq (t, JR t) | t <- ts1].
  elim: ok1 => [|t ts [[r1 c1] h2] _ IH] /=; constructor=> //.
have okn : List.Forall (fun t => nc (k_J t) = nc (q_JRinvT rb)) ts1.
  by elim: ok1 => [|t ts [[r1 c1] h2] _ IH] /=; constructor=> //; rewrite c1 cJ.
have [hs [e cf]] := conf_ok (fun r => if r == (m - 4)%N then 600%:R else 200%:R) fok ok eC dC dH okp.
exists hs; split.
- rewrite /ConfigureLQP_R; cbv zeta; rewrite -/D eH /tlimLQP_R mE m4.
  move: e; case: priority1 => // h1; case: priority2 => // h2.
  by rewrite ets (tasks_R_some _ _ _ _ f1 f2 okn).
- by rewrite (cf_size cf) size_map.
- by split; [exact: cf_eq0 cf|have := cf_in0 cf; rewrite mE].
- split; first by have := cf_eq1 cf; rewrite nvE cE.
  move=> x; have := cf_in1 cf x; rewrite nvE mE => ->; rewrite (cone (fun j => x (6 + m + j)%N)).
  split=> -[h ?]; split=> //.
    move=> c1 k lk; rewrite (set_nth_default c0) //; exact: h.
  by move=> k lk; apply: h.
move=> k t ek.
have lk : (k < size ts1)%N by case: (ltnP k (size ts1)) => // g; move: ek; rewrite nth_default // size_map.
have ek' : nth None [seq Some p | p <- [seq (t, JR t) | t <- ts1]] k = Some (t, JR t).
  by move: ek; rewrite -map_comp; rewrite !(nth_map t) // => -[->].
have [ni _ mq _ _] := cf_task cf ek'; split=> // x; rewrite mq nvE.
by split=> h r lr; have := h r lr; rewrite accelR_mul.
Qed.

(* C103, refuted as stated: with a contact task after a non-contact one, starting from an empty
   hierarchy, ConfigureLQP_R writes to a level that does not exist, whatever the robot. *)
Theorem C103_order_needed (f : dm -> dm) (rb : lrobot R) : ~ contact_first (q_ts rb) -> ConfigureLQP_R f rb [::] = None.
Proof.
move=> nf; rewrite /ConfigureLQP_R; cbv zeta; set D := dataLQP_R rb.
case: cost_h => //= H; case: tlimLQP_R => //= tl; case E1: priority1 => [h1|] //=; case E2: priority2 => [h2|] //=.
case E3: tasks_loop_R => [h3|] //=; case: nf; apply: (@tasks_R_order D (q_JRinvT rb) H 0 (q_ts rb) h2); last by rewrite E3.
move: E1; rewrite /priority1; case: base_rows => //= Bb; case: torque_rows => //= Aa; case: dmul => //= y /updAt_size[s1 _].
move: E2; rewrite /priority2; case: getContactConstraintMatrix => //= C; case: contact_rows => //= Aa2; case: blockw => //= B /updAt_size[s2 _].
by rewrite s2 size_rcons s1 size_rcons.
Qed.

(* a robot with four joints, one non-contact task followed by a contact task *)
Definition task_c : ltask R := LTK 1 (DM 1 10 (fun _ j => (j == 9%N)%:R)) (DM 1 1 (fun _ _ => 1)) false.
Definition task_n : ltask R := LTK 1 (DM 1 10 (fun _ j => (j == 8%N)%:R)) (DM 1 1 (fun _ _ => 1)) true.
Definition rb10 (ts : seq (ltask R)) : lrobot R :=
  LRB 10 4 0 0 (dident R 10) (dident R 10) (dzero R 10 1) (dzero R 0 10) [::] (DM 4 1 (fun _ _ => 1)) ts
      10 4 (dident R 10) (dident R 10) (dzero R 10 1) (dzero R 0 10) (dident R 10).
Lemma rb10_ok ts : List.Forall (fun t => t = task_c \/ t = task_n) ts -> robotR_ok (rb10 ts) 4 10.
Proof.
move=> h; split=> //.
- by split=> //=; constructor.
- rewrite /frob sqrtr_eq0 -ltNge /= (@sum_nat_eq _ _ _ (fun=> 1)).
    by rewrite big_const_nat iter_addr_0 ltr0n.
  move=> i li; rewrite (@sum_window _ i 1) ?addn1 // ?big_nat1.
    by rewrite addn0 eqxx expr1n.
  by move=> j lj; rewrite ltnS -eqn_leq => /negbTE ->; rewrite expr0n.
by elim: h => [|t l [->|->] _ IH] /=; constructor=> //; [right|left].
Qed.

Theorem C103_task_order_refuted : exists (f : dm -> dm) (rb : lrobot R) m nv,
  [/\ null_space_ok f, robotR_ok rb m nv, (4 <= m)%N & ConfigureLQP_R f rb [::] = None].
Proof.
exists (@f7 R), (rb10 [:: task_n; task_c]), 4%N, 10%N; split=> //; first exact: f7_ok.
  by apply: rb10_ok; constructor; [right|constructor; [left|constructor]].
apply: C103_order_needed => -[[|t ts1] [ts2 [e f1 f2]]].
  rewrite /= in e; rewrite -e in f2; by case/List.Forall_cons_iff: f2 => _ /List.Forall_cons_iff[].
by case: e f1 => <- _ /List.Forall_cons_iff[].
Qed.

Example C103_example : exists rb m nv ts1 ts2, [/\ robotR_ok rb m nv, (4 <= m)%N, q_ts rb = ts1 ++ ts2 :> seq (ltask R),
  List.Forall (fun t => k_noncont t = false) ts1 /\ List.Forall (fun t => k_noncont t) ts2 & size ts1 = 1%N /\ size ts2 = 1%N].
Proof.
exists (rb10 [:: task_c; task_n]), 4%N, 10%N, [:: task_c], [:: task_n]; split=> //.
  by apply: rb10_ok; constructor; [left|constructor; [right|constructor]].
by split; constructor.
Qed.
End LQPProps2.

Print Assumptions C99_limits_ignored.
Print Assumptions C99_user_limit_refuted.
Print Assumptions C101_attainable_task_refuted.
Print Assumptions C102_reconfigure_appends.
Print Assumptions C102_again_defined.
Print Assumptions C102_reconfigure_refuted.
Print Assumptions C103_reduced_hierarchy_partial.
Print Assumptions C103_order_needed.
Print Assumptions C103_task_order_refuted.
