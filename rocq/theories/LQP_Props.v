(* C97 - C103: the LQP controllers. *)
From mathcomp Require Import all_ssreflect all_algebra.
From mathcomp Require Import zify.
From mathcomp.algebra_tactics Require Import ring.
From Verif Require Import LinAlg DMat DMatL Cone_Model Cone_Spec Cone_Props QP_Model QP_Spec HQP_Model HQP_Spec HQP_Proofs HQP_Thm HQP_Ex HQP_Props LQP_Model LQP_Spec LQP_Proofs LQP_Thm.
Set Implicit Arguments.
Unset Strict Implicit.
Unset Printing Implicit Defensive.
Import Order.TTheory GRing.Theory Num.Theory.
Local Open Scope ring_scope.

Section Props.
Variable R : rcfType.
Local Notation dm := (dm R).
Local Notation level := (level R).
Local Notation d0 := (initLevel R 0 0 0).
Local Notation answer := LQP_Spec.answer.

(* C97.  From an empty hierarchy ConfigureLQP succeeds on every robot with plane contacts and
   gives 2 + (number of tasks) levels.  Level 0: the base equations hold / the torques are within
   200.  Level 1: the contacts do not accelerate / the contact forces are in their cones and the
   joint accelerations within 5.  Level 2 + k: task k gets its desired acceleration.  From level 1
   on the cost is 5 qdd' A qdd / |A|. *)
Theorem C97_configured_hierarchy (f : dm -> dm) (rb : lrobot R) m : null_space_ok f -> robot_ok rb m ->
  let D := dataLQP rb in
  exists hs, [/\ ConfigureLQP f rb [::] = Some hs, size hs = (2 + size (q_ts rb))%N,
    means_eq (nth d0 hs 0) (base_dynamics D) /\
    means_ineq (nth d0 hs 0) (fun x => forall r, (r < m)%N -> `|torque D x r| <= 200%:R),
    means_eq (nth d0 hs 1) (fun x => forall r, (r < q_cdof rb)%N -> accel (6 + m) (q_JC rb) x r = 0) /\
    means_ineq (nth d0 hs 1) (fun x => in_cones rb (6 + m) x /\ forall r, (r < m)%N -> `|x (6 + r)%N| <= 5%:R) &
    (forall k t, nth None [seq Some t | t <- q_ts rb] k = Some t ->
       means_eq (nth d0 hs (2 + k)) (task_met (6 + m) t (k_J t)) /\ l_nin (nth d0 hs (2 + k)) = 0%N) /\
    (forall i, (0 < i < size hs)%N -> l_cost (nth d0 hs i) /\
       forall x : nat -> R, \sum_(0 <= a < 6 + m + q_cdof rb) \sum_(0 <= b < 6 + m + q_cdof rb)
           x a * ent (l_H (nth d0 hs i)) a b * x b = 5%:R / frob (q_A rb) * quad D x)].
Proof.
move=> fok rok D; have [hs [C [H [e cf ms dH cone]]]] := conf fok rok.
have [[pl clnE cdE] ok inv okt] := rok; have [nvE mE cE _ _] := ok.
exists hs; split=> //.
- by rewrite (cf_size cf) size_map.
- by split; [exact: cf_eq0 cf|have := cf_in0 cf; rewrite mE].
- split; first by have := cf_eq1 cf; rewrite cE nvE.
  move=> x; rewrite -(cone x); have := cf_in1 cf; rewrite nvE mE; exact.
have Hi i : (0 < i < size hs)%N -> l_cost (nth d0 hs i) /\ l_H (nth d0 hs i) = H.
  case: i => [|[_|i]] //; first exact: cf_cost1 cf.
  rewrite (cf_size cf) size_map /= !ltnS => li.
  case et: (nth None [seq Some p | p <- [seq (t, k_J t) | t <- q_ts rb]] i) => [[t J]|].
    by have [_ _ _ h1 h2] := cf_task cf et.
  move: et; rewrite -map_comp; case eq: (q_ts rb) li => [|t0 ts] //; rewrite -eq => li.
  by rewrite (nth_map t0).
split.
  move=> k t ek; have ek' : nth None [seq Some p | p <- [seq (t, k_J t) | t <- q_ts rb]] k = Some (t, k_J t).
    move: ek; elim: (q_ts rb) k => [|t0 ts IH] [|k] //=; [by case=> ->|exact: IH].
  have [h1 h2 h3 _ _] := cf_task cf ek'; split=> //.
  by move: h3; rewrite nvE.
move=> i li; have [h1 h2] := Hi i li; split=> // x; rewrite h2 /quad nvE mulr_sumr.
rewrite (@sum_window _ 0 (6 + m)) ?add0n ?leq_addr //; last first.
  move=> a la; rewrite /= => na; apply: sum_nat0 => b lb.
  by rewrite ms nvE (negbTE na) /= mulr0 mul0r.
apply: sum_nat_eq => a la; rewrite mulr_sumr.
rewrite (@sum_window _ 0 (6 + m)) ?add0n ?leq_addr //; last first.
  by move=> b lb; rewrite /= => nb; rewrite ms nvE (negbTE nb) andbF mulr0 mul0r.
apply: sum_nat_eq => b lb; rewrite !add0n ms nvE la lb /=; ring.
Qed.

(* C98.  Whatever OSQP returns and however often the controller is called, the answer of every
   level satisfies the six equations of the floating base exactly. *)
Theorem C98_base_dynamics (f : dm -> dm) (rb : lrobot R) m osqp (hs hs' : seq level) :
  null_space_ok f -> robot_ok rb m -> ConfigureLQP f rb [::] = Some hs -> solved osqp hs hs' ->
  size hs' = size hs /\ forall i, (i < size hs')%N -> base_dynamics (dataLQP rb) (answer (nth d0 hs' i)).
Proof.
move=> fok rok e so; have [hs2 [C [H [e2 cf ms dH cone]]]] := conf fok rok.
move: e2; rewrite e => -[E]; rewrite -{hs2}E in cf.
have [_ ok inv _] := rok; have [nvE mE cE _ _] := ok.
have [sz sh pr [rd sd yE res]] := solved_inv (cf_shaped cf) (cf_prepared cf) so.
have s0 : (0 < size hs)%N by rewrite (cf_size cf).
split=> // i; rewrite sz => li.
have shl := cf_shaped cf s0.
have mq : means_eq (nth d0 hs' 0) (base_dynamics (dataLQP rb)).
  by have [_ en _ _ [eB eb _ _ _]] := sd 0%N s0 => x; rewrite en eB eb; apply: cf_eq0 cf x.
apply/(means_eqP _ (sh 0%N s0) mq); rewrite (res 0%N i) ?leq0n //.
apply/(means_eqP _ (sh 0%N s0) mq) => r r6.
have [y0 _] := yE s0.
apply: (first_balance ok inv) => [k lk|]; last by rewrite nvE; lia.
rewrite -(cf_y0 cf lk) /answer.
by have /matrixP/(_ (Ordinal lk) 0) := y0; rewrite !mxE.
Qed.

(* C98, definedness: no call accesses a matrix out of range. *)
Theorem C98_defined (f : dm -> dm) (rb : lrobot R) m osqp (hs : seq level) :
  null_space_ok f -> robot_ok rb m -> ConfigureLQP f rb [::] = Some hs ->
  (exists hs', CalcControlTorqueLQP osqp hs true = Some hs') /\
  forall hs' init, solved osqp hs hs' -> exists hs2, CalcControlTorqueLQP osqp hs' init = Some hs2.
Proof.
move=> fok rok e; have [hs2 [C [H [e2 cf ms dH cone]]]] := conf fok rok.
move: e2; rewrite e => -[E]; rewrite -{hs2}E in cf.
split; first exact: C30_defined (cf_shaped cf) (cf_prepared cf).
move=> hs' init so; apply: solved_defined (cf_shaped cf) (cf_prepared cf) so.
by move=> h; have := cf_size cf; rewrite h.
Qed.

(* what a call knows *)
Lemma call_facts (f : dm -> dm) (rb : lrobot R) m osqp (hs hs' : seq level) init :
  null_space_ok f -> robot_ok rb m -> ConfigureLQP f rb [::] = Some hs -> call osqp hs init hs' ->
  exists hs1 C H, [/\ lq_conf (dataLQP rb) (fun=> 200%:R) C H [seq (t, k_J t) | t <- q_ts rb] hs,
    mass_scaled (dataLQP rb) (frob (q_A rb)) H,
    forall x, (forall r, (r < nr C)%N -> rowdot C r (fun j => x (6 + m + j)%N) <= 0) <-> in_cones rb (6 + m) x,
    [/\ solveSequential osqp hs1 init = Some hs', init \/ all_ready d0 hs1,
      forall i, (i < size hs1)%N -> shaped (6 + m + q_cdof rb) (nth d0 hs1 i), prepared (6 + m + q_cdof rb) d0 hs1 & size hs1 = size hs] &
    [/\ size hs' = size hs, forall i, (i < size hs)%N -> shaped (6 + m + q_cdof rb) (nth d0 hs' i),
        forall i, (i < size hs)%N -> same_data (nth d0 hs i) (nth d0 hs' i),
        [/\ yv (6 + m + q_cdof rb) (nth d0 hs1 0) = yv (6 + m + q_cdof rb) (nth d0 hs 0), l_v (nth d0 hs1 0) = l_v (nth d0 hs 0) &
            l_v (nth d0 hs' 0) = l_v (nth d0 hs 0)] /\
        (forall i, (i < size hs)%N -> same_data (nth d0 hs i) (nth d0 hs1 i)) &
        forall k i, (k <= i < size hs)%N -> Bm (6 + m + q_cdof rb) (nth d0 hs' k) *m yv (6 + m + q_cdof rb) (nth d0 hs' i) =
           Bm (6 + m + q_cdof rb) (nth d0 hs' k) *m yv (6 + m + q_cdof rb) (nth d0 hs' k)]].
Proof.
move=> fok rok e ca; have [hs2 [C [H [e2 cf ms dH cone]]]] := conf fok rok.
move: e2; rewrite e => -[E]; rewrite -{hs2}E in cf.
have [_ ok inv _] := rok; have nE := lq_vars ok.
have sh0 := cf_shaped cf; have pr0 := cf_prepared cf; rewrite nE in sh0 pr0.
have [hs1 [e1 st sh1 pr1 [sz1 sd1 y1]]] := call_inv sh0 pr0 ca.
have [sz sh pr [rd sd yE res]] := solved_inv sh0 pr0 (call_solved ca).
have s0 : (0 < size hs)%N by rewrite (cf_size cf).
have [_ v0] := yE s0; have [y10 v10] := y1 s0.
by exists hs1, C, H.
Qed.

Lemma mq_same (l l' : level) P : same_data l l' -> means_eq l P -> means_eq l' P.
Proof. by case=> _ en _ _ [eB eb _ _ _] h x; rewrite en eB eb. Qed.
Lemma mi_same (l l' : level) P : same_data l l' -> means_ineq l P -> means_ineq l' P.
Proof. by case=> en _ eA ea _ h x; rewrite en eA ea. Qed.

(* C99, the part that holds: if the solver found an admissible point for every level that has one,
   the joint torques of the answer of every level stay within 200 (no coefficient dropped by
   sparseView).  Missing: the limits set by the user. *)
Theorem C99_torque_within_200_partial (f : dm -> dm) (rb : lrobot R) m osqp (hs hs' : seq level) init :
  null_space_ok f -> robot_ok rb m -> ConfigureLQP f rb [::] = Some hs ->
  call osqp hs init hs' -> found_feasible hs' ->
  (forall i, (0 < i < size hs')%N -> nothing_dropped (l_qA (nth d0 hs' i))) ->
  forall i, (0 < i < size hs')%N -> forall r, (r < m)%N -> `|torque (dataLQP rb) (answer (nth d0 hs' i)) r| <= 200%:R.
Proof.
move=> fok rok e ca fe nd i; have [hs1 [C [H [cf _ _ [e1 st sh1 pr1 sz1] [sz sh sd [[y0 v1 v0] sd1] res]]]]] := call_facts fok rok e ca.
have [_ ok inv _] := rok; have [nvE mE cE _ _] := ok; have nE := lq_vars ok.
have s0 : (0 < size hs)%N by rewrite (cf_size cf).
have mi := cf_in0 cf; rewrite mE in mi.
have z0 : vv (nth d0 hs1 0) = 0 by apply/matrixP => a b; rewrite !mxE ord1 v1 (cf_v0 cf).
have z0' : vv (nth d0 hs' 0) = 0 by apply/matrixP => a b; rewrite !mxE ord1 v0 (cf_v0 cf).
rewrite sz => li; apply/(means_ineqP _ (sh 0%N s0) (mi_same (sd 0%N s0) mi)); rewrite -z0'.
have nd' k : (0 < k < size hs1)%N -> nothing_dropped (l_qA (nth d0 hs' k)) by rewrite sz1 => lk; apply: nd; rewrite sz.
have li' : (0 < i < size hs1)%N by rewrite sz1.
have fe' k : (0 < k < size hs1)%N -> (exists x, oqp_feasible (osqp_problem (nth d0 hs' k)) x) ->
    oqp_feasible (osqp_problem (nth d0 hs' k)) (ans_of (nth d0 hs' k)).
  by rewrite sz1 => lk; apply: fe; rewrite sz.
apply: (C31_recursive_feasibility sh1 pr1 st e1 fe' nd' _ (leq0n i) li').
have s1 : (0 < size hs1)%N by rewrite sz1.
rewrite z0; apply/(means_ineqP _ (sh1 0%N s1) (mi_same (sd1 0%N s0) mi)) => r rm.
rewrite /torque (first_balance ok inv) ?normr0 ?ler0n //; last by rewrite nvE; lia.
move=> k lk; rewrite -(cf_y0 cf lk) /answer; rewrite nE in lk.
by have /matrixP/(_ (Ordinal lk) 0) := y0; rewrite !mxE.
Qed.

(* C100.  Whatever OSQP returns, the levels below level 1 do not change the acceleration of the
   contacts. *)
Theorem C100_contact_acceleration_kept (f : dm -> dm) (rb : lrobot R) m osqp (hs hs' : seq level) :
  null_space_ok f -> robot_ok rb m -> ConfigureLQP f rb [::] = Some hs -> solved osqp hs hs' ->
  forall i, (0 < i < size hs')%N -> forall r, (r < q_cdof rb)%N ->
    accel (6 + m) (q_JC rb) (answer (nth d0 hs' i)) r = accel (6 + m) (q_JC rb) (answer (nth d0 hs' 1)) r.
Proof.
move=> fok rok e so i; have [init ca] := solved_nonempty so.
have [hs1 [C [H [cf _ _ _ [sz sh sd _ res]]]]] := call_facts fok rok e ca.
have [_ ok inv _] := rok; have [nvE mE cE _ _] := ok.
rewrite sz => /andP[i0 li] r lr.
have s1 : (1 < size hs)%N by rewrite (cf_size cf).
have mq := mq_same (sd 1%N s1) (cf_eq1 cf); rewrite cE nvE in mq.
have b0 r' : (r' < l_neq (nth d0 hs' 1))%N -> ent (l_b (nth d0 hs' 1)) r' 0 = 0.
  move=> lr'; have /(_ _ r' lr') := proj2 (mq (fun=> 0)).
  rewrite /rowdot sum_nat0 ?add0r; last by move=> *; rewrite mulr0.
  by apply=> k _; rewrite /accel sum_nat0 // => *; rewrite mulr0.
pose dlt k := answer (nth d0 hs' i) k - answer (nth d0 hs' 1) k.
have : forall r, (r < q_cdof rb)%N -> accel (6 + m) (q_JC rb) dlt r = 0.
  apply/mq => r' lr'; rewrite b0 // addr0.
  have := res 1%N i; rewrite i0 li => /(_ isT) E.
  have e1 : (Bm (6 + m + q_cdof rb) (nth d0 hs' 1) *m yv (6 + m + q_cdof rb) (nth d0 hs' i) + bv (nth d0 hs' 1)) (Ordinal lr') 0 =
            (Bm (6 + m + q_cdof rb) (nth d0 hs' 1) *m yv (6 + m + q_cdof rb) (nth d0 hs' 1) + bv (nth d0 hs' 1)) (Ordinal lr') 0 by rewrite E.
  rewrite !(eq_row _ _ (sh 1%N s1)) /= in e1; move/(addIr _) in e1.
  rewrite /rowdot /dlt; under eq_bigr do rewrite mulrBr.
  rewrite sumrB; apply/eqP; rewrite subr_eq0; apply/eqP; exact: e1.
move/(_ r lr); rewrite /accel /dlt; under eq_bigr do rewrite mulrBr.
by rewrite sumrB => /eqP; rewrite subr_eq0 => /eqP.
Qed.

(* the extra cost of the levels *)
Lemma cost_quad (rb : lrobot R) m (H : dm) (y : 'cV[R]_(6 + m + q_cdof rb)) (x : nat -> R) :
  q_nv rb = (6 + m)%N -> mass_scaled (dataLQP rb) (frob (q_A rb)) H ->
  (forall k : 'I_(6 + m + q_cdof rb), (k < 6 + m)%N -> y k 0 = x k) ->
  (y^T *m mx_of (6 + m + q_cdof rb) (6 + m + q_cdof rb) H *m y) 0 0 = 5%:R / frob (q_A rb) * quad (dataLQP rb) x.
Proof.
move=> nvE ms hx; set c := q_cdof rb in y hx *.
pose Y k := ent (of_mx y) k 0.
have YE (k : 'I_(6 + m + c)) : Y k = y k 0 by rewrite /Y (ent0 y k).
have hY k : (k < 6 + m)%N -> Y k = x k.
  move=> lk; have lk' : (k < 6 + m + c)%N by apply: ltn_addr.
  by rewrite (YE (Ordinal lk')) (hx (Ordinal lk')).
have -> : (y^T *m mx_of (6 + m + c) (6 + m + c) H *m y) 0 0 =
    \sum_(0 <= b < 6 + m + c) \sum_(0 <= a < 6 + m + c) Y a * ent H a b * Y b.
  rewrite mxE sum_ord; apply: eq_bigr => b _; rewrite mxE sum_ord mulr_suml.
  by apply: eq_bigr => a _; rewrite !mxE !YE.
rewrite /quad [d_nv _]/= nvE exchange_big_nat mulr_sumr.
rewrite (@sum_window _ 0 (6 + m)) ?add0n ?leq_addr //; last first.
  move=> a la; rewrite /= => na; apply: sum_nat0 => b lb.
  by rewrite ms [d_nv _]/= nvE (negbTE na) /= mulr0 mul0r.
apply: sum_nat_eq => a la; rewrite mulr_sumr.
rewrite (@sum_window _ 0 (6 + m)) ?add0n ?leq_addr //; last first.
  by move=> b lb; rewrite /= => nb; rewrite ms [d_nv _]/= nvE (negbTE nb) andbF mulr0 mul0r.
apply: sum_nat_eq => b lb; rewrite !add0n ms [d_nv _]/= nvE la lb !hY //=; ring.
Qed.

Lemma cost_sym (rb : lrobot R) m (H : dm) : q_nv rb = (6 + m)%N -> mass_scaled (dataLQP rb) (frob (q_A rb)) H ->
  inertia_spd (dataLQP rb) ->
  (mx_of (6 + m + q_cdof rb) (6 + m + q_cdof rb) H)^T = mx_of (6 + m + q_cdof rb) (6 + m + q_cdof rb) H.
Proof.
move=> nvE ms [sy _]; apply/matrixP => i j; rewrite !mxE !ms [d_nv _]/= nvE andbC.
case: ifP => // /andP[lj li]; have := sy i j; rewrite /= nvE => -> //.
Qed.

Lemma sqnorm_ge0 k (x : 'cV[R]_k) : 0 <= sqnorm x.
Proof. by rewrite /sqnorm sumr_ge0 // => i _; apply: sqr_ge0. Qed.
Lemma sqnorm_eq0 k (x : 'cV[R]_k) : sqnorm x <= 0 -> x = 0.
Proof.
move=> h; apply/matrixP => i j; rewrite ord1 mxE; apply/eqP; rewrite -sqrf_eq0.
have : sqnorm x == 0 by rewrite eq_le h sqnorm_ge0.
rewrite /sqnorm psumr_eq0; last by move=> *; apply: sqr_ge0.
by move/allP/(_ i); rewrite mem_index_enum => /(_ isT).
Qed.
Lemma sqnorm0 k : sqnorm (0 : 'cV[R]_k) = 0.
Proof. by rewrite /sqnorm big1 // => i _; rewrite mxE expr0n. Qed.

Lemma quad_ge0 (D : lqdata R) x : inertia_spd D -> 0 <= quad D x.
Proof.
case=> _ pd; case: (boolP [exists i : 'I_(d_nv D), x i != 0]) => [/existsP[i /eqP ni]|].
  by apply: ltW; apply: pd; exists i.
rewrite negb_exists => /forallP h; rewrite /quad sum_nat0 // => i li; apply: sum_nat0 => j _.
by have := h (Ordinal li); rewrite negbK => /eqP /= ->; rewrite !mul0r.
Qed.
Lemma quad_le0 (D : lqdata R) x : inertia_spd D -> quad D x <= 0 -> forall i, (i < d_nv D)%N -> x i = 0.
Proof.
case=> _ pd h i li; apply/eqP/negP => /negP /eqP ni.
by have := pd x (ex_intro _ i (conj li ni)); rewrite ltNge h.
Qed.
Lemma quad0 (D : lqdata R) x : (forall i, (i < d_nv D)%N -> x i = 0) -> quad D x = 0.
Proof. by move=> h; rewrite /quad sum_nat0 // => i li; apply: sum_nat0 => j _; rewrite h // !mul0r. Qed.

Lemma frob_gt0 (rb : lrobot R) m : robot_ok rb m -> 0 < frob (q_A rb).
Proof.
case=> _ ok inv _; have := frob_pos ok inv; rewrite [d_A _]/= => h.
by rewrite lt_def h /frob sqrtr_ge0.
Qed.

(* C100.  If the robot can stand still within the torque bound and the friction cones then an
   exact solve of level 1 stands still: no acceleration at all, contact forces in their cones.
   And whatever admissible points the lower levels return, the contacts do not accelerate, the
   forces stay in their cones, the torques within 200 and the joint accelerations within 5. *)
Theorem C100_stands_still (f : dm -> dm) (rb : lrobot R) m osqp (hs hs' : seq level) init x :
  null_space_ok f -> robot_ok rb m -> inertia_spd (dataLQP rb) -> ConfigureLQP f rb [::] = Some hs ->
  call osqp hs init hs' -> exactly_solved hs' 1 -> can_stand_still rb x ->
  (forall j, (j < 6 + m)%N -> answer (nth d0 hs' 1) j = 0) /\
  forall i, (0 < i < size hs')%N -> nothing_dropped (l_qA (nth d0 hs' i)) ->
    oqp_feasible (osqp_problem (nth d0 hs' i)) (ans_of (nth d0 hs' i)) ->
    let y := answer (nth d0 hs' i) in
    [/\ forall r, (r < q_cdof rb)%N -> accel (6 + m) (q_JC rb) y r = 0, in_cones rb (6 + m) y,
        forall r, (r < m)%N -> `|y (6 + r)%N| <= 5%:R & forall r, (r < m)%N -> `|torque (dataLQP rb) y r| <= 200%:R].
Proof.
move=> fok rok spd e ca [ndA ndH opt] [x0 xb xt xc].
have [hs1 [C [H [cf ms cone [e1 st sh1 pr1 sz1] [sz sh sd [[y0 v1 v0] sd1] res]]]]] := call_facts fok rok e ca.
have [_ ok inv _] := rok; have [nvE mE cE _ _] := ok; have nE := lq_vars ok.
have s0 : (0 < size hs)%N by rewrite (cf_size cf).
have s1 : (1 < size hs)%N by rewrite (cf_size cf).
set n := (6 + m + q_cdof rb)%N in sh1 pr1 sh res y0.
have nvE' : q_nv rb = (6 + m)%N := nvE.
have [c1 H1] := cf_cost1 cf.
have eH : Hm n (nth d0 hs' 1) = mx_of n n H.
  by rewrite /Hm; have [_ _ _ _ [_ _ _ -> _]] := sd 1%N s1; rewrite H1.
have ec : l_cost (nth d0 hs' 1) by have [_ _ _ _ [_ _ -> _ _]] := sd 1%N s1.
have li1 : (0 < 1 < size hs1)%N by rewrite sz1.
have symH : l_cost (nth d0 hs' 1) -> (Hm n (nth d0 hs' 1))^T = Hm n (nth d0 hs' 1).
  by move=> _; rewrite eH; apply: cost_sym nvE' ms spd.
have [okS mn _] := C32_level_optimal sh1 pr1 st e1 li1 ndA ndH symH opt.
pose lx := setAns d0 (vec n x) (dzero R 0 0) (dzero R 0 0) (dzero R 0 0).
have mq0 := mq_same (sd 0%N s0) (cf_eq0 cf); have mi0 := mi_same (sd 0%N s0) (cf_in0 cf).
have mq1 := mq_same (sd 1%N s1) (cf_eq1 cf); have mi1 := mi_same (sd 1%N s1) (cf_in1 cf).
have z0 : vv (nth d0 hs' 0) = 0 by apply/matrixP => a b; rewrite !mxE ord1 v0 (cf_v0 cf).
have ex1 : Bm n (nth d0 hs' 1) *m yv n lx + bv (nth d0 hs' 1) = 0.
  apply/(means_eqP _ (sh 1%N s1) mq1) => r lr; rewrite /accel sum_nat0 // => j lj.
  by rewrite /answer /= x0 // mulr0.
have okx : lec (Am n (nth d0 hs' 1) *m yv n lx + av (nth d0 hs' 1)) 0.
  apply/(means_ineqP _ (sh 1%N s1) mi1); rewrite nvE; split; first by apply/cone; rewrite -nvE'.
  move=> r lr; rewrite /answer /= x0 ?normr0 ?ler0n //; move: lr; rewrite nvE mE; lia.
have bd := C98_base_dynamics fok rok e (call_solved ca).
have ex0 : Bm n (nth d0 hs' 0) *m yv n lx = Bm n (nth d0 hs' 0) *m yv n (nth d0 hs' 0).
  apply: (addIr (bv (nth d0 hs' 0))).
  have -> : Bm n (nth d0 hs' 0) *m yv n lx + bv (nth d0 hs' 0) = 0.
    by apply/(means_eqP _ (sh 0%N s0) mq0).
  by apply/esym/(means_eqP _ (sh 0%N s0) mq0); apply: (proj2 bd); rewrite sz.
have le : level_objective (nth d0 hs' 1) (yv n (nth d0 hs' 1)) (vv (nth d0 hs' 1)) <= 0.
  apply: le_trans (mn (yv n lx) 0 _) _.
    split; [by case|exact: okx|].
    by case=> // _; rewrite z0; apply/(means_ineqP _ (sh 0%N s0) mi0).
  rewrite /level_objective ec ex1 !sqnorm0 eH (@cost_quad rb m H (yv n lx) x) //; last by move=> k lk; rewrite mxE.
  rewrite quad0 ?mulr0 ?addr0 //; by move=> i; rewrite nvE => li; apply: x0; rewrite nvE.
have fp := frob_gt0 rok.
have cp : 0 < 5%:R / frob (q_A rb) by rewrite divr_gt0 ?ltr0n.
pose y1 := answer (nth d0 hs' 1).
move: le; rewrite /level_objective ec eH (@cost_quad rb m H (yv n (nth d0 hs' 1)) y1) //; last by move=> k lk; rewrite mxE.
have := quad_ge0 y1 spd; rewrite -(pmulr_rge0 _ cp).
move: (sqnorm_ge0 (Bm n (nth d0 hs' 1) *m yv n (nth d0 hs' 1) + bv (nth d0 hs' 1))) (sqnorm_ge0 (vv (nth d0 hs' 1))).
set a := sqnorm (_ + _); set b := sqnorm _; set q := _ * quad _ _ => ha hb hq le.
have za : a <= 0 by apply: le_trans le; rewrite -addrA ler_addl addr_ge0.
have zb : b <= 0 by apply: le_trans le; rewrite [a + b]addrC -addrA ler_addl addr_ge0.
have zq : q <= 0 by apply: le_trans le; rewrite ler_addr addr_ge0.
have vz := sqnorm_eq0 zb; have rz := sqnorm_eq0 za.
have a1 j : (j < 6 + m)%N -> y1 j = 0.
  move=> lj; apply: (quad_le0 spd); last by rewrite nvE.
  by move: zq; rewrite /q pmulr_rle0.
split=> // i; rewrite sz => li ndi fei; cbv zeta.
have li' : (0 < i < size hs1)%N by rewrite sz1.
have ki := C31_inequalities_kept_exact sh1 pr1 st e1 li' ndi fei.
have k0 := ki 0%N (leq0n _); rewrite z0 in k0.
have k1 := ki 1%N (proj1 (andP li)); rewrite vz in k1.
have /(means_ineqP _ (sh 1%N s1) mi1) [q1 q2] := k1.
have /(means_ineqP _ (sh 0%N s0) mi0) q0 := k0.
rewrite nvE mE in q0 q1 q2; split=> //; last by apply/cone.
move=> r lr; rewrite (C100_contact_acceleration_kept fok rok e (call_solved ca)) ?sz //.
by rewrite /accel sum_nat0 // => j lj; rewrite [answer _ j]a1 ?mulr0.
Qed.

Lemma mix_add (s p q b : R) : (1 - s) * p + s * q + b = (1 - s) * (p + b) + s * (q + b).
Proof. ring. Qed.
Lemma mix_quad (s x a y : R) : (1 - s) * x * a * ((1 - s) * y) = (1 - s) ^+ 2 * (x * a * y).
Proof. ring. Qed.

(* the balance between a met task and the acceleration cost *)
Lemma no_trade (rho kap t : R) : 0 <= rho -> 0 < kap -> t = kap / (rho + kap) ->
  kap <= t ^+ 2 * rho + (1 - t) ^+ 2 * kap -> False.
Proof.
move=> r0 k0 te; have s0 : 0 < rho + kap by apply: ltr_paddl.
have -> : t ^+ 2 * rho + (1 - t) ^+ 2 * kap = kap + t * (t * (rho + kap) - 2%:R * kap) by ring.
rewrite ler_addl te divfK ?gt_eqF // pmulr_rge0; last by rewrite divr_gt0.
by rewrite -[X in X - _]mul1r -mulrBl pmulr_lge0 // subr_ge0 (ler_nat _ 2 1).
Qed.

(* C101.  The tasks share their level with the acceleration cost.  If level 1 answers with zero
   acceleration then the first task, unless it asks for nothing, is never met by an exact solve:
   not even when its acceleration is admissible. *)
Theorem C101_task_never_met (f : dm -> dm) (rb : lrobot R) m osqp (hs hs' : seq level) init t ts :
  null_space_ok f -> robot_ok rb m -> inertia_spd (dataLQP rb) -> ConfigureLQP f rb [::] = Some hs ->
  call osqp hs init hs' -> q_ts rb = t :: ts -> (exists r, (r < k_dof t)%N /\ ent (k_fstar t) r 0 <> 0) ->
  nothing_dropped (l_qA (nth d0 hs' 1)) -> oqp_feasible (osqp_problem (nth d0 hs' 1)) (ans_of (nth d0 hs' 1)) ->
  (forall j, (j < 6 + m)%N -> answer (nth d0 hs' 1) j = 0) -> exactly_solved hs' 2 ->
  ~ task_met (6 + m) t (k_J t) (answer (nth d0 hs' 2)).
Proof.
move=> fok rok spd e ca ets [r [lr fr]] nd1 fe1 a1 [ndA ndH opt] met.
have [hs1 [C [H [cf ms cone [e1 st sh1 pr1 sz1] [sz sh sd [[y0 v1 v0] sd1] res]]]]] := call_facts fok rok e ca.
have [_ ok inv okt] := rok; have [nvE mE cE _ _] := ok; have nE := lq_vars ok.
have szh : (2 < size hs)%N by rewrite (cf_size cf) ets.
have nvE' : q_nv rb = (6 + m)%N := nvE.
set n := (6 + m + q_cdof rb)%N in sh1 pr1 sh res y0.
have et : nth None [seq Some p | p <- [seq (t, k_J t) | t <- q_ts rb]] 0 = Some (t, k_J t) by rewrite ets.
have [ni ne mq c2 H2] := cf_task cf et; rewrite nvE [(2 + 0)%N]/= in ni ne mq c2 H2.
have mq2 := mq_same (sd 2%N szh) mq.
have eH : Hm n (nth d0 hs' 2) = mx_of n n H.
  by rewrite /Hm; have [_ _ _ _ [_ _ _ -> _]] := sd 2%N szh; rewrite H2.
have ec : l_cost (nth d0 hs' 2) by have [_ _ _ _ [_ _ -> _ _]] := sd 2%N szh.
have ni2 : l_nin (nth d0 hs' 2) = 0%N by have [-> _ _ _ _] := sd 2%N szh.
have li2 : (0 < 2 < size hs1)%N by rewrite sz1.
have li1 : (0 < 1 < size hs1)%N by rewrite sz1; apply: ltn_trans szh.
have symH : l_cost (nth d0 hs' 2) -> (Hm n (nth d0 hs' 2))^T = Hm n (nth d0 hs' 2).
  by move=> _; rewrite eH; apply: cost_sym nvE' ms spd.
have [[okB okA okK] mn _] := C32_level_optimal sh1 pr1 st e1 li2 ndA ndH symH opt.
have k1 := C31_inequalities_kept_exact sh1 pr1 st e1 li1 nd1 fe1.
have res2 : Bm n (nth d0 hs' 2) *m yv n (nth d0 hs' 2) + bv (nth d0 hs' 2) = 0.
  by apply/(means_eqP _ (sh 2%N szh) mq2).
set y2 := yv n (nth d0 hs' 2) in okB okA okK mn res2; pose y1 := yv n (nth d0 hs' 1).
set v2 := vv (nth d0 hs' 2) in okA mn.
set rv := Bm n (nth d0 hs' 2) *m y1 + bv (nth d0 hs' 2).
pose c := 5%:R / frob (q_A rb); have cp : 0 < c by rewrite divr_gt0 ?ltr0n // (frob_gt0 rok).
pose x2 := answer (nth d0 hs' 2); pose kap := c * quad (dataLQP rb) x2; pose rho := sqnorm rv.
have kge : 0 <= kap by rewrite pmulr_rge0 // quad_ge0.
have kgt : 0 < kap.
  rewrite lt_def kge andbT; apply/eqP => k0; apply: fr.
  have zq : quad (dataLQP rb) x2 <= 0 by move/eqP: k0; rewrite mulf_eq0 (gt_eqF cp) /= => /eqP ->.
  rewrite -(met r lr) /accel sum_nat0 // => j lj.
  by rewrite -/x2 (quad_le0 spd zq) ?mulr0 // nvE.
have rge : 0 <= rho by apply: sqnorm_ge0.
have sgt : 0 < rho + kap by apply: ltr_paddl.
pose s := kap / (rho + kap).
have s0 : 0 <= s by rewrite divr_ge0 // ltW.
have s1 : s <= 1 by rewrite ler_pdivr_mulr // mul1r ler_addr.
pose y := (1 - s) *: y2 + s *: y1.
have lin k (M : 'M[R]_(k, n)) (b : 'cV[R]_k) : M *m y + b = (1 - s) *: (M *m y2 + b) + s *: (M *m y1 + b).
  rewrite /y mulmxDr -!scalemxAr; move: (M *m y2) (M *m y1) => p q.
  by apply/matrixP => i j; rewrite !mxE; apply: mix_add.
have oky : [/\ forall k, (k < 2)%N -> Bm n (nth d0 hs' k) *m y = Bm n (nth d0 hs' k) *m yv n (nth d0 hs' k),
      lec (Am n (nth d0 hs' 2) *m y + av (nth d0 hs' 2)) v2 &
      forall k, (k < 2)%N -> lec (Am n (nth d0 hs' k) *m y + av (nth d0 hs' k)) (vv (nth d0 hs' k))].
  split.
  - move=> k lk; have := lin _ (Bm n (nth d0 hs' k)) 0; rewrite !addr0 => ->.
    have -> : Bm n (nth d0 hs' k) *m y1 = Bm n (nth d0 hs' k) *m yv n (nth d0 hs' k).
      by apply: res; rewrite -ltnS lk; apply: leq_ltn_trans szh.
    by rewrite okB // -scalerDl subrK scale1r.
  - by case=> i li; exfalso; move: li; rewrite ni2.
  - move=> k lk i; rewrite lin.
    have := okK k lk i; have := k1 k; rewrite -ltnS lk => /(_ isT i); rewrite -/y1.
    move: (Am n _ *m y1 + _) (Am n _ *m y2 + _) (vv _) => p q v hp hq.
    rewrite ![(_ + _ : 'cV_ _) i 0]mxE ![(_ *: _ : 'cV_ _) i 0]mxE.
    have -> : v i 0 = (1 - s) * v i 0 + s * v i 0 by rewrite -mulrDl subrK mul1r.
    by apply: ler_add; apply: ler_wpmul2l => //; rewrite subr_ge0.
have := mn y v2 oky; rewrite /level_objective ec eH res2 sqnorm0 add0r [X in _ <= X + _]addrC -addrA ler_add2l.
rewrite (@cost_quad rb m H y2 x2) //; last by move=> k lk; rewrite mxE.
rewrite (@cost_quad rb m H y (fun k => (1 - s) * x2 k)) //; last first.
  move=> k lk; rewrite !mxE -/(answer (nth d0 hs' 2) k) -/(answer (nth d0 hs' 1) k) a1 //.
  by rewrite mulr0 addr0.
have -> : quad (dataLQP rb) (fun k => (1 - s) * x2 k) = (1 - s) ^+ 2 * quad (dataLQP rb) x2.
  rewrite /quad mulr_sumr; apply: sum_nat_eq => i _; rewrite mulr_sumr; apply: sum_nat_eq => j _; exact: mix_quad.
rewrite lin res2 scaler0 add0r -/rv.
have -> : sqnorm (s *: rv) = s ^+ 2 * rho.
  by rewrite /rho /sqnorm mulr_sumr; apply: eq_bigr => i _; rewrite mxE exprMn.
rewrite mulrCA -/c -/kap => h; exact: (no_trade rge kgt erefl h).
Qed.
End Props.

Print Assumptions C97_configured_hierarchy.
Print Assumptions C98_base_dynamics.
Print Assumptions C98_defined.
Print Assumptions C99_torque_within_200_partial.
Print Assumptions C100_contact_acceleration_kept.
Print Assumptions C100_stands_still.
Print Assumptions C101_task_never_met.
