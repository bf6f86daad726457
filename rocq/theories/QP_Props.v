(* Theorems about the level QP, the hierarchical loop and QP redistribution: C22-C26, C65. *)
From mathcomp Require Import all_ssreflect all_algebra.
From mathcomp Require Import zify.
From Verif Require Import LinAlg Dyn_Model Dyn_Spec Dyn_Ex Dyn_Props.
From Verif Require Import DMat DMatL Cone_Model Cone_Spec Cone_Ex QP_Model QP_Spec QP_Proofs QP_Loop QP_Ex.
Set Implicit Arguments.
Unset Strict Implicit.
Unset Printing Implicit Defensive.
Import Order.TTheory GRing.Theory Num.Theory.
Local Open Scope ring_scope.

Section Props.
Variable R : realFieldType.
Implicit Types (rd : rdata R) (s : tspace R) (d : pcontact R).

(* C22: the problem handed to the solver is well formed, and a point is feasible exactly when
   the torque it stands for is admissible *)
Theorem C22_feasible_iff_admissible : forall rd m K t d s Nprev tprev,
  rd_sized rd m K -> ts_sized m t s -> dims Nprev m m -> dims tprev m 1 ->
  let c := (6 * K - 6)%N in
  exists q, [/\ TaskQP rd s Nprev tprev = Some q, qp_wf q (t + c) &
    forall x, qp_feasible q x <->
      admissible rd d K (mx_of m 1 tprev + level_torque (mx_of m m Nprev) s (col_of t x)
        + mx_of m c (r_NwJw rd) *m col_of c (fun j => x (t + j)%N))].
Proof.
move=> rd m K t d s Nprev tprev h1 h2 h3 h4 c.
by have [q [e wf _ _ h]] := TaskQP_ok d h1 h2 h3 h4; exists q.
Qed.

(* C22: for every solver that meets its constraints when it reports success *)
Theorem C22_success_is_admissible : forall solver rd m K t d h s Nprev tprev,
  rd_sized rd m K -> ts_sized m t s -> dims Nprev m m -> dims tprev m 1 ->
  (forall i q x, solver i q = Some x -> qp_feasible q x) ->
  let c := (6 * K - 6)%N in
  exists s1 ok, [/\ CalcSingleTaskTorqueWithQP solver rd h s Nprev tprev = Some (s1, ok),
    same_task s s1, t_err s1 = ~~ ok, dims (t_fqp s1) t 1 /\ dims (t_cqp s1) c 1 &
    if ok then
      admissible rd d K (mx_of m 1 tprev
        + level_torque (mx_of m m Nprev) s (mx_of t 1 (t_fqp s1))
        + mx_of m c (r_NwJw rd) *m mx_of c 1 (t_cqp s1))
    else mx_of t 1 (t_fqp s1) = 0 /\ mx_of c 1 (t_cqp s1) = 0].
Proof.
move=> solver rd m K t d h s Nprev tprev h1 h2 h3 h4 feas c.
have [s1 [ok [e sm df dc [q [eq hq]]]]] := single_ok solver d h1 h h2 h3 h4.
exists s1, ok; case es : (solver h q) hq => [x|] [eok err hf hc]; rewrite e eok err; split=> //.
have [q' [eq' _ hx]] := C22_feasible_iff_admissible d h1 h2 h3 h4.
rewrite eq in eq'; case: eq' => eqq; subst q'.
by rewrite hf hc; apply/hx; apply: feas es.
Qed.

(* cost of the level problem *)
Lemma level_cost (q : qp R) t c (x : nat -> R) : qp_wf q (t + c) ->
  (forall i j, ent (q_H q) i j = ((i < t)%N && (j < t)%N && (i == j))%:R) ->
  (forall i, ent (q_g q) i 0 = 0) ->
  qp_cost q x = 1 / 2%:R * sqnorm (col_of t x).
Proof.
move=> [[rH cH] [rg cg] _ _ _] hH hg; rewrite /qp_cost rH cH rg.
have -> : \sum_(0 <= i < (t + c)%N) ent (q_g q) i 0 * x i = 0.
  by apply: sum_nat0 => k _; rewrite hg mul0r.
rewrite addr0; congr (_ * _); rewrite sum_split [X in _ + X]sum_nat0; last first.
  move=> k _; apply: sum_nat0 => j _; rewrite hH.
  have -> : (t + k < t)%N = false by lia.
  by rewrite mulr0 mul0r.
rewrite addr0 /sqnorm sum_ord; apply: eq_bigr => i _; rewrite mxE.
rewrite (@sum_window _ i 1%N); [|by have := ltn_ord i; lia|].
  by rewrite big_nat1 addn0 hH (ltn_ord i) eqxx /= mulr1.
move=> j _ hj; rewrite hH; have -> : (nat_of_ord i == j) = false by apply/eqP => e; move: hj; rewrite -e; lia.
by rewrite andbF mulr0 mul0r.
Qed.

(* C23: the least change of the reference, zero if none is needed *)
Theorem C23_least_modification : forall rd m K t d s Nprev tprev q x,
  rd_sized rd m K -> ts_sized m t s -> dims Nprev m m -> dims tprev m 1 ->
  TaskQP rd s Nprev tprev = Some q -> qp_optimal q x ->
  let c := (6 * K - 6)%N in
  (forall (df : 'cV[R]_t) (cf : 'cV[R]_c),
     admissible rd d K (mx_of m 1 tprev + level_torque (mx_of m m Nprev) s df + mx_of m c (r_NwJw rd) *m cf) ->
     sqnorm (col_of t x) <= sqnorm df) /\
  ((exists cf : 'cV[R]_c,
     admissible rd d K (mx_of m 1 tprev + level_torque (mx_of m m Nprev) s (0 : 'cV[R]_t) + mx_of m c (r_NwJw rd) *m cf)) ->
   col_of t x = 0).
Proof.
move=> rd m K t d s Nprev tprev q x h1 h2 h3 h4 eq [xf xo] c.
have [q' [eq' wf hH hg hx]] := TaskQP_ok d h1 h2 h3 h4.
rewrite eq in eq'; case: eq' => eqq; subst q'.
have least (df : 'cV[R]_t) (cf : 'cV[R]_c) :
    admissible rd d K (mx_of m 1 tprev + level_torque (mx_of m m Nprev) s df + mx_of m c (r_NwJw rd) *m cf) ->
    sqnorm (col_of t x) <= sqnorm df.
  move=> adm; pose y j := if (j < t)%N then ent (of_mx df) j 0 else ent (of_mx cf) (j - t) 0.
  have y1 : col_of t y = df.
    by apply/matrixP => i j; rewrite mxE /y ltn_ord ord1 -[0%N]/(val (0 : 'I_1)) of_mxE.
  have y2 : col_of c (fun j => y (t + j)%N) = cf.
    apply/matrixP => i j; rewrite mxE /y ord1; have -> : (t + i < t)%N = false by lia.
    by rewrite addKn -[0%N]/(val (0 : 'I_1)) of_mxE.
  have yf : qp_feasible q y by apply/hx; rewrite /tau_of y1 y2.
  have := xo _ yf; rewrite !(@level_cost q t c) // y1 ler_pmul2l //.
  by rewrite divr_gt0 // ?ltr01 // ltr0n.
split; [exact: least|move=> [cf /least le00]].
have le0 : sqnorm (col_of t x) <= 0.
  apply: le_trans le00 _; have -> // : sqnorm (0 : 'cV[R]_t) = 0 by rewrite /sqnorm big1 // => i _; rewrite mxE expr0n.
 apply/matrixP => i j; rewrite ord1 [RHS]mxE; apply/eqP; rewrite -sqrf_eq0 eq_le sqr_ge0 andbT.
apply: le_trans le0; rewrite /sqnorm (bigD1 i) //= ler_addl; apply: sumr_ge0 => k _; exact: sqr_ge0.
Qed.

(* C24 *)
Theorem C24_hierarchy_admissible : forall solver rd rd' m K d,
  rd_sized rd m K -> tasks_sized m (r_ts rd) -> r_ts rd <> [::] ->
  nr (r_NwJw rd) = m ->
  (forall i q x, solver i q = Some x -> qp_feasible q x) ->
  CalcTaskControlTorqueHQP solver rd = Some (rd', true) ->
  admissible rd d K (mx_of m 1 (r_grav rd') + mx_of m 1 (r_task rd') + mx_of m 1 (r_con rd')) /\
  r_grav rd' = r_grav rd.
Proof.
move=> solver rd rd' m K d h1 hts nts rW feas; rewrite /CalcTaskControlTorqueHQP.
case e : (hqp_loop _ _ _ _ _ _ _) => [[[[tk tc] l] b]|//] [<- eb]; subst b => /=; split=> //.
have rm : r_m rd = m by case: h1.
have dW : dims (r_NwJw rd) m (6 * K - 6).
  split=> //; move: e nts hts; case: (r_ts rd) => [//|s ts] e _ hts.
  have [[t st] _ _] := hts.
  have [s1 [ok [es sm df [rc cc] [q [eq hq]]]]] :=
    single_ok solver d h1 0 st (proj1 (dims_ident R m)) (let: And5 _ _ _ _ (And4 _ _ dG _) := h1 in dG).
  move: e; rewrite /= rm es.
  case: ok {es} hq => hq; last by [].
  case: (dadd _ _) => // f; case: (dmul _ (t_Lam s1)) => // JL; case: (dmul JL f) => // th.
  case em : (dmul (r_NwJw rd) (t_cqp s1)) => [tc1|//] _.
  by have [-> _] := dmul_some em.
have z1 : mx_of m 1 (dzero R (r_m rd) 1) = 0 by apply/matrixP => i j; rewrite !mxE.
have dz : dims (dzero R (r_m rd) 1) m 1 by rewrite rm.
have [tk' [tc' [l' [b [e' [_ _ [dn [rest [el F2 _ _ [_ hb adm]]]]]]]]]] :=
  loop_spec solver d h1 dW 0 (prev := None) hts z1 dz dz.
rewrite e in e'; case: e' => e1 e2 e3 e4; subst tk' tc' l' b.
apply: adm => //; move: hb e3; case: (dn) => [|s0 dn'] // hr el.
exfalso; move: e; rewrite el hr; case: (r_ts rd) nts => // s ts _ /=.
by case: (CalcSingleTaskTorqueWithQP _ _ _ _ _ _) => // -[s1 []] //; case: (dadd _ _) => // f;
  case: (dmul _ (t_Lam s1)) => // JL; case: (dmul JL f) => // th;
  case: (dmul (r_NwJw rd) (t_cqp s1)) => [tc1|//];
  case: (hqp_loop _ _ _ _ _ _ _) => // -[[[a b] c'] b'].
Qed.

(* C24: what is left behind, success or failure *)
Theorem C24_torque_left_behind : forall solver rd m K,
  rd_sized rd m K -> tasks_sized m (r_ts rd) ->
  let c := (6 * K - 6)%N in
  dims (r_NwJw rd) m c ->
  exists rd' b done rest, [/\ CalcTaskControlTorqueHQP solver rd = Some (rd', b),
    r_ts rd' = done ++ rest /\ List.Forall2 (@same_task R) (take (size done) (r_ts rd)) done,
    mx_of m 1 (r_task rd') = sum_levels 1%:M done,
    mx_of m 1 (r_con rd') = (if done is s :: done' then mx_of m c (r_NwJw rd) *m mx_of c 1 (t_cqp (last s done'))
                             else 0) &
    if b then rest = [::]
    else exists s0 s1, [/\ rest = s1 :: drop (size done).+1 (r_ts rd),
           List.nth_error (r_ts rd) (size done) = Some s0, same_task s0 s1, t_err s1 &
           mx_of (nr (t_fstar s1)) 1 (t_fqp s1) = 0 /\ mx_of c 1 (t_cqp s1) = 0]].
Proof.
move=> solver rd m K h1 hts c dW; rewrite /CalcTaskControlTorqueHQP.
have rm : r_m rd = m by case: h1.
have z1 : mx_of m 1 (dzero R (r_m rd) 1) = 0 by apply/matrixP => i j; rewrite !mxE.
have dz : dims (dzero R (r_m rd) 1) m 1 by rewrite rm.
pose d0 := PContact false 0 0 (1%:M : 'M[R]_3) 0 0 0 0 0.
have [tk' [tc' [l' [b [e' [_ _ [dn [rest [el F2 mt mc [_ hb _]]]]]]]]]] :=
  loop_spec solver d0 h1 dW 0 (prev := None) hts z1 dz dz.
rewrite e'; do 2 eexists; exists dn, rest; split; first by [].
- by [].
- by rewrite /= mt z1 add0r.
- by rewrite /= mc; case: (dn).
- by [].
Qed.

(* C65, refuted: with a single active plane contact NwJw is the m x m zero matrix set by
   CalcContactConstraint (src/dwbc.cpp:471), and the product with the empty contact_qp_ is
   outside its domain, whatever the tasks and the solver's answer *)
Theorem C65_single_support_refuted : forall solver rd m s ts t q x,
  rd_sized rd m 1 -> dims (r_NwJw rd) m m -> (0 < m)%N ->
  r_ts rd = s :: ts -> ts_sized m t s ->
  TaskQP rd s (dident R m) (r_grav rd) = Some q -> solver 0%N q = Some x ->
  CalcTaskControlTorqueHQP solver rd = None.
Proof.
move=> solver rd m s ts t q x h1 [rW cW] mp ets st eq es; rewrite /CalcTaskControlTorqueHQP ets /=.
have rm : r_m rd = m by case: h1.
pose d0 := PContact false 0 0 (1%:M : 'M[R]_3) 0 0 0 0 0.
have dG : dims (r_grav rd) m 1 by case: h1 => _ _ _ _ [].
have [s1 [ok [e1 [ef eJ eL _] df dc [q' [eq' hq]]]]] := single_ok solver d0 h1 0 st (proj1 (dims_ident R m)) dG.
rewrite rm e1; rewrite eq in eq'; case: eq' hq => <-; rewrite es => -[-> _ _ _].
case: (st) => df' dJ dL.
rewrite ef eJ eL.
have [f [-> dff _]] := dadd_mx df' df.
have [JL [-> dJL _]] := dmul_mx dJ dL.
have [th [-> _ _]] := dmul_mx dJL dff.
rewrite /dmul cW (proj1 dc) /=; by case: (m) mp.
Qed.

(* C25 *)
Theorem C25_redistribution_admissible : forall solver slot rd m K d,
  rd_sized rd m K -> (1 < K)%N -> r_cln rd = K ->
  dims (r_task rd) m 1 -> dims (r_con rd) m 1 ->
  (forall q x, solver slot q = Some x -> qp_feasible q x) ->
  exists rd' b, [/\ CalcContactRedistributeHQP solver slot rd = Some (rd', b),
    r_grav rd' = r_grav rd, r_task rd' = r_task rd &
    b -> exists cf : 'cV[R]_(6 * K - 6),
      mx_of m 1 (r_con rd') = mx_of m 1 (r_con rd) + mx_of m (6 * K - 6) (r_NwJw rd) *m cf /\
      admissible rd d K (mx_of m 1 (r_grav rd') + mx_of m 1 (r_task rd') + mx_of m 1 (r_con rd')) /\
      ((forall q x, solver slot q = Some x -> qp_optimal q x) ->
       admissible rd d K (mx_of m 1 (r_grav rd) + mx_of m 1 (r_task rd) + mx_of m 1 (r_con rd)) -> cf = 0)].
Proof.
move=> solver slot rd m K d h1 K2 cl dT dC feas.
have dG : dims (r_grav rd) m 1 by case: h1 => _ _ _ _ [].
have dW : dims (r_NwJw rd) m (6 * K - 6) by case: h1 => _ _ _ _ [_ _ _]; apply.
have rm : r_m rd = m by case: h1.
case: (h1) => _ sK pl _ _; have [tot _] := tot_plane pl; rewrite sK in tot.
rewrite /CalcContactRedistributeHQP.
have [gt [-> dgt mgt]] := dadd_mx dG dT.
have [tin [-> dtin mtin]] := dadd_mx dgt dC.
rewrite /CalcContactRedistributeWith tot; have -> : (0 < 6 * K - 6)%N by lia.
have [q [-> wf hH hg hx]] := RedisQP_ok d h1 K2 cl dtin.
case es : (solver slot q) => [x|]; last by do 2 eexists; split.
have dv : dims (vec (6 * K - 6) x) (6 * K - 6) 1 by [].
have mv : mx_of (6 * K - 6) 1 (vec (6 * K - 6) x) = col_of (6 * K - 6) x.
  by apply/matrixP => i j; rewrite !mxE.
have [Nx [-> dNx mNx]] := dmul_mx dW dv.
have [tc [-> dtc mtc]] := dadd_mx dC dNx.
do 2 eexists; split; [by []|by []|by []|move=> _].
exists (col_of (6 * K - 6) x); rewrite /= mtc mNx mv; split=> //; split.
  have := feas _ _ es => /hx; rewrite /tau_redis mtin mgt.
  by rewrite !addrA.
move=> opt adm; have [_ xo] := opt _ _ es.
have zf : qp_feasible q (fun=> 0).
  apply/hx; rewrite /tau_redis mtin mgt.
  have -> : col_of (6 * K - 6) (fun=> 0) = 0 :> 'cV[R]_(6 * K - 6) by apply/matrixP => i j; rewrite !mxE.
  by rewrite mulmx0 addr0.
have cost y : qp_cost q y = 1 / 2%:R * sqnorm (col_of (6 * K - 6) y).
  case: wf => -[rH cH] [rg cg] _ _ _; rewrite /qp_cost rH cH rg.
  have -> : \sum_(0 <= i < (6 * K - 6)%N) ent (q_g q) i 0 * y i = 0.
    by apply: sum_nat0 => k _; rewrite hg mul0r.
  rewrite addr0; congr (_ * _); rewrite /sqnorm sum_ord; apply: eq_bigr => i _; rewrite mxE.
  rewrite (@sum_window _ i 1%N); [|by have := ltn_ord i; lia|].
    by rewrite big_nat1 addn0 hH eqxx /= mulr1.
  move=> j _ hj; rewrite hH; have -> : (nat_of_ord i == j) = false by apply/eqP => e; move: hj; rewrite -e; lia.
  by rewrite mulr0 mul0r.
have := xo _ zf; rewrite !cost ler_pmul2l; last by rewrite divr_gt0 // ?ltr01 // ltr0n.
have -> : sqnorm (col_of (6 * K - 6) (fun=> 0 : R)) = 0 by rewrite /sqnorm big1 // => i _; rewrite mxE expr0n.
move=> le0; apply/matrixP => i j; rewrite ord1 [RHS]mxE; apply/eqP; rewrite -sqrf_eq0 eq_le sqr_ge0 andbT.
apply: le_trans le0; rewrite /sqnorm (bigD1 i) //= ler_addl; apply: sumr_ge0 => k _; exact: sqr_ge0.
Qed.

(* C25: with at most one active plane contact there is nothing to distribute: the contact torque is
   cleared and everything else is kept, without calling the solver *)
Theorem C25_no_redundancy : forall solver slot rd m K,
  rd_sized rd m K -> (K <= 1)%N -> dims (r_task rd) m 1 -> dims (r_con rd) m 1 ->
  exists rd', [/\ CalcContactRedistributeHQP solver slot rd = Some (rd', true),
    dims (r_con rd') m 1 /\ mx_of m 1 (r_con rd') = 0,
    r_grav rd' = r_grav rd /\ r_task rd' = r_task rd,
    [/\ r_m rd' = r_m rd, r_cc rd' = r_cc rd, r_cln rd' = r_cln rd, r_lset rd' = r_lset rd & r_lim rd' = r_lim rd] &
    [/\ r_NwJw rd' = r_NwJw rd, r_JcT rd' = r_JcT rd, r_PC rd' = r_PC rd & r_ts rd' = r_ts rd]].
Proof.
move=> solver slot rd m K h1 K1 dT dC.
have dG : dims (r_grav rd) m 1 by case: h1 => _ _ _ _ [].
have rm : r_m rd = m by case: h1.
case: (h1) => _ sK pl _ _; have [tot _] := tot_plane pl; rewrite sK in tot.
rewrite /CalcContactRedistributeHQP.
have [gt [-> dgt mgt]] := dadd_mx dG dT.
have [tin [-> dtin mtin]] := dadd_mx dgt dC.
rewrite /CalcContactRedistributeWith tot; have -> : (0 < 6 * K - 6)%N = false by lia.
eexists; split; [by []| |by []|by []|by []].
by rewrite /= rm; split=> //; apply/matrixP => i j; rewrite !mxE.
Qed.

(* C25: a torque change through NwJw leaves the constrained acceleration as it was *)
Theorem C25_acceleration_unchanged : forall K n (A : 'M[R]_(6 + n)) (J : 'M[R]_(6 * K - 6 + 6, 6 + n))
    (G : 'cV[R]_(6 + n)) rb k (V2 : 'M[R]_(k, n)) Nw solver slot rd rd' a f a' f',
  posdef A -> row_free J -> UpdateRobot A J G = Some rb ->
  left_null_basis (cs_W (rb_cs rb)) V2 -> CalculateNwJw (cs_JCinvT (rb_cs rb)) V2 = NwJwOk Nw ->
  rd_sized rd n K -> (1 < K)%N -> r_cln rd = K -> dims (r_task rd) n 1 -> dims (r_con rd) n 1 ->
  mx_of n (6 * K - 6) (r_NwJw rd) = Nw ->
  CalcContactRedistributeHQP solver slot rd = Some (rd', true) ->
  let total r := mx_of n 1 (r_grav r) + mx_of n 1 (r_task r) + mx_of n 1 (r_con r) in
  contact_motion A J G (total rd) a f -> contact_motion A J G (total rd') a' f' -> a' = a.
Proof.
move=> K n A J G rb k V2 Nw solver slot rd rd' a f a' f' pA fJ eu lb eN h1 K2 cl dT dC eW er total.
have [cf mc] : exists cf : 'cV[R]_(6 * K - 6), total rd' = total rd + Nw *m cf.
  move: er; rewrite /CalcContactRedistributeHQP.
  have dG : dims (r_grav rd) n 1 by case: h1 => _ _ _ _ [].
  have dW : dims (r_NwJw rd) n (6 * K - 6) by case: h1 => _ _ _ _ [_ _ _]; apply.
  case: (h1) => _ sK pl _ _; have [tot _] := tot_plane pl; rewrite sK in tot.
  have [gt [-> dgt mgt]] := dadd_mx dG dT.
  have [tin [-> dtin mtin]] := dadd_mx dgt dC.
  rewrite /CalcContactRedistributeWith tot; have -> : (0 < 6 * K - 6)%N by lia.
  case: (RedisQP _ _) => // q; case: (solver slot q) => [x|//].
  have dv : dims (vec (6 * K - 6) x) (6 * K - 6) 1 by [].
  have [Nx [-> dNx mNx]] := dmul_mx dW dv.
  have [tc [-> dtc mtc]] := dadd_mx dC dNx.
  move=> [<-]; exists (mx_of (6 * K - 6) 1 (vec (6 * K - 6) x)).
  by rewrite /total /= mtc mNx eW addrA.
move=> m1 m2; rewrite mc in m2.
by case: (C17_null_torque_changes_internal_force_only pA fJ eu lb eN m1 m2).
Qed.

(* C26, refuted: every failure with a non-zero torque_contact_ changes the command *)
Theorem C26_failure_changes_command_refuted : forall solver slot rd m K,
  rd_sized rd m K -> (1 < K)%N -> r_cln rd = K ->
  dims (r_task rd) m 1 -> dims (r_con rd) m 1 -> (forall q, solver slot q = None) ->
  mx_of m 1 (r_con rd) <> 0 ->
  exists rd', CalcContactRedistributeHQP solver slot rd = Some (rd', false) /\
    let total r := mx_of m 1 (r_grav r) + mx_of m 1 (r_task r) + mx_of m 1 (r_con r) in
    total rd' = mx_of m 1 (r_grav rd) + mx_of m 1 (r_task rd) /\ total rd' <> total rd.
Proof.
move=> solver slot rd m K h1 K2 cl dT dC fail nz.
have dG : dims (r_grav rd) m 1 by case: h1 => _ _ _ _ [].
have rm : r_m rd = m by case: h1.
case: (h1) => _ sK pl _ _; have [tot _] := tot_plane pl; rewrite sK in tot.
rewrite /CalcContactRedistributeHQP.
have [gt [-> dgt mgt]] := dadd_mx dG dT.
have [tin [-> dtin mtin]] := dadd_mx dgt dC.
rewrite /CalcContactRedistributeWith tot; have -> : (0 < 6 * K - 6)%N by lia.
pose d0 := PContact false 0 0 (1%:M : 'M[R]_3) 0 0 0 0 0.
have [q [-> _ _ _ _]] := RedisQP_ok d0 h1 K2 cl dtin.
rewrite fail; eexists; split; first by [].
have z : mx_of m 1 (dzero R (r_m rd) 1) = 0 by apply/matrixP => i j; rewrite !mxE.
rewrite /= z addr0; split=> // e; apply: nz.
by apply: (@addrI _ (mx_of m 1 (r_grav rd) + mx_of m 1 (r_task rd))); rewrite -e addr0.
Qed.
End Props.

(* ---- examples ---- *)
Lemma ex_feasible : exists q, TaskQP exrd extask (dident Q 2) (r_grav exrd) = Some q /\
  qp_feasible q (fun=> 0).
Proof.
have [q [e _ h]] := C22_feasible_iff_admissible (plane1 true) ex_sized ex_ts
  (proj1 (dims_ident Q 2)) (conj erefl erefl : dims (r_grav exrd) 2 1).
exists q; split=> //; apply/h; have := ex_adm; congr (admissible _ _ _ _).
have z n : col_of n (fun=> 0) = 0 :> 'cV[Q]_n by apply/matrixP => i j; rewrite !mxE.
rewrite !z mulmx0 addr0 /level_torque (proj2 (dims_ident Q 2)) mul1mx addr0.
apply/matrixP => i j; rewrite !mxE big_ord1 !mxE big_ord1 !mxE /= mulr1 add0r.
by case: i => -[|[|i]] //= li; rewrite ?mul1r ?mul0r.
Qed.

(* the hypotheses of C22-C24 hold and the loop succeeds on a concrete robot *)
Example QP_ex_success : rd_sized exrd 2 2 /\ ts_sized 2 1 extask /\
  (forall i q x, zsolver i q = Some x -> qp_feasible q x) /\
  exists rd', CalcTaskControlTorqueHQP zsolver exrd = Some (rd', true).
Proof.
split; [exact: ex_sized|split; [exact: ex_ts|split; [exact: zsolver_sound|]]].
have hts : tasks_sized 2 (r_ts exrd).
  by split=> //; exists 1%N; exact: ex_ts.
have [rd' [[] [dn [rest [e _ _ _ h]]]]] :=
  C24_torque_left_behind zsolver ex_sized hts (conj erefl erefl : dims exW 2 (6 * 2 - 6)).
  by exists rd'.
exfalso; move: e h.
have [q [eq fq]] := ex_feasible.
have [s1 [ok [es _ df dc [q' [eq' hq]]]]] := single_ok zsolver (plane1 true) ex_sized 0 ex_ts
   (proj1 (dims_ident Q 2)) (conj erefl erefl : dims (r_grav exrd) 2 1).
rewrite eq in eq'; case: eq' hq => <-.
have [x ->] : exists x, zsolver 0 q = Some x by apply/zsolver_ok.
move=> [eok _ _ _]; rewrite /CalcTaskControlTorqueHQP /= es eok.
case: (dadd _ _) => // f; case: (dmul _ _) => // JL; case: (dmul JL f) => // th.
by case: (dmul _ _).
Qed.

(* an optimal answer exists: the zero vector, whose cost is the least possible *)
Example QP_ex_optimal : exists q x, TaskQP exrd extask (dident Q 2) (r_grav exrd) = Some q /\ qp_optimal q x.
Proof.
have [q [eq fq]] := ex_feasible; exists q, (fun=> 0); split=> //; split=> // y _.
have [q' [eq' wf hH hg _]] := TaskQP_ok (plane1 true) ex_sized ex_ts
  (proj1 (dims_ident Q 2)) (conj erefl erefl : dims (r_grav exrd) 2 1).
rewrite eq in eq'; case: eq' => eqq; subst q'.
rewrite !(@level_cost _ q 1 6) //; apply: ler_wpmul2l => //.
rewrite /sqnorm big1 => [|i _]; last by rewrite mxE expr0n.
by apply: sumr_ge0 => i _; exact: sqr_ge0.
Qed.

Example QP_ex_single_support : rd_sized exrd1 2 1 /\ dims (r_NwJw exrd1) 2 2 /\ r_ts exrd1 = [:: extask] /\
  exists q, TaskQP exrd1 extask (dident Q 2) (r_grav exrd1) = Some q.
Proof.
split; [exact: ex_sized1|do 2 split=> //].
have [q [e _ _]] := C22_feasible_iff_admissible (plane1 true) ex_sized1 ex_ts
  (proj1 (dims_ident Q 2)) (conj erefl erefl : dims (r_grav exrd1) 2 1).
by exists q.
Qed.

Example QP_ex_redistribute : r_cln exrd = 2%N /\ dims (r_task exrd) 2 1 /\ dims (r_con exrd) 2 1 /\
  mx_of 2 1 (r_con exrd) <> 0.
Proof. by do 3 split=> //; move/matrixP/(_ 0 0); rewrite !mxE. Qed.

(* C25_no_redundancy on one foot, whatever the contact torque was *)
Example C25_one_foot_example : forall solver, exists rd',
  CalcContactRedistributeHQP solver 0 exrd1 = Some (rd', true) /\ mx_of 2 1 (r_con rd') = 0.
Proof.
by move=> solver; have [rd' [e [_ z] _ _ _]] := C25_no_redundancy solver 0 ex_sized1 (leqnn 1)
  (conj erefl erefl : dims (r_task exrd1) 2 1) (conj erefl erefl : dims (r_con exrd1) 2 1); exists rd'.
Qed.

(* C25_acceleration_unchanged: two feet, seven joints *)
Example QP_ex_acceleration (G : 'cV[Q]_(6 + (6 + 1))) :
  exists rb k (V2 : 'M[Q]_(k, 6 + 1)) Nw rd rd',
  [/\ UpdateRobot 1%:M (J2 Q : 'M_(6 * 2 - 6 + 6, 6 + (6 + 1))) G = Some rb,
      left_null_basis (cs_W (rb_cs rb)) V2, CalculateNwJw (cs_JCinvT (rb_cs rb)) V2 = NwJwOk Nw &
  [/\ rd_sized rd 7 2, r_cln rd = 2%N, mx_of 7 (6 * 2 - 6) (r_NwJw rd) = Nw &
      CalcContactRedistributeHQP (fun _ _ => Some (fun=> 1)) 0 rd = Some (rd', true)]].
Proof.
have [rb [eu _]] := C12_contact_force_solves_motion G (posdef1 _ _) (J2_free Q).
have [k [V2 hV]] := left_null_basis_ex (cs_W (rb_cs rb)).
have [_ _ /proj2 /(_ (J2_bottom Q)) [Nw eN]] :=
  C16_contact_null_dimension (posdef1 _ _) (J2_free Q) (J2_base Q) eu hV.
pose rd := RD 7 [:: plane1 true; plane1 true] 2 false exlim (of_mx Nw) (dzero Q 12 13) (dzero Q 12 1)
   (dzero Q 7 1) (dzero Q 7 1) (dzero Q 7 1) [::].
have hrd : rd_sized rd 7 2.
  by split=> //; exact: (plane_all [:: true; true]).
exists rb, k, V2, Nw, rd; eexists; split=> //; split=> //; by rewrite /= mx_of_mx.
Qed.

Print Assumptions C22_feasible_iff_admissible.
Print Assumptions C22_success_is_admissible.
Print Assumptions C23_least_modification.
Print Assumptions C24_hierarchy_admissible.
Print Assumptions C24_torque_left_behind.
Print Assumptions C65_single_support_refuted.
Print Assumptions C25_redistribution_admissible.
Print Assumptions C25_acceleration_unchanged.
Print Assumptions C25_no_redundancy.
Print Assumptions C26_failure_changes_command_refuted.
