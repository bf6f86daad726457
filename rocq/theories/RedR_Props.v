(* Theorems about the contact redistribution of the reduced model: C55, C95, C96. *)
From mathcomp Require Import all_ssreflect all_algebra.
From mathcomp Require Import zify.
From Verif Require Import DMat DMatL Cone_Model Cone_Spec Cone_Ex QP_Model QP_Spec QP_Proofs QP_Ex Thr_Ex RedR_Model RedR_Spec RedR_Proofs.
Set Implicit Arguments.
Unset Strict Implicit.
Unset Printing Implicit Defensive.
Import Order.TTheory GRing.Theory Num.Theory.
Local Open Scope ring_scope.

Section Props.
Variable R : realFieldType.

(* the reduced torques after the call *)
Definition total (m : nat) (rd : rdata R) : 'cV[R]_m :=
  mx_of m 1 (r_grav rd) + mx_of m 1 (r_task rd) + mx_of m 1 (r_con rd).

(* sizes: K >= 2 active plane contacts, m = reduced_model_dof_, contact_dof_ = 6K entries
   available in both torque vectors *)
Definition rr_sized (rr : rrobot R) (m K : nat) : Prop :=
  [/\ rd_sized (rr_rd rr) m K, (1 < K)%N, dims (r_task (rr_rd rr)) m 1,
      rr_cdof rr = (6 * K)%N & (6 * K <= m)%N /\ (6 * K <= rr_dof rr)%N].

Lemma redis_run solver slot rr m K d : rr_sized rr m K ->
  (forall q x, solver slot q = Some x -> qp_feasible q x) ->
  exists q rr' b, [/\ CalcContactRedistributeR solver slot rr = Some (rr', b),
    exists tin, [/\ RedisQPR (rr_rd rr) tin = Some q, dims tin m 1 &
      mx_of m 1 tin = mx_of m 1 (r_grav (rr_rd rr)) + mx_of m 1 (r_task (rr_rd rr)) /\
      (exists k0, forall x, qp_cost q x = 1 / 2%:R * tangential (rr_rd rr) d K (@tau_redis R (rr_rd rr) m K tin x) + k0) /\
      (forall x, qp_feasible q x <-> admissible_below (rr_rd rr) d K (@tau_redis R (rr_rd rr) m K tin x))],
    rr_rd rr' = with_con (rr_rd rr) (r_con (rr_rd rr')),
    [/\ b = isSome (solver slot q), dims (r_con (rr_rd rr')) m 1 &
    mx_of m 1 (r_con (rr_rd rr')) = (if solver slot q is Some x
       then mx_of m (6 * K - 6) (r_NwJw (rr_rd rr)) *m col_of (6 * K - 6) x else 0)] &
    [/\ rr_dof rr' = rr_dof rr, rr_cdof rr' = rr_cdof rr, dims (rr_tc rr') (rr_dof rr) 1 &
    forall i, (i < rr_dof rr)%N ->
      ent (rr_tc rr') i 0 = if (i < 6 * K)%N then ent (r_con (rr_rd rr')) i 0 else 0]].
Proof.
move=> [h1 K2 dT cd [l1 l2]] feas; set rd := rr_rd rr in h1 dT *.
have dG : dims (r_grav rd) m 1 by case: h1 => _ _ _ _ [].
have dW : dims (r_NwJw rd) m (6 * K - 6) by case: h1 => _ _ _ _ [_ _ _]; apply.
have rm : r_m rd = m by case: h1.
case: (h1) => _ sK pl _ _; have [tot _] := tot_plane pl; rewrite sK in tot.
rewrite /CalcContactRedistributeR cd; have -> : (6 < 6 * K)%N by lia.
have [tin [-> dtin mtin]] := dadd_mx dG dT.
rewrite /CalcContactRedistributeRWith tot; have -> : (0 < 6 * K - 6)%N by lia.
have [q [eq _ hc hx]] := RedisQPR_ok d h1 K2 dtin; rewrite eq.
have wb (tc : dm R) : dims tc m 1 -> exists s w, [/\ seg tc 0 (6 * K) = Some s,
    segw (dzero R (rr_dof rr) 1) 0 (6 * K) s = Some w, dims w (rr_dof rr) 1 &
    forall i, ent w i 0 = if (i < 6 * K)%N then ent tc i 0 else 0].
  move=> [rt ct]; rewrite /seg /dblock rt ct add0n l1 /=; do 2 eexists; split; first by [].
  - by rewrite /segw /blockw /= !eqxx !add0n l2.
  - by [].
  - by move=> i /=; rewrite add0n andbT subn0 add0n.
case es : (solver slot q) => [x|].
  have dv : dims (vec (6 * K - 6) x) (6 * K - 6) 1 by [].
  have mv : mx_of (6 * K - 6) 1 (vec (6 * K - 6) x) = col_of (6 * K - 6) x.
    by apply/matrixP => i j; rewrite !mxE.
  have [Nx [-> dNx mNx]] := dmul_mx dW dv.
  have [s [w [-> -> dw hw]]] := wb Nx dNx.
  exists q; do 2 eexists; split=> //; first by exists tin.
    by rewrite /= es; split=> //; rewrite mNx mv.
have d0 : dims (dzero R (r_m rd) 1) m 1 by split=> //=.
have [s [w [e1 e2 dw hw]]] := wb _ d0; rewrite /= in e1; rewrite /= e1 e2.
exists q; do 2 eexists; split=> //; first by exists tin.
by rewrite es; split=> //; apply/matrixP => i j; rewrite !mxE.
Qed.

(* C55, the part that holds: an answer that meets the constraints of the solver's problem keeps
   every contact in its cone and no joint below its lower limit; on failure the redistribution
   torque is zero.  The inputs are not changed. *)
Theorem C55_lower_limit_partial : forall solver slot rr m K d, rr_sized rr m K ->
  (forall q x, solver slot q = Some x -> qp_feasible q x) ->
  exists rr' b, [/\ CalcContactRedistributeR solver slot rr = Some (rr', b),
    r_grav (rr_rd rr') = r_grav (rr_rd rr), r_task (rr_rd rr') = r_task (rr_rd rr),
    b -> (exists cf, mx_of m 1 (r_con (rr_rd rr')) = mx_of m (6 * K - 6) (r_NwJw (rr_rd rr)) *m cf) /\
         admissible_below (rr_rd rr) d K (total m (rr_rd rr')) &
    ~~ b -> mx_of m 1 (r_con (rr_rd rr')) = 0].
Proof.
move=> solver slot rr m K d sz feas.
have [q [rr' [b [e [tin [eq dt [mt [_ hx]]]] hrd [hb dc mc] _]]]] := redis_run d sz feas.
exists rr', b; split=> //; [by rewrite hrd|by rewrite hrd| |].
  rewrite hb; case es : (solver slot q) => [x|//] _; rewrite es in mc; split; first by exists (col_of _ x).
  have := feas q x es; rewrite hx /tau_redis mt /total mc; rewrite {1 2}hrd.
  by move=> h.
by rewrite hb mc; case: (solver slot q).
Qed.

(* C96: an optimal answer minimises the tangential forces and the moments, in the contact frames,
   over the redistributions meeting the constraints of the problem *)
Theorem C96_least_tangential : forall solver slot rr m K d, rr_sized rr m K ->
  (forall q x, solver slot q = Some x -> qp_optimal q x) ->
  forall rr', CalcContactRedistributeR solver slot rr = Some (rr', true) ->
  forall cf : 'cV[R]_(6 * K - 6),
    let other := mx_of m 1 (r_grav (rr_rd rr)) + mx_of m 1 (r_task (rr_rd rr))
                 + mx_of m (6 * K - 6) (r_NwJw (rr_rd rr)) *m cf in
    admissible_below (rr_rd rr) d K other ->
    tangential (rr_rd rr) d K (total m (rr_rd rr')) <= tangential (rr_rd rr) d K other.
Proof.
move=> solver slot rr m K d sz opt rr' e cf other adm.
have feas q x : solver slot q = Some x -> qp_feasible q x by move=> /opt[].
have [q [rr1 [b [e' [tin [eq dt [mt [[k0 hc] hx]]]] hrd [hb dc mc] _]]]] := redis_run d sz feas.
move: e; rewrite e' => -[e1 e2]; subst b rr1.
move: e2 mc; case es : (solver slot q) => [x|//] _ mc.
have [_ best] := opt q x es.
pose y i := ent (of_mx cf) i 0.
have ey : col_of (6 * K - 6) y = cf.
  by apply/matrixP => i j; rewrite mxE /y ord1 -[0%N]/(val (0 : 'I_1)) of_mxE.
have oE : @tau_redis R (rr_rd rr) m K tin y = other by rewrite /tau_redis mt ey.
have := best y; rewrite hx !hc oE => /(_ adm).
rewrite ler_add2r ler_pmul2l ?divr_gt0 ?ltr01 ?ltr0n //.
by rewrite /tau_redis mt /total mc; rewrite {1 2}hrd.
Qed.

(* C55, also refuted: torque_limit_ has model_dof_ entries, the reduced torques have
   reduced_model_dof_; with limits set the call is undefined unless these agree *)
Theorem C55_limit_size_refuted : forall solver slot (rr : rrobot R) m K,
  size (actives (r_cc (rr_rd rr))) = K -> List.Forall (fun c => p_on c -> plane c) (r_cc (rr_rd rr)) ->
  (1 < K)%N -> rr_cdof rr = (6 * K)%N -> dims (r_grav (rr_rd rr)) m 1 -> dims (r_task (rr_rd rr)) m 1 ->
  r_lset (rr_rd rr) -> nr (r_lim (rr_rd rr)) <> m -> CalcContactRedistributeR solver slot rr = None.
Proof.
move=> solver slot rr m K sK pl K2 cd dG dT ls nl.
have [tot _] := tot_plane pl; rewrite sK in tot.
rewrite /CalcContactRedistributeR cd; have -> : (6 < 6 * K)%N by lia.
have [tin [-> dtin mtin]] := dadd_mx dG dT.
rewrite /CalcContactRedistributeRWith tot; have -> : (0 < 6 * K - 6)%N by lia.
suff -> : RedisQPR (rr_rd rr) tin = None by [].
rewrite /RedisQPR ls.
case: (frame_loop _ _ _ _) => // -[C W]; case: (dmul W C) => // WC; case: (rightCols _ _) => // JR.
case: (dmul WC JR) => // WCJ; case: (dmul WCJ _) => // Ht; case: (dmul _ Ht) => // H.
case: (dmul JR tin) => // Jt; case: (dsub Jt _) => // f0; case: (dmul WC f0) => // v0; case: (dmul _ Ht) => // gT.
rewrite /limit_rows_R; case: (blockw _ _ _ _ _ _) => // A1.
rewrite /dsub /dadd /=; case: dtin => -> ->.
by have -> : (nr (r_lim (rr_rd rr)) == m)%N = false by apply/eqP.
Qed.

(* C95, the part that holds: if the contact joints come first and are contact_dof_ many,
   torque_contact_ is the redistribution torque of the contact joints and zero elsewhere *)
Theorem C95_writeback_partial : forall solver slot rr m K co_dof, rr_sized rr m K ->
  (forall q x, solver slot q = Some x -> qp_feasible q x) ->
  m = (co_dof + 6)%N -> rr_cdof rr = co_dof ->
  exists rr' b, [/\ CalcContactRedistributeR solver slot rr = Some (rr', b),
    dims (rr_tc rr') (rr_dof rr) 1 &
    forall i, (i < rr_dof rr)%N ->
      ent (rr_tc rr') i 0 = if (i < co_dof)%N then ent (r_con (rr_rd rr')) i 0 else 0].
Proof.
move=> solver slot rr m K co sz feas em ec.
have [_ _ _ cd _] := sz.
have [q [rr' [b [e _ _ _ [_ _ dw hw]]]]] := redis_run (PContact false 0 0 0 0 0 0 0 0) sz feas.
by exists rr', b; split=> //; rewrite -ec cd.
Qed.

(* C95: more contact dimensions than reduced torques: out of range *)
Theorem C95_out_of_range_refuted : forall solver slot (rr : rrobot R) m K, rr_cdof rr = (6 * K)%N -> (1 < K)%N ->
  rd_sized (rr_rd rr) m K -> dims (r_task (rr_rd rr)) m 1 -> (m < 6 * K)%N \/ (rr_dof rr < 6 * K)%N ->
  CalcContactRedistributeR solver slot rr = None.
Proof.
move=> solver slot rr m K cd K2 h1 dT lm.
have dG : dims (r_grav (rr_rd rr)) m 1 by case: h1 => _ _ _ _ [].
have dW : dims (r_NwJw (rr_rd rr)) m (6 * K - 6) by case: h1 => _ _ _ _ [_ _ _]; apply.
have rm : r_m (rr_rd rr) = m by case: h1.
case: (h1) => _ sK pl _ _; have [tot _] := tot_plane pl; rewrite sK in tot.
rewrite /CalcContactRedistributeR cd; have -> : (6 < 6 * K)%N by lia.
have [tin [-> dtin mtin]] := dadd_mx dG dT.
rewrite /CalcContactRedistributeRWith tot; have -> : (0 < 6 * K - 6)%N by lia.
have wb (tc : dm R) : dims tc m 1 -> (s <- seg tc 0 (6 * K) ;; segw (dzero R (rr_dof rr) 1) 0 (6 * K) s) = None.
  move=> [rt ct]; rewrite /seg /dblock rt ct add0n leqnn andbT; case: (leqP (6 * K) m) => // lK.
  rewrite /segw /blockw /= !eqxx !add0n /=.
  by have -> : (6 * K <= rr_dof rr)%N = false by case: lm; lia.
case: (RedisQPR _ _) => // q; case: (solver slot q) => [x|].
  have dv : dims (vec (6 * K - 6) x) (6 * K - 6) 1 by [].
  have [Nx [-> dNx mNx]] := dmul_mx dW dv.
  by have := wb Nx dNx; rewrite /=; case: (seg _ _ _) => // s ->.
have d0 : dims (dzero R (r_m (rr_rd rr)) 1) m 1 by split=> //=.
by have := wb _ d0; rewrite /=; case: (seg _ _ _) => // s ->.
Qed.
End Props.

(* Two plane contacts that press with 10; the first one also carries a sideways force of 2, which
   torque 2 at joint 0 would remove; the redistribution moves joints 0 and 6 together.  Twelve
   reduced torques: six contact joints and the six of the virtual joint.  Limits are 1. *)
Definition wJ : dm Q := DM 12 18 (fun i j => ((i == 0%N) && (j == 6%N))%:R).
Definition wP : dm Q := DM 12 1 (fun i _ => if (i == 0)%N then 2%:R else if (i %% 6 == 2)%N then 10%:R else 0).
Definition wW : dm Q := DM 12 6 (fun i j => (((i == 0) || (i == 6)) && (j == 0))%N%:R).
Definition wlim : dm Q := DM 12 1 (fun _ _ => 1).
Definition wrd : rdata Q :=
  RD 12 [:: plane1 true; plane1 false; plane1 true] 2 true wlim wW wJ wP
     (dzero Q 12 1) (dzero Q 12 1) (dzero Q 12 1) [::].
Definition wrr : rrobot Q := RR wrd 12 12 (dzero Q 12 1).
Definition wx : nat -> Q := fun j => if j == 0%N then 2%:R else 0.

Lemma w_sized : rr_sized wrr 12 2.
Proof. by split=> //; split=> //; first exact: (plane_all [:: true; false; true]). Qed.

Lemma w_force (tau : 'cV[Q]_12) (j : nat) : (j < 12)%N -> contact_force wrd 2 tau j =
  (if j == 0%N then tau 0 0 else 0) - (if (j == 0)%N then 2%:R else if (j %% 6 == 2)%N then 10%:R else 0).
Proof.
move=> lj; rewrite /contact_force (of_mxO _ (lj : (j < 6 * 2)%N) (isT : (0 < 1)%N)) [LHS]mxE.
rewrite [(- mx_of _ _ _) _ _]mxE [mx_of _ 1 _ _ _]mxE /=; congr (_ - _).
rewrite mxE big_split_ord big1 => [|k _]; last by rewrite col_mxEu [X in _ * X]mxE mulr0.
rewrite /= add0r (bigD1 (0 : 'I_12)) //= big1 => [|k nk]; last first.
  by rewrite mxE /= (_ : (6 + k == 6)%N = false) ?andbF ?mul0r //; apply/eqP => h; case/eqP: nk; apply: val_inj => /=; lia.
rewrite addr0 col_mxEd [mx_of _ _ _ _ _]mxE /= andbT (_ : @Ordinal 1 0 isT = 0); last exact: val_inj.
by case: (j == 0%N); rewrite ?mul1r ?mul0r.
Qed.

Lemma w_cone (tau : 'cV[Q]_12) (k : nat) : `|tau 0 0 - 2%:R| <= 5%:R -> (k < 2)%N ->
  in_cone (nth (plane1 true) (actives (r_cc wrd)) k)
    (blk3 (contact_force wrd 2 tau) (6 * k)) (blk3 (contact_force wrd 2 tau) (6 * k + 3)).
Proof.
move=> h lk; have -> : nth (plane1 true) (actives (r_cc wrd)) k = plane1 true by case: k lk => [|[|]].
rewrite /in_cone /= trmx1 !mul1mx /vx /vy /vz !mxE !w_force; case: k lk => [|[|]] //.
Qed.

Lemma w_tangential (tau : 'cV[Q]_12) : tangential wrd (plane1 true) 2 tau = (tau 0 0 - 2%:R) ^+ 2.
Proof.
rewrite /tangential !big_nat_recr //= big_geq // add0r /tangential1 /= trmx1 !mul1mx /vx /vy /vz !mxE !w_force //=.
have -> : (0 - 0) ^+ 2 = 0 :> Q by apply/eqP.
by rewrite !addr0.
Qed.

Lemma w_tau (tin : dm Q) : mx_of 12 1 tin = mx_of 12 1 (r_grav wrd) + mx_of 12 1 (r_task wrd) ->
  forall (i : 'I_12), @tau_redis Q wrd 12 2 tin wx i 0 = if ((i == 0 :> nat) || (i == 6 :> nat))%N then 2%:R else 0.
Proof.
move=> mt i; rewrite /tau_redis mt !mxE /= !add0r (bigD1 (0 : 'I_6)) //= big1 ?addr0; last first.
  by move=> k nk; rewrite !mxE /= (_ : (k == 0 :> nat)%N = false) ?andbF ?mul0r //; apply/eqP=> h; case/eqP: nk; apply: val_inj.
by rewrite !mxE /= andbT; case: ifP; rewrite ?mul1r ?mul0r.
Qed.

(* C55, refuted: the input torque (zero) is within both limits and the solver's answer is the
   optimum of the problem it was given, yet the total torque exceeds the upper limit of joint 0;
   the rows of the upper limits are overwritten by those of the lower limits *)
Theorem C55_upper_limit_refuted : exists solver rr rr' m K d q x i,
  [/\ rr_sized (rr : rrobot Q) m K /\ CalcContactRedistributeR solver 0 rr = Some (rr', true),
      (forall q x, solver 0%N q = Some x -> qp_feasible q x),
      [/\ (exists tin, mx_of m 1 tin = mx_of m 1 (r_grav (rr_rd rr)) + mx_of m 1 (r_task (rr_rd rr))
            /\ RedisQPR (rr_rd rr) tin = Some q), solver 0%N q = Some x & qp_optimal q x],
      admissible (rr_rd rr) d K (mx_of m 1 (r_grav (rr_rd rr)) + mx_of m 1 (r_task (rr_rd rr))) &
      r_lset (rr_rd rr) /\ ent (r_lim (rr_rd rr)) (i : 'I_m) 0 < total m (rr_rd rr') i 0].
Proof.
have [q [rr' [b [e [tin [eq dt [mt [[k0 hc] hx]]]] hrd [hb dc mc] _]]]] :=
  redis_run (plane1 true) w_sized (@xsolver_sound wx 0).
have fx : qp_feasible q wx.
  rewrite hx; split=> [_ i|k lk]; first by rewrite (w_tau mt); case: ifP.
  by apply: w_cone => //; rewrite (w_tau mt).
have sx := xsolver_ok 0 fx; rewrite sx /= in hb mc; subst b.
exists (xsolver wx), wrr, rr', 12%N, 2%N, (plane1 true), q, wx, 0; split=> //.
- by split=> //; exact: w_sized.
- exact: xsolver_sound.
- split=> //; first by exists tin.
  split=> // y _; rewrite !hc ler_add2r ler_pmul2l ?divr_gt0 ?ltr01 ?ltr0n // !w_tangential (w_tau mt) /= subrr expr0n /=.
  exact: sqr_ge0.
- split=> [_ i|k lk]; first by rewrite !mxE.
  by apply: w_cone => //; rewrite !mxE.
split=> //; have := w_tau mt 0; rewrite /tau_redis mt /total mc; rewrite {1 2}hrd => /= ->.
by [].
Qed.

(* C95, refuted: six contact joints but contact_dof_ = 12: the torque of the virtual joint
   (index 6 of the reduced torques) is written to joint 6 of the robot, not a contact joint *)
Theorem C95_writeback_refuted : exists solver rr rr' m K co_dof i,
  [/\ rr_sized (rr : rrobot Q) m K, m = (co_dof + 6)%N,
      forall q x, solver 0%N q = Some x -> qp_feasible q x,
      CalcContactRedistributeR solver 0 rr = Some (rr', true) &
      [/\ (co_dof <= i)%N, (i < rr_dof rr)%N & ent (rr_tc rr') i 0 != 0]].
Proof.
have [q [rr' [b [e [tin [eq dt [mt [_ hx]]]] hrd [hb dc mc] [_ _ _ hw]]]]] :=
  redis_run (plane1 true) w_sized (@xsolver_sound wx 0).
have fx : qp_feasible q wx.
  rewrite hx; split=> [_ i|k lk]; first by rewrite (w_tau mt); case: ifP.
  by apply: w_cone => //; rewrite (w_tau mt).
have sx := xsolver_ok 0 fx; rewrite sx /= in hb mc; subst b.
exists (xsolver wx), wrr, rr', 12%N, 2%N, 6%N, 6%N; split=> //.
- exact: w_sized.
- exact: xsolver_sound.
split=> //; rewrite hw //=.
have := w_tau mt (@Ordinal 12 6 isT); rewrite /tau_redis mt -mc /=.
have -> : mx_of 12 1 (dzero Q 12 1) + mx_of 12 1 (dzero Q 12 1) = 0 by apply/matrixP => i j; rewrite !mxE.
by rewrite add0r mxE => ->.
Qed.

(* C55_lower_limit_partial, C96: the robot above *)
Example redistribute_ex : exists rr', CalcContactRedistributeR (xsolver wx) 0 wrr = Some (rr', true).
Proof.
have [q [rr' [b [e [tin [eq dt [mt [_ hx]]]] hrd [hb dc mc] _]]]] :=
  redis_run (plane1 true) w_sized (@xsolver_sound wx 0).
have fx : qp_feasible q wx.
  rewrite hx; split=> [_ i|k lk]; first by rewrite (w_tau mt); case: ifP.
  by apply: w_cone => //; rewrite (w_tau mt).
by rewrite hb (xsolver_ok 0 fx) in e; exists rr'.
Qed.
(* C95_writeback_partial: twelve contact joints *)
Definition w18 : rdata Q :=
  RD 18 [:: plane1 true; plane1 false; plane1 true] 2 false wlim (DM 18 6 (fun i j => (i == j)%:R))
     (DM 12 24 (fun i j => (i + 6 == j)%N%:R)) (DM 12 1 (fun i _ => if (i %% 6 == 2)%N then 10%:R else 0))
     (dzero Q 18 1) (dzero Q 18 1) (dzero Q 18 1) [::].
Example w18_sized : rr_sized (RR w18 20 12 (dzero Q 20 1)) 18 2 /\ 18%N = (12 + 6)%N.
Proof. by split=> //; split=> //; split=> //; first exact: (plane_all [:: true; false; true]). Qed.
(* C55_limit_size_refuted: twelve reduced torques, limits for the fourteen joints of the robot *)
Example limit_size_ex : forall solver, CalcContactRedistributeR solver 0
  (RR (RD 12 [:: plane1 true; plane1 true] 2 true (DM 14 1 (fun _ _ => 1)) wW wJ wP
     (dzero Q 12 1) (dzero Q 12 1) (dzero Q 12 1) [::]) 14 12 (dzero Q 14 1)) = None.
Proof. by move=> solver; apply: (@C55_limit_size_refuted _ _ _ _ 12 2) => //; exact: (plane_all [:: true; true]). Qed.
(* C95_out_of_range_refuted: two feet, five contact joints *)
Example out_of_range_ex : forall solver, CalcContactRedistributeR solver 0
  (RR (RD 11 [:: plane1 true; plane1 true] 2 false wlim (DM 11 6 (fun i j => (i == j)%:R)) (DM 12 17 (fun _ _ => 1)) wP
     (dzero Q 11 1) (dzero Q 11 1) (dzero Q 11 1) [::]) 14 12 (dzero Q 14 1)) = None.
Proof.
move=> solver; apply: (@C95_out_of_range_refuted _ _ _ _ 11 2) => //; last by left.
by split=> //; exact: (plane_all [:: true; true]).
Qed.

Print Assumptions C55_lower_limit_partial.
Print Assumptions C55_upper_limit_refuted.
Print Assumptions C55_limit_size_refuted.
Print Assumptions C95_writeback_partial.
Print Assumptions C95_writeback_refuted.
Print Assumptions C95_out_of_range_refuted.
Print Assumptions C96_least_tangential.
