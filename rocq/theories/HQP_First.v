(* C71 for the other entry point: HQP::solvefirst does use the weights of level 0.
   Also what the setters of a level store. *)
From mathcomp Require Import all_ssreflect all_algebra.
From mathcomp Require Import zify.
From mathcomp.algebra_tactics Require Import ring.
From Verif Require Import LinAlg DMat DMatL Cone_Model QP_Model QP_Spec QP_Loop HQP_Model HQP_Spec HQP_Proofs HQP_Thm.
Set Implicit Arguments.
Unset Strict Implicit.
Unset Printing Implicit Defensive.
Import Order.TTheory GRing.Theory Num.Theory.
Local Open Scope ring_scope.

Section First.
Variable R : realFieldType.
Local Notation dm := (dm R).
Local Notation level := (level R).
Variable n : nat.

(* the weights have the sizes of the level *)
Definition weighted (l : level) : Prop :=
  dims (l_V l) (l_nin l) (l_nin l) /\ dims (l_W l) (l_neq l) (l_neq l).
Definition Vm (l : level) : 'M[R]_(l_nin l) := mx_of _ _ (l_V l).
Definition Wm (l : level) : 'M[R]_(l_neq l) := mx_of _ _ (l_W l).
(* |W(By + b)|^2 + |v|^2 + y'Hy: twice what solvefirst should minimise *)
Definition weighted_objective (l : level) (y : 'cV[R]_n) (v : 'cV[R]_(l_nin l)) : R :=
  sqnorm (Wm l *m (Bm n l *m y + bv l)) + sqnorm v + (if l_cost l then (y^T *m Hm n l *m y) 0 0 else 0).
Arguments weighted_objective : clear implicits.

(* the level above: nothing fixed yet, y = 0 *)
Definition nothing : level := setAns (setZ (initLevel R n 0 0) (dident R n) n) (dzero R n 1) (dzero R 0 1) (dzero R 0 1) (dzero R 0 1).

Lemma mx_ident m : mx_of m m (dident R m) = 1%:M.
Proof. by apply/matrixP => i j; rewrite !mxE. Qed.
Lemma mx_dzero m k : mx_of m k (dzero R m k) = 0.
Proof. by apply/matrixP => i j; rewrite !mxE. Qed.


(* the inequality part of the problem *)
Lemma first_rows (l : level) : shaped n l -> weighted l ->
  let nin := l_nin l in let nv := (n + nin)%N in
  exists q VA Va,
  [/\ (if (0 < nin)%N then
        H <- brcw (dzero R nv nv) nin (dident R nin) ;;
        VA <- dmul (l_V l) (l_A l) ;;
        A1 <- blockw (dzero R nin nv) 0 0 nin n VA ;;
        A2 <- trcw A1 nin (dopp (dident R nin)) ;;
        u <- dmul (dopp (l_V l)) (l_a l) ;;
        ub <- segw (dzero R nin 1) 0 nin u ;;
        Some (OQP H (dzero R nv 1) A2 ub)
      else Some (OQP (dzero R nv nv) (dzero R nv 1) (dzero R nin nv) (dzero R nin 1))) = Some q,
      [/\ dims (o_H q) nv nv, o_g q = dzero R nv 1, dims (o_A q) nin nv & dims (o_ub q) nin 1],
      mx_of nin n VA = Vm l *m Am n l /\ mx_of nin 1 Va = Vm l *m av l,
      forall a b, (a < nv)%N -> (b < nv)%N -> ent (o_H q) a b = if ((n <= a) && (n <= b))%N then (a == b)%:R else 0 &
      forall r : 'I_nin,
      [/\ forall c : 'I_n, ent (o_A q) r c = mx_of nin n VA r c,
          forall c : 'I_nin, ent (o_A q) r (n + c) = - (c == r)%:R & ent (o_ub q) r 0 = - mx_of nin 1 Va r 0]].
Proof.
move=> [_ _ hA _ _] [dV _] nin nv; case: (posnP nin) => [n0|npos].
  exists (OQP (dzero R nv nv) (dzero R nv 1) (dzero R nin nv) (dzero R nin 1)), (dzero R 0 0), (dzero R 0 0); split=> //.
  - by split; apply/matrixP => i; exfalso; move: i; rewrite n0 => -[].
  - move=> a b la lb /=; case: ifP => // /andP[ha]; move: la; rewrite /nv n0; lia.
  by move=> r; exfalso; move: r; rewrite n0 => -[].
have [dA da _] := hA npos.
have dI : dims (dident R nin) nin nin by [].
have [||H1 [e1 d1 E1]] := @blockw_ok R (dzero R nv nv) _ nv nv n n nin nin (conj erefl erefl) dI; [by []..|].
have [VA [e2 d2 m2]] := dmul_mx dV dA.
have [||A1 [e3 d3 E3]] := @blockw_ok R (dzero R nin nv) VA nin nv 0 0 nin n (conj erefl erefl) d2; [by []|by rewrite leq_addr|].
have [||A2 [e4 d4 E4]] := @blockw_ok R A1 _ nin nv 0 n nin nin d3 (dopp_dims dI); [by []..|].
have [u [e5 d5 m5]] := dmul_mx (dopp_dims dV) da.
have [||ub [e6 d6 E6]] := @blockw_ok R (dzero R nin 1) u nin 1 0 0 nin 1 (conj erefl erefl) d5; [by []..|].
have eq1 : (nv - nin = n)%N by rewrite /nv addnK.
exists (OQP H1 (dzero R nv 1) A2 ub), VA, (dopp u); split=> //.
- rewrite /brcw /= leq_addl /= eq1 e1 /= e2 /= e3 /=.
  by rewrite /trcw; have [_ ->] := dims_ex d3; rewrite leq_addl eq1 e4 /= e5 /= /segw e6.
- by split=> //; rewrite dopp_mx m5 dopp_mx mulNmx opprK.
- move=> a b la lb /=; rewrite E1 la lb !andbT; case: ifP => //= /andP[ha hb]; congr (_%:R); apply/eqP/eqP; lia.
move=> r; have lr := ltn_ord r; split=> /=.
- move=> c; have lc := ltn_ord c; rewrite E4 ifF; last by lia.
  rewrite E3 ifT ?subn0; last by lia.
  by rewrite mxE.
- move=> c; have lc := ltn_ord c; rewrite E4 ifT; last by lia.
  by rewrite /= subn0 addKn; congr (- _%:R); rewrite eq_sym.
rewrite E6 ifT ?subn0; last by lia.
by rewrite dopp_mx -(mxE' u r (0 : 'I_1)) [in RHS]mxE opprK.
Qed.

Lemma firstQP_ok (l : level) : shaped n l -> weighted l ->
  exists q VA Va WB Wb, let l' := setBb (setAa l VA Va) WB Wb in
  [/\ firstQP n l = Some q, qp_content n nothing [::] nothing l' q,
      Am n l' = Vm l *m Am n l /\ av l' = Vm l *m av l & Bm n l' = Wm l *m Bm n l /\ bv l' = Wm l *m bv l].
Proof.
move=> sh we; have [q1 [VA [Va [e0 [dH0 eg0 dA0 dub0] [mA ma] EH0 rows]]]] := first_rows sh we.
have [dB db _ dHl _] := sh; have [_ dW] := we.
set nin := l_nin l in e0 dH0 eg0 dA0 dub0 mA ma EH0 rows; set nv := (n + nin)%N in e0 dH0 eg0 dA0 dub0 EH0.
have [WB [e1 d1 m1]] := dmul_mx dW dB.
have [Wb [e2 d2 m2]] := dmul_mx dW db.
have [T2 [e3 d3 m3]] := dmul_mx (dtr_dims d1) d1.
have [Tt [e4 d4 m4]] := dmul_mx (dtr_dims d1) d2.
have ln : (n <= nv)%N by rewrite leq_addr.
have [||H1 [e5 d5 E5]] := @blockw_ok R (o_H q1) T2 nv nv 0 0 n n dH0 d3; [by []..|].
have [|||g1 [e6 d6 E6]] := @blockw_ok R (o_g q1) Tt nv 1 0 0 n 1 _ d4; [by rewrite eg0|by []..|].
have [H' [e7 d7 E7]] : exists H', [/\ (if l_cost l then H0 <- dblock H1 0 0 n n ;; H2 <- dadd H0 (l_H l) ;; blockw H1 0 0 n n H2 else Some H1) = Some H',
    dims H' nv nv & forall a b, ent H' a b = if ((a < n) && (b < n))%N then ent T2 a b + (if l_cost l then ent (l_H l) a b else 0) else ent H1 a b].
  case: (boolP (l_cost l)) => hc; last first.
    exists H1; split=> // a b; case: ifP => // h; rewrite E5 !subn0 ifT ?addr0 //; lia.
  have [||H0 [f3 c3 F3]] := @dblock_ok R H1 nv nv 0 0 n n d5; [by []..|].
  have [rH cH] := dims_ex (dHl hc); have [r0 c0] := dims_ex c3.
  have f4 : dadd H0 (l_H l) = Some (DM (nr H0) (nc H0) (fun i j => ent H0 i j + ent (l_H l) i j)).
    by rewrite /dadd r0 c0 rH cH !eqxx.
  have [||H3 [f5 c5 F5]] := @blockw_ok R H1 (DM (nr H0) (nc H0) (fun i j => ent H0 i j + ent (l_H l) i j)) nv nv 0 0 n n d5 c3; [by []..|].
  exists H3; split=> //; first by rewrite f3 f4.
  move=> a b; rewrite F5 /= !add0n !subn0 F3 !add0n; case: ifP => // h; rewrite E5 !subn0 ifT //; lia.
exists (OQP H' g1 (o_A q1) (o_ub q1)), VA, Va, WB, Wb; split.
- by rewrite /firstQP -/nin -/nv; move: e0; rewrite -/nin -/nv => ->; rewrite e1 e2 e3 e5 e4 /segw e6 e7.
- have BE : Bm n (setBb (setAa l VA Va) WB Wb) = mx_of (l_neq l) n WB by [].
  have bE : bv (setBb (setAa l VA Va) WB Wb) = mx_of (l_neq l) 1 Wb by [].
  have AE : Am n (setBb (setAa l VA Va) WB Wb) = mx_of nin n VA by [].
  have aE : av (setBb (setAa l VA Va) WB Wb) = mx_of nin 1 Va by [].
  split=> //=.
  + apply/matrixP => a b; rewrite mxE.
    case: (split_ordP a) => a' ->; case: (split_ordP b) => b' ->;
      rewrite ?block_mxEul ?block_mxEur ?block_mxEdl ?block_mxEdr E7 E5 /=; have la := ltn_ord a'; have lb := ltn_ord b'.
    * rewrite la lb /= /TT BE /= mx_ident mulmx1 [RHS]mxE -mx_of_tr -m3 mxE; congr (_ + _).
      by case: (l_cost l); rewrite ?trmx1 ?mul1mx ?mulmx1 ?mxE //= mxE.
    * rewrite ifF; last by lia.
      rewrite ifF; last by lia.
      by rewrite EH0 ?ifF ?mxE //; rewrite /nv; lia.
    * rewrite ifF; last by lia.
      rewrite ifF; last by lia.
      by rewrite EH0 ?ifF ?mxE //; rewrite /nv; lia.
    rewrite ifF; last by lia.
    rewrite ifF; last by lia.
    by rewrite EH0 ?ifT ?mxE ?eqn_add2l //; rewrite /nv; lia.
  + apply/matrixP => a b; rewrite mxE ord1; case: (split_ordP a) => a' ->; have la := ltn_ord a'.
      rewrite col_mxEu E6 ifT ?subn0 /=; last by lia.
      rewrite /Tg BE bE /= mx_ident mulmx1 mx_dzero !mulmx0 add0r mxE -mx_of_tr -m4 !mxE.
      by case: (l_cost l); rewrite mxE addr0.
    by rewrite col_mxEd E6 ifF /= ?eg0 ?mxE //; lia.
  move=> r; have [h1 h2 h3] := rows r; split=> [c||].
  + by rewrite h1 AE mx_ident mulmx1.
  + by move=> c; rewrite h2.
  by rewrite h3 aE mx_dzero mulmx0 oppr0 add0r [RHS]mxE.
- by split; [exact: mA|exact: ma].
by split; [exact: m1|exact: m2].
Qed.

(* the call and the problem it hands to the solver *)
Lemma first_problem osqp (l : level) (hs : seq level) (init : bool) :
  shaped n l -> weighted l ->
  exists l', [/\ solvefirst osqp n (l :: hs) init = Some (l' :: hs), same_data l l', forall j, ans_of l' j = osqp 0%N init (osqp_problem l') j,
    [/\ l_Z l' = l_Z l, l_ns l' = l_ns l & shaped n l'] &
    [/\ yv n l' = col_of n (ans_of l'), mx_of (l_nin l) 1 (l_v l') = col_of (l_nin l) (fun c => ans_of l' (n + c)%N) &
    nothing_dropped (l_qA l') -> nothing_dropped (l_qH l') -> (l_cost l -> (Hm n l)^T = Hm n l) -> forall z,
    (oqp_feasible (osqp_problem l') z <-> lec (Vm l *m (Am n l *m col_of n z + av l)) (col_of (l_nin l) (fun c => z (n + c)%N))) /\
    2%:R * oqp_cost (osqp_problem l') z =
    weighted_objective l (col_of n z) (col_of (l_nin l) (fun c => z (n + c)%N)) - weighted_objective l (0 : 'cV[R]_n) (0 : 'cV[R]_(l_nin l))]].
Proof.
move=> sh we; have [q [VA [Va [WB [Wb [eq qc [mA ma] [mB mb]]]]]]] := firstQP_ok sh we.
rewrite /solvefirst eq.
set l1 := setQP l _ _ _ _ _ _; set x := osqp 0%N init (osqp_problem l1).
have [|y [ey dy my]] := @seg_vec R (n + l_nin l) x 0 n; first by rewrite leq_addr.
have [|v [ev dv mv]] := @seg_vec R (n + l_nin l) x n (l_nin l); first by [].
have e1 : tail (vec (n + l_nin l) x) (l_nin l) = Some v by rewrite /tail /= leq_addl addnK.
rewrite ey e1; exists (setAns l1 y v (l_w l1) (vec (n + l_nin l) x)); set l' := setAns _ _ _ _ _.
split=> //; first by split=> //; case: sh => ? ? ? ? _; split.
split; [by rewrite /yv my|by rewrite mv|]; move=> ndA ndH sym.
pose ok (y : 'cV[R]_n) (v : 'cV[R]_(l_nin l)) := lec (Vm l *m (Am n l *m y + av l)) v.
have fE z : oqp_feasible (osqp_problem l') z <-> oqp_feasible q z.
  rewrite /oqp_feasible /=; have E a : (a < nr (o_A q))%N -> rowdot (sparseView (o_A q)) a z = rowdot (o_A q) a z.
    by move=> la; rewrite /rowdot; apply: sum_nat_eq => c lc; rewrite (sparse_id ndA).
  by split=> h a la; have := h a la; rewrite E.
have cE z : oqp_cost (osqp_problem l') z = oqp_cost q z.
  rewrite /oqp_cost; congr (_ * _ + _); apply: sum_nat_eq => a la.
  by apply: sum_nat_eq => c lc; rewrite (sparse_id ndH).
set lw := setBb (setAa l VA Va) WB Wb in qc mA ma mB mb.
have Zi : Zm n nothing = 1%:M by rewrite /Zm mx_ident.
have yi : yv n nothing = 0 by rewrite /yv mx_dzero.
have okE z (t : 'cV[R]_(l_nin l)) : ok z t <-> lec (Am n lw *m z + av lw) t.
  by rewrite /ok mA ma mulmxDr mulmxA.
have feas (z : nat -> R) : oqp_feasible (osqp_problem l') z <-> ok (col_of n z) (col_of (l_nin l) (fun c => z (n + c)%N)).
  rewrite fE (content_feasible qc) okE /= yi Zi mul1mx add0r; split=> [[]//|h]; by split.
have obE y0 v0 : weighted_objective l y0 v0 = level_objective lw y0 v0.
  have t : Bm n lw *m y0 + bv lw = Wm l *m (Bm n l *m y0 + bv l) :> 'cV[R]_(l_neq l) by rewrite mB mb; rewrite -[Wm l *m Bm n l *m y0]mulmxA; symmetry; exact: mulmxDr.
  by rewrite /weighted_objective /level_objective -t.
have cost (z : nat -> R) : 2%:R * oqp_cost (osqp_problem l') z =
    weighted_objective l (col_of n z) (col_of (l_nin l) (fun c => z (n + c)%N)) - weighted_objective l (0 : 'cV[R]_n) (0 : 'cV[R]_(l_nin l)).
  by rewrite cE (content_cost qc) //; rewrite yi Zi !obE add0r (@mul1mx R n 1).
by move=> z; split; [exact: feas|exact: cost].
Qed.

(* C71 for HQP::solvefirst.  The call is defined on data and weights of the announced sizes, leaves
   the user's data of level 0 and all other levels alone, and, when OSQP's answer is optimal (no
   coefficient dropped, symmetric additional cost), its answer minimises |W(By + b)|^2 + |v|^2 (+ y'Hy)
   over all y and v >= V(Ay + a); the slacks are non-negative. *)
Theorem C71_first_level_weighted osqp (l : level) (hs : seq level) (init : bool) :
  shaped n l -> weighted l ->
  exists l', [/\ solvefirst osqp n (l :: hs) init = Some (l' :: hs), same_data l l', forall j, ans_of l' j = osqp 0%N init (osqp_problem l') j &
    nothing_dropped (l_qA l') -> nothing_dropped (l_qH l') -> (l_cost l -> (Hm n l)^T = Hm n l) ->
    oqp_optimal (osqp_problem l') (ans_of l') ->
    let y' := yv n l' in let v' : 'cV[R]_(l_nin l) := mx_of _ _ (l_v l') in
    let ok (y : 'cV[R]_n) (v : 'cV[R]_(l_nin l)) := lec (Vm l *m (Am n l *m y + av l)) v in
    [/\ ok y' v', forall y v, ok y v -> weighted_objective l y' v' <= weighted_objective l y v &
        forall r, 0 <= v' r 0]].
Proof.
move=> sh we; have [l' [e sd an _ [ey' ev' pb]]] := first_problem osqp hs init sh we.
exists l'; split=> // ndA ndH sym opt.
set y' := yv n l'; set v' : 'cV[R]_(l_nin l) := mx_of _ _ (l_v l').
pose ok (y : 'cV[R]_n) (v : 'cV[R]_(l_nin l)) := lec (Vm l *m (Am n l *m y + av l)) v.
cbv zeta; rewrite -/(ok y' v').
have feas z := proj1 (pb ndA ndH sym z); have cost z := proj2 (pb ndA ndH sym z).
rewrite -/y' in ey'; rewrite -/v' in ev'.
have okS : ok y' v' by rewrite ey' ev'; apply/feas; case: opt.
have opt' y0 v0 : ok y0 v0 -> weighted_objective l y' v' <= weighted_objective l y0 v0.
  move=> h; case: opt => _ /(_ (two_parts y0 v0)) opt.
  have := opt; rewrite feas two_parts_u two_parts_v => /(_ h).
  rewrite -(@ler_pmul2l _ 2%:R) ?ltr0n // !cost two_parts_u two_parts_v -ey' -ev'.
  by rewrite ler_add2r.
split=> // r; rewrite leNgt; apply/negP => neg.
pose v0 : 'cV[R]_(l_nin l) := \col_j (if j == r then 0 else v' j 0).
have : ok y' v0.
  move=> j; rewrite [v0 j 0]mxE; case: eqP => [->|_]; last exact: okS.
  exact: le_trans (okS r) (ltW neg).
move/opt'; rewrite /weighted_objective ler_add2r ler_add2l leNgt => /negP; apply.
rewrite /sqnorm [X in _ < X](bigD1 r) // [X in X < _](bigD1 r) //= mxE eqxx expr0n add0r.
rewrite (eq_bigr (fun j => v' j 0 ^+ 2)); last by move=> j /negbTE h; rewrite mxE h.
by rewrite ltr_addr exprn_even_gt0 //= lt_eqF.
Qed.

(* conversely a minimiser is what the solver should return *)
Lemma first_optimal_conv osqp (l l' : level) (hs : seq level) (init : bool) :
  shaped n l -> weighted l -> solvefirst osqp n (l :: hs) init = Some (l' :: hs) ->
  nothing_dropped (l_qA l') -> nothing_dropped (l_qH l') -> (l_cost l -> (Hm n l)^T = Hm n l) ->
  lec (Vm l *m (Am n l *m yv n l' + av l)) (mx_of (l_nin l) 1 (l_v l')) ->
  (forall y v, lec (Vm l *m (Am n l *m y + av l)) v -> weighted_objective l (yv n l') (mx_of _ _ (l_v l')) <= weighted_objective l y v) ->
  oqp_optimal (osqp_problem l') (ans_of l').
Proof.
move=> sh we e ndA ndH sym fe mn; have [l2 [e2 _ _ _ [ey ev pb]]] := first_problem osqp hs init sh we.
have {e2} el : l2 = l' by move: e2; rewrite e => -[].
rewrite {}el in ey ev pb; split; first by apply/(proj1 (pb ndA ndH sym _)); rewrite -ey -ev.
move=> z /(proj1 (pb ndA ndH sym z)) h.
rewrite -(@ler_pmul2l _ 2%:R) ?ltr0n // !(proj2 (pb ndA ndH sym _)) ler_add2r -ey -ev; exact: mn.
Qed.

(* C72, C32: what the setters of a level store, and that they change nothing else *)
Theorem C32_setters_store (l : level) (A a B b H g V W : dm) :
  dims A (l_nin l) n -> dims a (l_nin l) 1 -> dims B (l_neq l) n -> dims b (l_neq l) 1 ->
  dims H n n -> dims g n 1 ->
  exists l1 l2, [/\ updateConstraintMatrix n l A a B b = Some l1, updateCostMatrix n l1 H g = Some l2 &
    let l3 := updateConstraintWeight l2 V W in
    [/\ [/\ Am n l3 = mx_of _ _ A, av l3 = mx_of _ _ a, Bm n l3 = mx_of _ _ B & bv l3 = mx_of _ _ b],
        [/\ l_cost l1 = l_cost l, l_cost l3, Hm n l3 = mx_of _ _ H & gv n l3 = mx_of _ _ g],
        l_V l3 = V /\ l_W l3 = W,
        [/\ l_Z l3 = l_Z l, l_ns l3 = l_ns l, l_y l3 = l_y l, l_v l3 = l_v l & l_w l3 = l_w l] &
        [/\ l_qH l3 = l_qH l, l_qg l3 = l_qg l, l_qA l3 = l_qA l & l_qub l3 = l_qub l]]].
Proof.
move=> [rA cA] [ra ca] [rB cB] [rb cb] [rH cH] [rg cg].
rewrite /updateConstraintMatrix /updateCostMatrix /sized rA cA ra ca rB cB rb cb rH cH rg cg !eqxx /=.
case: (posnP (l_nin l)) => [n0|np] /=; do 2 eexists; (split; [reflexivity|reflexivity|split]) => //.
split=> //; rewrite /Am /av /=; apply/matrixP => i; exfalso; move: i; rewrite /= n0 => -[] //.
Qed.
End First.

(* two measurements -6 and -1 of one variable, the second with weight 2: the weighted least squares
   answer is 2 (without the weights 7/2) *)
Section FirstEx.
Variable R : realFieldType.
Definition f_level : level R :=
  LV 0 2 (dzero R 0 1) (dzero R 0 1) (dzero R 0 0)
     (DM 2 1 (fun _ _ => 1)) (DM 2 1 (fun i _ => if i is 0%N then - 6%:R else - 1))
     (DM 2 2 (fun i j => if i == j then (if i is 0%N then 1 else 2%:R) else 0)) false
     (dzero R 0 0) (dzero R 0 0) (dzero R 1 0) 0 (dzero R 1 1) (dzero R 0 1) (dzero R 2 1)
     (dzero R 0 0) (dzero R 0 1) (dzero R 0 0) (dzero R 0 1) 0 0 (dzero R 0 1).
Definition f_osqp (_ : nat) (_ : bool) (_ : oqp R) (_ : nat) : R := 2%:R.

Lemma f_firstQP : exists q, [/\ firstQP 1 f_level = Some q, dims (o_H q) 1 1 /\ dims (o_g q) 1 1, nr (o_A q) = 0%N /\ nc (o_A q) = 1%N,
  ent (o_H q) 0 0 = 5%:R & ent (o_g q) 0 0 = - 10%:R].
Proof.
eexists; split; [reflexivity|by []|by []| |]; rewrite /= ?big_nat_recl ?big_geq /=; try by []; ring.
Qed.

Example C71_first_level_example : exists l',
  [/\ shaped 1 f_level /\ weighted f_level, solvefirst f_osqp 1 [:: f_level] true = Some [:: l'],
      nothing_dropped (l_qA l') /\ nothing_dropped (l_qH l'), oqp_optimal (osqp_problem l') (ans_of l') &
      yv 1 l' = const_mx 2%:R].
Proof.
have [q [eq [[rH cH] [rg _]] [rA cA] h00 g00]] := f_firstQP.
have k5 : (`|5%:R : R| <= sparse_tol R) = false.
  by rewrite ger0_norm ?ler0n // leNgt; apply/negbTE; rewrite negbK; apply: lt_le_trans (tol_lt1 R) _; rewrite ler1n.
eexists; split; [by []|by rewrite /solvefirst eq /=; reflexivity| | |].
- split=> i j /=; rewrite ?rA // rH cH !ltnS !leqn0 => /eqP-> /eqP->.
  by rewrite h00 k5.
- split=> [i|z _]; first by rewrite /= rA.
  rewrite /oqp_cost /= rH cH rg !big_nat1 h00 g00 k5 /ans_of /= /f_osqp -subr_ge0.
  have -> (t : R) : 1 / 2%:R * (t * 5%:R * t) + - 10%:R * t - (1 / 2%:R * (2%:R * 5%:R * 2%:R) + - 10%:R * 2%:R) =
    1 / 2%:R * 5%:R * (t - 2%:R) ^+ 2 by field.
  by rewrite mulr_ge0 ?sqr_ge0 // mulr_ge0 ?ler0n // mul1r invr_ge0 ler0n.
by apply/matrixP => i j; rewrite !mxE /= ord1.
Qed.
End FirstEx.
Print Assumptions C71_first_level_weighted.
Print Assumptions C32_setters_store.

Section SetEx.
Variable R : realFieldType.
(* one inequality x <= 3, one equality 2 x = 8 *)
Example C32_setters_example : let A := DM 1 1 (fun _ _ => 1 : R) in let a := DM 1 1 (fun _ _ => - 3%:R : R) in
  let B := DM 1 1 (fun _ _ => 2%:R : R) in let b := DM 1 1 (fun _ _ => - 8%:R : R) in
  exists l1, [/\ updateConstraintMatrix 1 (initLevel R 1 1 1) A a B b = Some l1, dims A 1 1 /\ dims b 1 1,
    av l1 = const_mx (- 3%:R) & Bm 1 l1 = const_mx 2%:R].
Proof. by eexists; split; [reflexivity| | |]; try (split; [|]); try apply/matrixP => i j; rewrite ?mxE. Qed.
End SetEx.
