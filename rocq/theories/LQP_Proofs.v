(* Proofs about the LQP configuration. *)
From mathcomp Require Import all_ssreflect all_algebra.
From mathcomp Require Import zify.
From mathcomp.algebra_tactics Require Import ring.
From Verif Require Import LinAlg DMat DMatL Cone_Model Cone_Spec Cone_Props QP_Model QP_Spec HQP_Model HQP_Spec HQP_Proofs HQP_Thm HQP_Ex HQP_Props LQP_Model LQP_Spec.
Set Implicit Arguments.
Unset Strict Implicit.
Unset Printing Implicit Defensive.
Import Order.TTheory GRing.Theory Num.Theory.
Local Open Scope ring_scope.

Section LQPProofs.
Variable R : rcfType.
Local Notation dm := (dm R).
Local Notation level := (level R).
Local Notation d0 := (initLevel R 0 0 0).

Lemma dblockE (M : dm) i j h w : (i + h <= nr M)%N -> (j + w <= nc M)%N ->
  dblock M i j h w = Some (DM h w (fun a b => ent M (i + a) (j + b))).
Proof. by move=> h1 h2; rewrite /dblock h1 h2. Qed.

Lemma blockwE (M : dm) i j h w B : nr B = h -> nc B = w -> (i + h <= nr M)%N -> (j + w <= nc M)%N ->
  blockw M i j h w B = Some (DM (nr M) (nc M) (fun a b =>
         if ((i <= a < i + h) && (j <= b < j + w))%N then ent B (a - i) (b - j) else ent M a b)).
Proof. by move=> <- <- h1 h2; rewrite /blockw !eqxx h1 h2. Qed.

Lemma base_rows_ok (D : lqdata R) m c : lq_ok D m c ->
  exists B b, [/\ base_rows D = Some (B, b), dims B 6 (6 + m + c), dims b 6 1 &
    forall x r, (r < 6)%N -> rowdot B r x + ent b r 0 = genforce D x r].
Proof.
case: D => nv mm cc A Ai G J [/= -> -> -> [rA cA] [_ [rG cG] [rJ cJ]]].
rewrite /base_rows /topRows /seg /segw /=.
rewrite (@dblockE A) ?rA ?cA //= blockwE //=; last by lia.
rewrite dblockE /= ?rJ ?cJ // blockwE //= ?rJ // dblockE ?rG ?cG // blockwE //.
do 2 eexists; split; [by []|by []|by []|].
move=> x r r6; rewrite /genforce /rowdot /= subn0 r6 /=; congr (_ + _).
rewrite sum_split; congr (_ + _); apply: sum_nat_eq => j lj.
  have -> : ((6 + m <= j < 6 + m + c) = false)%N by lia.
  by rewrite lj /= subn0.
have -> : (6 + m <= 6 + m + j < 6 + m + c)%N by lia.
by rewrite addKn !add0n.
Qed.

Lemma torque_rows_ok (D : lqdata R) m c (tl : nat -> R) : lq_ok D m c ->
  exists A a, [/\ torque_rows D (DM m 1 (fun i _ => tl i)) = Some (A, a), dims A (m * 2) (6 + m + c), dims a (m * 2) 1 &
    forall x r, (r < m)%N ->
      rowdot A r x + ent a r 0 = torque D x r - tl r /\
      rowdot A (m + r) x + ent a (m + r)%N 0 = - torque D x r - tl r].
Proof.
case: D => nv mm cc A Ai G J [/= -> -> -> [rA cA] [_ [rG cG] [rJ cJ]]].
rewrite /torque_rows /bottomRows /tail /tailw /seg /segw /= rA cA rG rJ cJ.
rewrite leq_addl dblockE ?rA ?cA //=; last by lia.
rewrite blockwE //=; [|lia..]. rewrite dblockE /= ?cJ ?rJ //=; last by lia.
rewrite blockwE //=; last by lia. rewrite blockwE //=; [|lia..]. rewrite blockwE //=; last by lia.
rewrite dblockE ?rG ?cG //=; last by lia.
rewrite /dsub /dadd /= !eqxx /= blockwE //=; last by lia.
rewrite ifT /=; last by lia.
rewrite blockwE //=; last by lia.
do 2 eexists; split; [by []|by []|by []|].
move=> x r rm; rewrite /torque /genforce /rowdot /= !(sum_split (6 + m) c).
have -> : (m * 2 - m = m)%N by lia.
have -> : (6 + m - m = 6)%N by lia.
have f1 : (m <= r)%N = false by lia.
have f2 : (m + r < m + m)%N by lia.
have f4 : (m + r < m)%N = false by lia.
rewrite rm f1 f2 /= leq_addr subn0 addKn /= !add0n.
set SA := \sum_(0 <= j < 6 + m) ent A _ _ * _; set SJ := \sum_(0 <= j < c) ent J _ _ * _.
split.
  have scal (a b g t a' b' g' : R) : a' = a -> b' = b -> g' = g -> a' + b' + (- t + g') = a + b + g - t.
    by move=> -> -> ->; rewrite [- t + g]addrC addrA.
  apply: scal => //; apply: sum_nat_eq => j lj.
    have -> : ((6 + m <= j < 6 + m + c) = false)%N by lia.
    by rewrite lj /= subn0.
  have -> : (6 + m <= 6 + m + j < 6 + m + c)%N by lia.
  by rewrite /= addKn.
have scal (a b g t a' b' g' : R) : a' = - a -> b' = - b -> g' = g -> a' + b' + (- t - g') = - (a + b + g) - t.
  by move=> -> -> ->; rewrite !opprD [- t - g]addrC addrA.
apply: scal => //; rewrite -sumrN; apply: sum_nat_eq => j lj.
  have -> : ((6 + m <= j < 6 + m + c) = false)%N by lia.
  by rewrite lj /= mulNr subn0.
have -> : (6 + m <= 6 + m + j < 6 + m + c)%N by lia.
by rewrite /= mulNr addKn.
Qed.

(* the rows of priority 2 *)
Lemma contact_rows_ok (D : lqdata R) m c (C : dm) ccs : lq_ok D m c -> dims C ccs c ->
  exists A a, [/\ contact_rows D C ccs = Some (A, a), dims A (ccs + m * 2) (6 + m + c), dims a (ccs + m * 2) 1 &
    forall x, (forall r, (r < ccs)%N -> rowdot A r x + ent a r 0 = rowdot C r (fun j => x (6 + m + j)%N)) /\
      (forall r, (r < m)%N -> rowdot A (ccs + r) x + ent a (ccs + r)%N 0 = x (6 + r)%N - 5%:R /\
                             rowdot A (ccs + m + r) x + ent a (ccs + m + r)%N 0 = - x (6 + r)%N - 5%:R)].
Proof.
case: D => nv mm cc A Ai G J [/= -> -> -> _ _] [rC cC].
rewrite /contact_rows /segw /=.
rewrite blockwE //=; last by lia. rewrite blockwE //=; [|lia..]. rewrite blockwE //=; [|lia..].
rewrite blockwE //=; last by lia. rewrite blockwE //=; last by lia.
do 2 eexists; split; [by []|by []|by []|].
move=> x; split=> r rm.
  rewrite /rowdot /= cC.
  have -> : ((ccs + m <= r) = false)%N by lia.
  have -> : ((ccs <= r) = false)%N by lia.
  rewrite /= addr0 rm (@sum_window _ (6 + m) c) //; last first.
    by move=> j _ /negbTE ->; rewrite mul0r.
  apply: sum_nat_eq => j lj.
  have -> : (6 + m <= 6 + m + j < 6 + m + c)%N by lia.
  by rewrite subn0 addKn.
have one (k : nat) (f : nat -> R) : (k < 6 + m + c)%N -> (forall j, (j < 6 + m + c)%N -> j <> k -> f j = 0) ->
    \sum_(0 <= j < 6 + m + c) f j = f k.
  move=> lk h; rewrite (@sum_window _ k 1) ?big_nat1 ?addn0 //; first by lia.
  by move=> j lj out; apply: h => // e; move: out; rewrite e; lia.
rewrite /rowdot /=; split.
  have -> : ((ccs + m <= ccs + r) = false)%N by lia.
  have -> : ((ccs <= ccs + r < ccs + m))%N by lia.
  rewrite (one (6 + r)%N); [|lia|].
    by rewrite ltn_add2l rm /= !addKn eqxx mul1r.
  move=> j lj jk; rewrite /=; case: ifP => h.
    have -> : ((ccs + r - ccs == j - 6) = false)%N by lia.
    by rewrite /= ?mulr0n mul0r.
  have -> : ((ccs + r < 0 + ccs) = false)%N by lia.
    by rewrite mul0r.
have -> : ((ccs + m <= ccs + m + r < ccs + m + m))%N by lia.
rewrite (one (6 + r)%N); [|lia|].
  by rewrite ltn_add2l rm /= !addKn eqxx mulN1r.
move=> j lj jk; rewrite /=; case: ifP => h.
  have -> : ((ccs + m + r - (ccs + m) == j - 6) = false)%N by lia.
    by rewrite /= ?mulr0n oppr0 mul0r.
have -> : ((ccs + m + r < ccs + m) = false)%N by lia.
have -> : ((ccs + m + r < 0 + ccs) = false)%N by lia.
by rewrite !andbF /= mul0r.
Qed.

(* a Jacobian in the acceleration columns *)
Lemma jac_rows_ok (J : dm) k nv c : dims J k nv ->
  exists B, [/\ blockw (dzero R k (nv + c)) 0 0 k nv J = Some B, dims B k (nv + c) &
    forall x r, (r < k)%N -> rowdot B r x = accel nv J x r].
Proof.
case=> rJ cJ; rewrite blockwE //=; last by rewrite leq_addr.
eexists; split; [by []|by []|] => x r rk; rewrite /rowdot /accel /= rk /=.
rewrite (@sum_window _ 0 nv) ?add0n ?leq_addr //; last first.
  by move=> j _; rewrite /= => /negbTE h; rewrite h mul0r.
by apply: sum_nat_eq => j lj; rewrite !add0n lj /= !subn0.
Qed.

Lemma abs_both (t l : R) : (`|t| <= l) <-> (t - l <= 0 /\ - t - l <= 0).
Proof.
rewrite ler_norml !subr_le0 ler_oppl.
by split=> [/andP[-> ->]|[-> ->]].
Qed.

Lemma updAt_last (hs : seq level) l i f l' : i = size hs -> f l = Some l' ->
  updAt (rcons hs l) i f = Some (rcons hs l').
Proof.
move=> -> e; rewrite /updAt size_rcons ltnSn nth_rcons ltnn eqxx e; congr Some.
by rewrite set_nthE size_rcons ltnSn -cats1 take_size_cat // drop_oversize ?size_cat ?addn1 // cats1.
Qed.

Lemma norm_kept (l : level) : let l' := normalizeConstraintMatrix l in
  [/\ l_y l' = l_y l, l_v l' = l_v l, l_cost l' = l_cost l & l_H l' = l_H l].
Proof. by rewrite /normalizeConstraintMatrix; case: ifP. Qed.

Lemma upd_ok n nin neq (A a B b : dm) : dims A nin n -> dims a nin 1 -> dims B neq n -> dims b neq 1 ->
  exists l1, [/\ updateConstraintMatrix n (initLevel R n nin neq) A a B b = Some l1, shaped n l1,
     l_nin l1 = nin /\ l_neq l1 = neq,
     (forall x, (forall r, (r < nin)%N -> rowdot (l_A l1) r x + ent (l_a l1) r 0 <= 0) <->
                (forall r, (r < nin)%N -> rowdot A r x + ent a r 0 <= 0)) &
     [/\ l_B l1 = B, l_b l1 = b, l_y l1 = dzero R n 1, l_v l1 = (if (0 < nin)%N then dzero R nin 1 else dzero R 0 1)
      & l_cost l1 = false]].
Proof.
move=> [rA cA] [ra ca] [rB cB] [rb cb]; rewrite /updateConstraintMatrix /= /sized rA cA ra ca rB cB rb cb !eqxx /=.
case: (posnP nin) => [n0|np] /=; eexists; split; try by [].
- by split=> //=; rewrite n0.
- by move=> x; rewrite n0; split=> _ r.
- by rewrite /= n0.
- by split=> //=; rewrite np.
- by rewrite /= np.
Qed.

(* a level filled in from scratch: constraints, optionally a cost, then normalised *)
Lemma level_ok n nin neq (A a B b : dm) (P Q : (nat -> R) -> Prop) :
  dims A nin n -> dims a nin 1 -> dims B neq n -> dims b neq 1 ->
  (forall x, (forall r, (r < neq)%N -> rowdot B r x + ent b r 0 = 0) <-> P x) ->
  (forall x, (forall r, (r < nin)%N -> rowdot A r x + ent a r 0 <= 0) <-> Q x) ->
  exists l1, [/\ updateConstraintMatrix n (initLevel R n nin neq) A a B b = Some l1, l_cost l1 = false &
    let l2 := normalizeConstraintMatrix l1 in
    [/\ shaped n l2, l_nin l2 = nin /\ l_neq l2 = neq, means_eq l2 P, means_ineq l2 Q & l_y l2 = dzero R n 1] /\
    forall H, dims H n n -> exists l3, [/\ updateCostMatrix n l1 H (dzero R n 1) = Some l3 &
      let l4 := normalizeConstraintMatrix l3 in
      [/\ shaped n l4, l_nin l4 = nin /\ l_neq l4 = neq, means_eq l4 P, means_ineq l4 Q & l_cost l4 /\ l_H l4 = H]]].
Proof.
move=> dA da dB db eP eQ; have [l1 [e sh [ni ne] inE [eB eb ey ev ec]]] := upd_ok dA da dB db.
exists l1; split=> // l2; split.
  have [sh2 [n1 n2] i2 e2 _] := C33_normalisation sh.
  have [y2 _ _ _] := norm_kept l1.
  split=> //; rewrite -/l2 in n1 n2 i2 e2 y2 *; [by rewrite n1 n2 ni ne| | |by rewrite y2].
    by move=> x; rewrite n2 e2 ne eB eb.
  by move=> x; rewrite n1 i2 ni inE.
move=> H dH; case: (dH) => rH cH; pose l3 := setCost l1 H (dzero R n 1).
exists l3; split; first by rewrite /updateCostMatrix /sized rH cH !eqxx.
move=> l4; have sh3 : shaped n l3 by case: sh => ? ? ? _ ?; split.
have [sh4 [n1 n2] i2 e2 _] := C33_normalisation sh3.
have [_ _ c4 h4] := norm_kept l3.
rewrite -/l4 in sh4 n1 n2 i2 e2 c4 h4 *; split=> //.
- by rewrite n1 n2 ni ne.
- by move=> x; rewrite n2 e2 /= ne eB eb.
- by move=> x; rewrite n1 i2 /= ni inE.
Qed.

Lemma lq_vars (D : lqdata R) m c : lq_ok D m c -> (d_nv D + d_c D)%N = (6 + m + c)%N.
Proof. by case=> -> _ ->. Qed.

(* A qdd + G at qdd = - A^-1 G *)
Lemma first_answer (D : lqdata R) m c : lq_ok D m c ->
  exists y0, [/\ dmul (dopp (d_Ainv D)) (d_G D) = Some y0, dims y0 (6 + m) 1 &
    forall i, ent y0 i 0 = - rowdot (d_Ainv D) i (fun j => ent (d_G D) j 0)].
Proof.
case: D => nv mm cc A Ai G J [/= _ _ _ _ [[ri ci] [rG cG] _]].
rewrite /dmul /= ci rG eqxx; eexists; split; [by []|by rewrite /dims /= ri cG|].
move=> i; rewrite /rowdot /= -sumrN ci; apply: sum_nat_eq => j _; exact: mulNr.
Qed.

Lemma priority1_ok (D : lqdata R) m c (tl : nat -> R) : lq_ok D m c ->
  exists l, [/\ priority1 D (DM m 1 (fun i _ => tl i)) [::] = Some [:: l], shaped (6 + m + c) l,
    l_nin l = (m * 2)%N /\ l_neq l = 6%N,
    means_eq l (base_dynamics D) &
    [/\ means_ineq l (fun x => forall r, (r < m)%N -> `|torque D x r| <= tl r),
        forall r, ent (l_v l) r 0 = 0 &
        forall i, answer l i = if (i < 6 + m)%N then - rowdot (d_Ainv D) i (fun j => ent (d_G D) j 0) else 0]].
Proof.
move=> ok; have nE := lq_vars ok; have [nvE mE cE _ _] := ok.
have [B [b [eB dB db hB]]] := base_rows_ok ok.
have [A [a [eA dA da hA]]] := torque_rows_ok tl ok.
have [y0 [ey [ry cy] hy]] := first_answer ok.
rewrite /priority1 eB eA ey nE mE nvE /=.
have PE x : (forall r, (r < 6)%N -> rowdot B r x + ent b r 0 = 0) <-> base_dynamics D x.
  by split=> h r lr; have := h r lr; rewrite hB.
have QE x : (forall r, (r < m * 2)%N -> rowdot A r x + ent a r 0 <= 0) <-> (forall r, (r < m)%N -> `|torque D x r| <= tl r).
  split=> h r lr.
    have [h1 h2] := hA x r lr; apply/abs_both; rewrite -h1 -h2; split; apply: h; lia.
  case: (ltnP r m) => lm.
    by have [-> _] := hA x r lm; have /abs_both [] := h r lm.
  have lm' : (r - m < m)%N by lia.
  have [_] := hA x _ lm'; rewrite subnKC // => ->.
  by have /abs_both [] := h _ lm'.
have [l1 [e1 _ [[sh [n1 n2] he hi yE] _]]] := level_ok dA da dB db PE QE.
set l2 := normalizeConstraintMatrix l1 in sh n1 n2 he hi yE.
have [y [eyy dy hyy]] : exists y, [/\ segw (l_y l2) 0 (6 + m) y0 = Some y, dims y (6 + m + c) 1 &
    forall i, ent y i 0 = if (i < 6 + m)%N then ent y0 i 0 else 0].
  rewrite yE /segw blockwE //=; last by lia.
  eexists; split=> // i; by rewrite /= andbT add0n subn0.
exists (setAns l2 y (dzero R (m * 2) 1) (dzero R 6 1) (l_ans l2)); split=> //.
- by apply: updAt_last => //; rewrite /lvars /= e1 -/l2 eyy.
- by case: sh => ? ? ? ? _; split=> //=; rewrite n1.
- by split=> // i; rewrite /answer hyy; case: ifP => // _; exact: hy.
Qed.

Lemma priority2_ok (D : lqdata R) (rb : lrobot R) m c (C H : dm) l0 : lq_ok D m c ->
  getContactConstraintMatrix (q_cc rb) (q_cln rb) (q_cdof rb) = Some C -> dims C (q_cln rb * 10) c ->
  dims H (6 + m + c) (6 + m + c) ->
  exists l, [/\ priority2 D rb H [:: l0] = Some [:: l0; l], shaped (6 + m + c) l,
    l_nin l = (nr C + m * 2)%N /\ l_neq l = c, means_eq l (fun x => forall r, (r < c)%N -> accel (6 + m) (d_J D) x r = 0) &
    means_ineq l (fun x => (forall r, (r < nr C)%N -> rowdot C r (fun j => x (6 + m + j)%N) <= 0) /\
       (forall r, (r < m)%N -> `|x (6 + r)%N| <= 5%:R)) /\ l_cost l /\ l_H l = H].
Proof.
move=> ok eC dC dH; have nE := lq_vars ok; have [nvE mE cE _ [_ _ dJ]] := ok.
have [A [a [eA dA da hA]]] := contact_rows_ok ok dC.
have [B [eB dB hB]] := jac_rows_ok c dJ.
rewrite /priority2 eC /= eA nE mE nvE cE eB /=.
have [rC cC] := dC; rewrite rC; set K := (q_cln rb * 10)%N in eC dC rC A a eA dA da hA *.
have PE x : (forall r, (r < c)%N -> rowdot B r x + ent (dzero R c 1) r 0 = 0) <->
    (forall r, (r < c)%N -> accel (6 + m) (d_J D) x r = 0).
  by split=> h r lr; have := h r lr; rewrite hB //= addr0.
have QE x : (forall r, (r < K + m * 2)%N -> rowdot A r x + ent a r 0 <= 0) <->
   ((forall r, (r < K)%N -> rowdot C r (fun j => x (6 + m + j)%N) <= 0) /\
       (forall r, (r < m)%N -> `|x (6 + r)%N| <= 5%:R)).
  have [h1 h2] := hA x; split=> [h|[g1 g2] r lr].
    split=> r lr; first by rewrite -h1 //; apply: h; lia.
    by have [e1 e2] := h2 r lr; apply/abs_both; rewrite -e1 -e2; split; apply: h; lia.
  case: (ltnP r K) => lK; first by rewrite h1 // g1.
  case: (ltnP (r - K) m) => lm.
    have [] := h2 _ lm; rewrite subnKC // => -> _.
    by have /abs_both [] := g2 _ lm.
  have lm' : (r - (K + m) < m)%N by lia.
  have [_] := h2 _ lm'; rewrite subnKC; last by lia.
  by move=> ->; have /abs_both [] := g2 _ lm'.
have dz : dims (dzero R c 1) c 1 by [].
have [l1 [e1 _ [_ /(_ H dH) [l3 [e3 [sh [n1 n2] he hi hc]]]]]] := level_ok dA da dB dz PE QE.
exists (normalizeConstraintMatrix l3); split=> //.
by rewrite /addHierarchy; apply: (@updAt_last [:: l0]) => //; rewrite /lvars /= e1 /= e3.
Qed.

(* the loop over tasks, Jacobians paired with them *)
Fixpoint pairs_loop (D : lqdata R) (H : dm) (i : nat) (ps : seq (ltask R * dm)) (hs : seq level) : option (seq level) :=
  match ps with
  | [::] => Some hs
  | p :: ps' => hs1 <- task_level D H i p.1 p.2 hs ;; pairs_loop D H i.+1 ps' hs1
  end.

Lemma tasks_pairs (D : lqdata R) H i ts hs : tasks_loop D H i ts hs = pairs_loop D H i [seq (t, k_J t) | t <- ts] hs.
Proof. by elim: ts i hs => //= t ts IH i hs; case: task_level. Qed.

Lemma task_level_ok (D : lqdata R) m c H i (t : ltask R) J hs : lq_ok D m c -> dims H (6 + m + c) (6 + m + c) ->
  task_ok (6 + m) t J -> size hs = (2 + i)%N ->
  exists l, task_level D H i t J hs = Some (rcons hs l) /\
    [/\ shaped (6 + m + c) l, l_nin l = 0%N /\ l_neq l = k_dof t, means_eq l (task_met (6 + m) t J), l_cost l & l_H l = H].
Proof.
move=> ok dH [dJ df] sz; have nE := lq_vars ok; have [nvE mE cE _ _] := ok.
have [B [eB dB hB]] := jac_rows_ok c dJ.
have [b [eb db hb]] : exists b, [/\ segw (dzero R (k_dof t) 1) 0 (k_dof t) (dopp (k_fstar t)) = Some b,
    dims b (k_dof t) 1 & forall r, (r < k_dof t)%N -> ent b r 0 = - ent (k_fstar t) r 0].
  case: df => rf cf; rewrite /segw blockwE //=; eexists; split=> // r lr.
  by rewrite /= lr /= subn0.
rewrite /task_level nE nvE eB eb /=.
have PE x : (forall r, (r < k_dof t)%N -> rowdot B r x + ent b r 0 = 0) <-> task_met (6 + m) t J x.
  split=> h r lr; have := h r lr; rewrite hB // hb //.
    by move/eqP; rewrite subr_eq0 => /eqP.
  by move=> ->; rewrite subrr.
have QE x : (forall r, (r < 0)%N -> rowdot (dzero R 0 (6 + m + c)) r x + ent (dzero R 0 1) r 0 <= 0) <-> True.
  by split.
have [l1 [e1 _ [_ /(_ H dH) [l3 [e3 [sh n12 he hi [hc hH]]]]]]] :=
  level_ok (conj erefl erefl : dims (dzero R 0 (6 + m + c)) 0 (6 + m + c)) (conj erefl erefl : dims (dzero R 0 1) 0 1) dB db PE QE.
exists (normalizeConstraintMatrix l3); split=> //.
apply: updAt_last; first by rewrite sz.
by move: e1; rewrite /updateConstraintMatrix /lvars /= => ->; rewrite e3.
Qed.

Lemma pairs_loop_ok (D : lqdata R) m c H ps i hs : lq_ok D m c -> dims H (6 + m + c) (6 + m + c) ->
  List.Forall (fun p => task_ok (6 + m) p.1 p.2) ps -> size hs = (2 + i)%N ->
  exists ls, [/\ pairs_loop D H i ps hs = Some (hs ++ ls), size ls = size ps &
    forall k, (k < size ps)%N -> forall t J, nth None [seq Some p | p <- ps] k = Some (t, J) ->
      let l := nth d0 ls k in
    [/\ shaped (6 + m + c) l, l_nin l = 0%N /\ l_neq l = k_dof t, means_eq l (task_met (6 + m) t J), l_cost l & l_H l = H]].
Proof.
move=> ok dH; elim: ps i hs => [|[t J] ps IH] i hs; first by exists [::]; split=> //=; rewrite cats0.
case/List.Forall_cons_iff => /= okt okp sz.
have [l [el hl]] := task_level_ok ok dH okt sz.
have sz1 : size (rcons hs l) = (2 + i.+1)%N by rewrite size_rcons sz.
have [ls [e s h]] := IH i.+1 _ okp sz1.
exists (l :: ls); split; [by rewrite el /= e cat_rcons|by rewrite /= s|].
by case=> [_ t' J' [<- <-]|k lk t' J' ek] //; apply: h.
Qed.

Definition mass_scaled (D : lqdata R) (nrm : R) (H : dm) : Prop :=
  forall i j, ent H i j = if ((i < d_nv D) && (j < d_nv D))%N then ent (d_A D) i j / nrm * 5%:R else 0.

Lemma cost_h_ok (D : lqdata R) m c nrm : lq_ok D m c -> nrm != 0 ->
  exists H, [/\ cost_h D nrm = Some H, dims H (6 + m + c) (6 + m + c) & mass_scaled D nrm H].
Proof.
move=> ok n0; have nE := lq_vars ok; have [nvE mE cE [rA cA] _] := ok.
rewrite /cost_h /scaled (negbTE n0) nE nvE /= blockwE //=; [|lia..].
by eexists; split=> // i j; rewrite nvE /= !add0n !subn0.
Qed.

Lemma conf_ok (f : dm -> dm) (D : lqdata R) (rb : lrobot R) m c (tl : nat -> R) (C H : dm) (ps : seq (ltask R * dm)) :
  null_space_ok f -> lq_ok D m c ->
  getContactConstraintMatrix (q_cc rb) (q_cln rb) (q_cdof rb) = Some C -> dims C (q_cln rb * 10) c ->
  dims H (6 + m + c) (6 + m + c) ->
  List.Forall (fun p => task_ok (6 + m) p.1 p.2) ps ->
  exists hs, (hs1 <- priority1 D (DM m 1 (fun i _ => tl i)) [::] ;;
              hs2 <- priority2 D rb H hs1 ;; hs3 <- pairs_loop D H 0 ps hs2 ;; prepare f hs3) = Some hs /\
    lq_conf D tl C H ps hs.
Proof.
move=> fok ok eC dC dH okp; have nE := lq_vars ok; have [nvE mE cE _ _] := ok.
have [l0 [e0 sh0 n0 q0 [i0 v0 y0]]] := priority1_ok tl ok.
have [l1 [e1 sh1 n1 q1 [i1 [c1 H1]]]] := priority2_ok l0 ok eC dC dH.
have [ls [e2 s2 h2]] := pairs_loop_ok ok dH okp (erefl _ : size [:: l0; l1] = (2 + 0)%N).
have sh i : (i < size ([:: l0; l1] ++ ls))%N -> shaped (6 + m + c) (nth d0 ([:: l0; l1] ++ ls) i).
  case: i => [|[|i]] //= li; rewrite !ltnS s2 in li.
  case ep: (nth None [seq Some p | p <- ps] i) => [[t J]|]; first by have [] := h2 i li _ _ ep.
  by move: ep; rewrite (nth_map (LTK 0 H H true, H)).
have [hs [e sz pr same]] := C29_null_space_bases fok (fun e : [:: l0; l1] ++ ls = [::] => ltac:(discriminate e)) sh.
exists hs; split; first by rewrite e0 /= e1 /= e2 /=.
have lt0 : (0 < size ([:: l0; l1] ++ ls))%N by [].
have lt1 : (1 < size ([:: l0; l1] ++ ls))%N by [].
have [sd0 _ y0E v0E] := same 0%N lt0; have [sd1 _ _ _] := same 1%N lt1.
have mq (l l' : level) P : same_data l l' -> means_eq l P -> means_eq l' P.
  by case=> _ en _ _ [eB eb _ _ _] h x; rewrite en eB eb.
have mi (l l' : level) P : same_data l l' -> means_ineq l P -> means_ineq l' P.
  by case=> en _ eA ea _ h x; rewrite en eA ea.
split; rewrite ?nE ?nvE ?mE ?cE.
- by rewrite sz /= s2.
- by move=> i li; rewrite sz in li; have [] := same i li.
- exact: pr.
- exact: mq sd0 q0.
- exact: mi sd0 i0.
- by move=> r; rewrite v0E /= v0.
- move=> i li; rewrite -y0 /answer.
  by have /matrixP/(_ (Ordinal li) 0) := y0E; rewrite !mxE.
- by case: sd0 => -> -> _ _ _.
- exact: mq sd1 q1.
- exact: mi sd1 i1.
- by case: sd1 => -> -> _ _ _.
- by case: sd1 => _ _ _ _ [_ _ -> -> _].
- move=> k t J ek l.
  have lk : (k < size ps)%N.
    by case: (ltnP k (size ps)) => // g; move: ek; rewrite nth_default // size_map.
  have [_ [ni ne] q2 c2 H2] := h2 k lk t J ek.
  have lk2 : (2 + k < size ([:: l0; l1] ++ ls))%N by rewrite /= s2 !ltnS.
  have [sd _ _ _] := same _ lk2; have e2' : nth d0 ([:: l0; l1] ++ ls) (2 + k) = nth d0 ls k by [].
  rewrite e2' in sd; split; [| | exact: mq sd q2 | |].
  + by case: sd => -> _ _ _ _.
  + by case: sd => _ -> _ _ _.
  + by case: sd => _ _ _ _ [_ _ -> _ _].
  + by case: sd => _ _ _ _ [_ _ _ -> _].
Qed.
End LQPProofs.
