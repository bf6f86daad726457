(* Proofs about the configuration of the QP for the non-contact joints. *)
From mathcomp Require Import all_ssreflect all_algebra.
From mathcomp Require Import zify.
From mathcomp.algebra_tactics Require Import ring.
From Verif Require Import LinAlg DMat DMatL Geo_Model Geo_Spec Cone_Model Cone_Spec QP_Model QP_Spec HQP_Model HQP_Spec HQP_Proofs HQP_Thm HQP_Ex HQP_Props HQP_First LQP_Model LQP_Spec LQP_Proofs Jacc_Model Jacc_Spec Jacc_Proofs Jacc_NC LNC_Model LNC_Spec.
Set Implicit Arguments.
Unset Strict Implicit.
Unset Printing Implicit Defensive.
Import Order.TTheory GRing.Theory Num.Theory.
Local Open Scope ring_scope.

Section LNCProofs.
Variable R : rcfType.
Local Notation dm := (dm R).
Local Notation level := (level R).
Local Notation d0 := (initLevel R 0 0 0).
Local Notation corner := (@LNC_Model.corner R).

Lemma two_blocks_ok n (A0 a0 M u w : dm) : dims A0 (2 * n) n -> dims a0 (2 * n) 1 -> dims M n n -> dims u n 1 -> dims w n 1 ->
  exists A a, [/\ two_blocks n A0 a0 M u w = Some (A, a), dims A (2 * n) n, dims a (2 * n) 1 &
    forall x r, (r < n)%N ->
      rowdot A r x + ent a r 0 = rowdot M r x + ent u r 0 /\
      rowdot A (n + r) x + ent a (n + r)%N 0 = - rowdot M r x + ent w r 0].
Proof.
move=> [rA cA] [ra ca] [rM cM] [ru cu] [rw cw].
rewrite /two_blocks /segw mul1n blockwE //= ?rA ?cA //=; last by lia.
rewrite blockwE //= ?ra ?ca //=; last by lia.
rewrite blockwE //= ?rA ?cA //=; last by lia.
rewrite blockwE //= ?ra ?ca //=; last by lia.
do 2 eexists; split; [by []|by []|by []|].
move=> x r rm; rewrite /rowdot /= cM.
have f1 : (n <= r)%N = false by lia.
have f2 : (n + r < n + n)%N by lia.
rewrite rm f1 f2 /= leq_addr subn0 addKn /= add0n; split; congr (_ + _).
  by apply: sum_nat_eq => j lj; rewrite lj /= subn0.
by rewrite -sumrN; apply: sum_nat_eq => j lj; rewrite lj /= subn0 mulNr.
Qed.

Lemma corner_ok (rb : nrobot R) p : dims (n_ANC rb) (p + n_nc rb) (p + n_nc rb) ->
  corner (n_ANC rb) (n_nc rb) = Some (DM (n_nc rb) (n_nc rb) (nc_inertia rb)).
Proof. by case=> r c; rewrite /corner /dblock /nc_inertia r c !leq_addl !subnK ?leq_addl ?leqnn. Qed.

Lemma norm_corner (rb : nrobot R) : frob (DM (n_nc rb) (n_nc rb) (nc_inertia rb)) = nc_norm rb.
Proof. by []. Qed.

Lemma norm_pos (rb : nrobot R) i j : (i < n_nc rb)%N -> (j < n_nc rb)%N -> nc_inertia rb i j <> 0 -> 0 < nc_norm rb.
Proof.
move=> li lj ne; rewrite /nc_norm sqrtr_gt0 sum_ord (bigD1 (Ordinal li)) //= ltr_spaddl //.
  rewrite sum_ord (bigD1 (Ordinal lj)) //= ltr_spaddl //; last by apply: sumr_ge0 => *; apply: sqr_ge0.
  by rewrite exprn_even_gt0 //=; apply/eqP.
by apply: sumr_ge0 => *; apply: sumr_ge0 => *; apply: sqr_ge0.
Qed.

Lemma seg6 (q : dm) p : dims q (6 + p) 1 ->
  exists g6 b6, [/\ tail q 6 = Some g6, seg q 0 6 = Some b6, dims g6 6 1, dims b6 6 1 &
    (forall k, ent g6 k 0 = rate_wanted q k) /\ forall k, ent b6 k 0 = ent q k 0].
Proof.
case=> r c; rewrite /tail /seg /dblock r c; have -> : (6 <= 6 + p)%N by lia.
have -> : (6 + p - 6 + 6 <= 6 + p)%N by lia.
do 2 eexists; split; [by []|by []|by []|by []|split=> k //=; by rewrite /rate_wanted r].
Qed.

Lemma at_some (T : Type) (s : seq T) i x : at_ s i = Some x -> exists s1 s2, s = s1 ++ x :: s2 /\ size s1 = i.
Proof.
elim: s i => [|y s IH] [|i] //= e.
  by exists [::], s; case: e => ->.
by have [s1 [s2 [-> <-]]] := IH i e; exists (y :: s1), s2.
Qed.

Lemma means_two n (A a M u w : dm) (P : (nat -> R) -> nat -> R) (lim : R) :
  (forall x r, (r < n)%N -> rowdot A r x + ent a r 0 = rowdot M r x + ent u r 0 /\
      rowdot A (n + r) x + ent a (n + r)%N 0 = - rowdot M r x + ent w r 0) ->
  (forall x r, (r < n)%N -> rowdot M r x + ent u r 0 = P x r - lim) ->
  (forall x r, (r < n)%N -> - rowdot M r x + ent w r 0 = - P x r - lim) ->
  forall x, (forall r, (r < 2 * n)%N -> rowdot A r x + ent a r 0 <= 0) <-> (forall k, (k < n)%N -> `|P x k| <= lim).
Proof.
move=> h h1 h2 x; split=> hh r lr.
  have [e1 e2] := h x r lr; apply/abs_both; rewrite -h1 // -h2 // -e1 -e2; split; apply: hh; lia.
case: (ltnP r n) => lm.
  by have [-> _] := h x r lm; rewrite h1 //; have /abs_both [] := hh r lm.
have lm' : (r - n < n)%N by lia.
have [_] := h x _ lm'; rewrite subnKC // => ->; rewrite h2 //.
by have /abs_both [] := hh _ lm'.
Qed.

(* one level: constraints and cost, not normalised *)
Lemma nlevel_ok n (A a B b H : dm) : (0 < n)%N -> dims A (2 * n) n -> dims a (2 * n) 1 -> dims B 6 n -> dims b 6 1 -> dims H n n ->
  exists l, [/\ (l1 <- updateConstraintMatrix n (initLevel R n (2 * n) 6) A a B b ;; updateCostMatrix n l1 H (dzero R n 1)) = Some l,
    shaped n l, l_nin l = (2 * n)%N /\ l_neq l = 6%N, l_V l = dident R (2 * n) /\ l_W l = dident R 6 &
    [/\ l_A l = A, l_a l = a, l_B l = B, l_b l = b & l_cost l /\ l_H l = H]].
Proof.
move=> np [rA cA] [ra ca] [rB cB] [rb cb] [rH cH].
have n2 : (0 < 2 * n)%N by lia.
rewrite /updateConstraintMatrix /updateCostMatrix /sized /= rA cA ra ca rB cB rb cb n2 !eqxx /= rH cH !eqxx /=.
eexists; split; [by []| |by []|by rewrite /= n2|by []].
by split=> //=; rewrite ?n2 /=; try by split.
Qed.

Lemma level0_ok (rb : nrobot R) q g6 H : nc_sized rb q -> (0 < n_nc rb)%N -> dims g6 6 1 -> (forall k, ent g6 k 0 = rate_wanted q k) ->
  dims H (n_nc rb) (n_nc rb) ->
  exists l A a, [/\ nc_level0 rb g6 H [::] = Some ([:: l], (A, a)), shaped (n_nc rb) l /\ dims A (2 * n_nc rb) (n_nc rb) /\ dims a (2 * n_nc rb) 1,
    l_nin l = (2 * n_nc rb)%N /\ l_neq l = 6%N, l_V l = dident R (2 * n_nc rb) /\ l_W l = dident R 6 &
    [/\ l_cost l /\ l_H l = H,
        (forall x k, (k < 6)%N -> rowdot (l_B l) k x + ent (l_b l) k 0 = nc_rate rb x k - rate_wanted q k),
        (forall x, (forall r, (r < 2 * n_nc rb)%N -> rowdot (l_A l) r x + ent (l_a l) r 0 <= 0) <->
                   (forall k, (k < n_nc rb)%N -> `|nc_torque rb x k| <= 200%:R)) &
        forall x k, (k < n_nc rb)%N ->
          rowdot (l_A l) k x + ent (l_a l) k 0 = nc_torque rb x k - 200%:R /\
          rowdot (l_A l) (n_nc rb + k) x + ent (l_a l) (n_nc rb + k)%N 0 = - nc_torque rb x k - 200%:R]].
Proof.
move=> [[p dA] [rG cG] [rI cI] _ _] np [rg cg] gE dH; set n := n_nc rb in np dA rG cG rI cI dH *.
rewrite /nc_level0 /segw -/n blockwE //= ?rg ?cg //= blockwE //= ?rg ?cg //.
rewrite (corner_ok dA) -/n /dsub /dadd /= rG cG !eqxx /=.
set M := DM n n (nc_inertia rb); set u := DM n 1 (fun i j => _ + _); set w := DM n 1 (fun i j => _ - _).
have [A [a [-> dA2 da2 hA]]] := @two_blocks_ok n (dzero R (2 * n) n) (dzero R (2 * n) 1) M u w
  (conj erefl erefl) (conj erefl erefl) (conj erefl erefl) (conj erefl erefl) (conj erefl erefl).
set B := DM 6 n _; set b := DM 6 1 _.
have [l [e sh nn ww [eA ea eB eb hc]]] := nlevel_ok np dA2 da2 (conj erefl erefl : dims B 6 n) (conj erefl erefl : dims b 6 1) dH.
have e' : updAt (addHierarchy n [::] (2 * n) 6) 0 (fun l => l1 <- updateConstraintMatrix (lvars l) l A a B b ;; updateCostMatrix (lvars l) l1 H (dzero R n 1)) = Some [:: l].
  rewrite /addHierarchy; apply: (@updAt_last R [::]) => //.
exists l, A, a; split=> //; first by rewrite e'.
have h1 x r : (r < n)%N -> rowdot M r x + ent u r 0 = nc_torque rb x r - 200%:R.
  by move=> lr; rewrite /nc_torque -addrA [_ + - 200%:R]addrC.
have h2 x r : (r < n)%N -> - rowdot M r x + ent w r 0 = - nc_torque rb x r - 200%:R.
  by move=> lr; rewrite /nc_torque opprD -addrA [_ - 200%:R]addrC.
split=> //.
- move=> x k k6; rewrite eB eb /B /b /rowdot /= k6 /= !subn0 gE /nc_rate -/n; congr (_ - _).
  by apply: sum_nat_eq => j lj; rewrite /= add0n lj subn0.
- by rewrite eA ea; apply: means_two hA h1 h2.
by move=> x k lk; have [t1 t2] := hA x k lk; rewrite eA ea t1 t2 h1 // h2.
Qed.

Lemma six (P : nat -> Prop) : (forall k, (k < 6)%N -> P k) <-> (forall i : 'I_3, P i) /\ (forall i : 'I_3, P (3 + i)%N).
Proof.
split=> [h|[h1 h2] k k6]; first by split=> i; apply: h; have := ltn_ord i; lia.
case: (ltnP k 3) => k3; first by have := h1 (Ordinal k3).
have k3' : (k - 3 < 3)%N by lia.
by have := h2 (Ordinal k3'); rewrite /= subnKC.
Qed.

Lemma level1_ok (rb : nrobot R) q b6 H t xl x0 A0 a0 l0 : nc_sized rb q -> (0 < n_nc rb)%N -> second_task rb t xl x0 ->
  dims A0 (2 * n_nc rb) (n_nc rb) -> dims a0 (2 * n_nc rb) 1 -> seg q 0 6 = Some b6 ->
  dims H (n_nc rb) (n_nc rb) ->
  exists l, [/\ nc_level1 rb b6 H (A0, a0) [:: l0] = Some [:: l0; l], shaped (n_nc rb) l,
    l_nin l = (2 * n_nc rb)%N /\ l_neq l = 6%N, l_V l = dident R (2 * n_nc rb) /\ l_W l = dident R 6 &
    [/\ l_cost l /\ l_H l = H,
        means_eq l (fun x => nc_link rb t x 0 = upper (t_f t) - upper q + crossp (xl - x0) (lower (t_f t) - lower q) /\
            nc_link rb t x 3 = lower (t_f t) - lower q) &
        means_ineq l (fun x => forall k, (k < n_nc rb)%N -> `|x k| <= 5%:R)]].
Proof.
move=> [_ _ _ [p dq] _] np [[t0 [ts ets]] [id [ids [eids exl]]] ex0 df [pJ [rJ cJ]]] dA da eb dH.
set n := n_nc rb in np dA da dH rJ cJ *.
have [rq cq] := dq; have db : dims b6 6 1 by move: eb; rewrite /seg /dblock rq cq leq_addr => -[<-].
have [dd [ed ddd _]] := dsub_mx df db.
have [fl [ef _ _]] := dmul_mx (dims_of (jJa (xl - x0))) ddd.
have [dfl upE loE] := @ref_ok R (JT 0 0 (dzero R 0 0) (t_f t) (dzero R 0 0) (dzero R 0 0) (dzero R 0 0) (dzero R 0 0) (dzero R 0 0) None) q b6 dd fl (xl - x0) (6 + p) df dq (leq_addr _ _) eb ed ef.
rewrite /lin_ref /ang_ref /= in upE loE; have [rf cf] := dfl.
have e1 : at_ (n_ts rb) 1 = Some t by rewrite ets.
have er : nc_reference rb t b6 = Some fl by rewrite /nc_reference eids /= exl ex0 ed.
rewrite /nc_level1 e1 er /= /rightCols -/n cJ leq_addl /dblock rJ cJ leqnn subnK ?leq_addl // leqnn /=.
rewrite /segw blockwE //= blockwE //=.
have [A [a [-> dA2 da2 hA]]] := @two_blocks_ok n A0 a0 (dident R n) (DM n 1 (fun _ _ => - 5%:R)) (DM n 1 (fun _ _ => - 5%:R))
  dA da (conj erefl erefl) (conj erefl erefl) (conj erefl erefl).
set B := DM 6 n _; set b := DM 6 1 _.
have [l [e sh nn ww [eA ea eB ebb hc]]] := nlevel_ok np dA2 da2 (conj erefl erefl : dims B 6 n) (conj erefl erefl : dims b 6 1) dH.
exists l; split=> //.
  by rewrite /addHierarchy /=; apply: (@updAt_last R [:: l0]).
split=> //.
- move=> x; have [_ ->] := nn; rewrite eB ebb.
  have rE k : (k < 6)%N -> rowdot B k x + ent b k 0 = \sum_(0 <= j < n) ent (t_J t) k (nc (t_J t) - n + j) * x j - ent fl k 0.
    move=> k6; rewrite /B /b /rowdot /= k6 /= !subn0 cJ; congr (_ - _).
    by apply: sum_nat_eq => j lj; rewrite /= add0n lj subn0.
  rewrite -upE -loE; transitivity (forall k, (k < 6)%N -> \sum_(0 <= j < n) ent (t_J t) k (nc (t_J t) - n + j) * x j = ent fl k 0).
    split=> h k k6; first by apply/eqP; rewrite -subr_eq0 -rE // h.
    by rewrite rE // h // subrr.
  rewrite six; split=> [[h1 h2]|[h1 h2]].
    by split; apply/matrixP => i j; rewrite !mxE ?add0n -/n; [exact: h1|exact: h2].
  split=> i.
    by have /matrixP/(_ i 0) := h1; rewrite !mxE !add0n.
  by have /matrixP/(_ i 0) := h2; rewrite !mxE.
- move=> x; have [-> _] := nn; rewrite eA ea.
  have mI y r : (r < n)%N -> rowdot (dident R n) r y = y r.
    move=> lr; rewrite /rowdot /= (@sum_window _ r 1) ?addn1 // ?big_nat1.
      by rewrite addn0 eqxx mul1r.
    by move=> j lj; rewrite ltnS -eqn_leq => /negbTE ->; rewrite mul0r.
  by apply: (@means_two n A a _ _ _ (fun y k => y k) _ hA) => y r lr; rewrite mI.
Qed.

Lemma nconf_ok (f : dm -> dm) (rb : nrobot R) q t xl x0 : null_space_ok f -> nc_sized rb q -> second_task rb t xl x0 ->
  exists hs, ConfigureLQP_R_NC f rb q [::] = Some hs /\ nc_conf rb q t (xl - x0) hs.
Proof.
move=> fok sz st; have [[p dA] _ _ [pq dq] [i [j [li lj ne]]]] := sz.
have np : (0 < n_nc rb)%N by apply: leq_ltn_trans li.
have Np := norm_pos li lj ne.
have [g6 [b6 [eg eb dg db [gE _]]]] := seg6 dq.
rewrite /ConfigureLQP_R_NC eg eb (corner_ok dA) /scaled norm_corner (gt_eqF Np) /=.
set H := DM (n_nc rb) (n_nc rb) _.
have [l0 [A [a [e0 [sh0 [dA0 da0]] n0 w0 [hc0 q0 i0 r0]]]]] := level0_ok sz np dg gE (conj erefl erefl : dims H _ _).
have [l1 [e1 sh1 n1 w1 [hc1 q1 i1]]] := level1_ok l0 sz np st dA0 da0 eb (conj erefl erefl : dims H _ _).
rewrite e0 /= e1 /=.
have sh k : (k < size [:: l0; l1])%N -> shaped (n_nc rb) (nth d0 [:: l0; l1] k) by case: k => [|[|]].
have [hs [e sE pr same]] := C29_null_space_bases fok (fun e : [:: l0; l1] = [::] => ltac:(discriminate e)) sh.
exists hs; split=> //.
have [sd0 sh0' _ _] := same 0%N isT; have [sd1 sh1' _ _] := same 1%N isT.
have mq (l l' : level) P : same_data l l' -> means_eq l P -> means_eq l' P.
  by case=> _ en _ _ [eB ebb _ _ _] h x; rewrite en eB ebb.
have mi (l l' : level) P : same_data l l' -> means_ineq l P -> means_ineq l' P.
  by case=> en _ eA ea _ h x; rewrite en eA ea.
split=> //.
- by case=> [|[|]].
- by case=> [|[|]] // _; [case: sd0 => -> -> _ _ _|case: sd1 => -> -> _ _ _].
- by case=> [|[|]] // _; [case: sd0 => _ _ _ _ [_ _ _ _ [-> -> _]]|case: sd1 => _ _ _ _ [_ _ _ _ [-> -> _]]].
- apply: mq sd0 _ => x; have [_ ->] := n0; split=> h k lk; first by apply/eqP; rewrite -subr_eq0 -q0 // h.
  by rewrite q0 // h // subrr.
- apply: mi sd0 _ => x; have [-> _] := n0; exact: i0.
- exact: mq sd1 q1.
- exact: mi sd1 i1.
- by case=> [|[|]] // _; [case: sd0 => _ _ _ _ [_ _ ce He _]; case: hc0 => c0 H0|case: sd1 => _ _ _ _ [_ _ ce He _]; case: hc1 => c0 H0]; split; rewrite ?ce ?He ?H0.
- by case: sd0 => _ _ _ _ [eB ebb _ _ _] x k lk; rewrite eB ebb q0.
- by case: sd0 => _ _ eA ea _ x k lk; rewrite eA ea; apply: r0.
Qed.
End LNCProofs.
