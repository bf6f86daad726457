(* Lemmas for C166, C167 *)
From mathcomp Require Import all_ssreflect all_algebra.
From mathcomp Require Import zify.
From Verif Require Import DMat DMatL LinAlg Cone_Model QP_Model QP_Spec QP_Loop HQP_Model HQP_Spec HQP_Proofs HQP_Thm HQP_First HQP_Ex OSQ_Model OSQ_Spec.
Set Implicit Arguments.
Unset Strict Implicit.
Unset Printing Implicit Defensive.
Import Order.TTheory GRing.Theory Num.Theory.
Local Open Scope ring_scope.

Section OSQProofs.
Variable R : realFieldType.
Local Notation level := (level R).
Implicit Types (q w : oqp R) (s : solver R).

Lemma sizedP (M : dm R) m n : dims M m n -> sized M m n.
Proof. by case=> <- <-; rewrite /sized !eqxx. Qed.

(* one call on one object *)
Lemma solve_fresh q nv ncon : problem_size q nv ncon -> s_work (solveOSQP (fresh_solver R) q true) = Some q.
Proof.
case=> dH dg dA dub; have [eg _] := dg; have [eu _] := dub.
rewrite /solveOSQP /setHessianMatrix /= eg eu (sizedP dH) /setGradient /= (sizedP dg).
rewrite /setLinearConstraintsMatrix /= (sizedP dA) /setUpperBound /= (sizedP dub) /initSolver /=.
by case: q {dH dg dA dub eg eu}.
Qed.
Lemma dims_same (M N : dm R) m n : dims M m n -> dims N m n -> same_dims M N.
Proof. by case=> e1 e2 [e3 e4]; rewrite /same_dims /sized e1 e2 e3 e4 !eqxx. Qed.
Lemma solve_update s q w nv ncon : s_work s = Some w -> problem_size w nv ncon -> problem_size q nv ncon ->
  s_work (solveOSQP s q false) = Some q.
Proof.
move=> ew [wH wg wA wu] [dH dg dA du].
rewrite /solveOSQP /updateGradient ew (dims_same dg wg) /updateUpperBound /= (dims_same du wu).
rewrite /updateHessianMatrix /= (dims_same dH wH) /updateLinearConstraintsMatrix /= (dims_same dA wA) /=.
by case: q {dH dg dA du}.
Qed.
(* a second initialisation leaves the workspace alone *)
Lemma solve_again s q w : s_work s = Some w -> s_work (solveOSQP s q true) = Some w.
Proof.
move=> ew; rewrite /solveOSQP.
set s1 := setNumbers _ _ _; have e1 : s_work s1 = Some w by [].
set s2 := setHessianMatrix _ _; have e2 : s_work s2 = Some w by rewrite /s2 /setHessianMatrix; case: (s_H _) => //; case: ifP.
set s3 := setGradient _ _; have e3 : s_work s3 = Some w by rewrite /s3 /setGradient; case: ifP.
set s4 := setLinearConstraintsMatrix _ _; have e4 : s_work s4 = Some w.
  by rewrite /s4 /setLinearConstraintsMatrix; case: (s_A _) => //; case: ifP.
set s5 := setUpperBound _ _; have e5 : s_work s5 = Some w by rewrite /s5 /setUpperBound; case: ifP.
by rewrite /initSolver e5.
Qed.
(* updates of an object that was never initialised *)
Lemma solve_uninit q : s_work (solveOSQP (fresh_solver R) q false) = None.
Proof. by []. Qed.

(* two oracles that agree on the problems of the run give the same run *)
Lemma level_ext (o1 o2 : nat -> bool -> oqp R -> nat -> R) above (p l l' : level) init :
  solve_level o1 above p l init = Some l' ->
  o2 (size above) init (osqp_problem l') = o1 (size above) init (osqp_problem l') ->
  solve_level o2 above p l init = Some l'.
Proof.
rewrite /solve_level; case: levelQP => [q|] //=.
case e1: seg => [u|] //=; case e2: dmul => [Zu|] //=; case e3: dadd => [y|] //=; case e4: tail => [v|] //=.
case e5: dmul => [By|] //=; case e6: dadd => [w|] //= -[<-]; rewrite /osqp_problem /= => ->.
by rewrite e1 /= e2 /= e3 /= e4 /= e5 /= e6.
Qed.

Lemma rest_ext (o1 o2 : nat -> bool -> oqp R -> nat -> R) d init hs above (p : level) r :
  (0 < size above)%N -> p = nth d above (size above).-1 ->
  solve_rest o1 above p hs init = Some r ->
  (forall i, (size above <= i < size r)%N ->
     o2 i init (osqp_problem (nth d r i)) = o1 i init (osqp_problem (nth d r i))) ->
  solve_rest o2 above p hs init = Some r.
Proof.
elim: hs above p => [|l hs IH] above p sa ep //= h ag.
have h0 : solve_rest o1 above p (l :: hs) init = Some r by [].
have [sr tr _] := solve_rest_step sa ep h0.
move: h; case e: solve_level => [l'|] //= h.
have [|| sr2 tr2 _] := solve_rest_step (d := d) _ _ h; rewrite ?size_rcons //.
  by rewrite nth_rcons ltnn eqxx.
have el : nth d r (size above) = l'.
  by rewrite -(nth_take d (ltnSn (size above))); rewrite size_rcons in tr2; rewrite tr2 nth_rcons ltnn eqxx.
rewrite (level_ext (o2 := o2) e) /=; last by rewrite -el; apply: ag; rewrite leqnn sr /= -addn1 leq_add2l.
apply: (IH _ _ _ _ h); rewrite ?size_rcons ?nth_rcons ?ltnn ?eqxx // => i /andP[l1 l2].
by apply: ag; rewrite (ltnW l1).
Qed.

Lemma sequential_ext (o1 o2 : nat -> bool -> oqp R -> nat -> R) d init (hs hs' : seq level) :
  solveSequential o1 hs init = Some hs' ->
  (forall i, (0 < i < size hs')%N -> o2 i init (osqp_problem (nth d hs' i)) = o1 i init (osqp_problem (nth d hs' i))) ->
  solveSequential o2 hs init = Some hs'.
Proof. by case: hs => // l hs; apply: rest_ext. Qed.

Section Run.
Variables (n : nat) (best : option (oqp R) -> nat -> R) (st : nat -> solver R) (d : level) (hs : seq level) (init : bool).
Hypothesis sh : forall i, (i < size hs)%N -> shaped n (nth d hs i).
Hypothesis pr : prepared n d hs.
Hypothesis rd : init \/ all_ready d hs.

Lemma run_sizes : exists hs', [/\ solveSequentialS best st d hs init = Some (after st d hs' init, hs'),
  size hs' = size hs & forall i, (0 < i < size hs)%N ->
    problem_size (osqp_problem (nth d hs' i)) (l_ns (nth d hs i.-1) + l_nin (nth d hs i)) (rows_of (take i.+1 hs))].
Proof.
case: (posnP (size hs)) => [z|p].
  have e0 : hs = [::] by apply: size0nil.
  by rewrite e0; exists [::]; split=> // i; rewrite andbF.
have [|||hs' [e c]] := @solveSequential_ok R n (osqp_of best st) d init hs.
- by case: (hs) p.
- by move=> j lj; split; [exact: sh|have [] := pr lj].
- exact: rd.
have rn := is_run d e p; have szE := run_size rn.
have kp i : (i < size hs)%N -> l_nin (nth d hs' i) = l_nin (nth d hs i) /\ l_ns (nth d hs' i) = l_ns (nth d hs i).
  move=> li; have [[[h1 _ _ _ _] [_ h2]] _ _] := run_level sh (Zs pr) rn li; by rewrite h1 h2.
exists hs'; split=> //; first by rewrite /solveSequentialS e.
move=> i li; have [dH dg dA du _ _ _ _] := c i li; case/andP: li => i0 li.
have [k1 _] := kp i li; have [_ k2] := kp i.-1 (leq_ltn_trans (leq_pred i) li).
have er : (rows_of (take i hs') + l_nin (nth d hs' i) = rows_of (take i.+1 hs))%N.
  rewrite -(@rows_of_kept R d hs hs' i.+1) // ?szE //; last by move=> j lj; have [] := kp j (leq_trans lj li).
  by rewrite (take_nth d) ?szE // rows_of_rcons.
rewrite /= in dH dg dA du; rewrite k1 k2 in dH dg; rewrite er k1 k2 in dA; rewrite er in du.
by split.
Qed.
End Run.

(* the first level *)
Lemma first_sizes n o (l : level) hs init : shaped n l -> weighted l ->
  exists l', solvefirst o n (l :: hs) init = Some (l' :: hs) /\
    problem_size (osqp_problem l') (n + l_nin l) (l_nin l) /\
    forall o2, o2 0%N init (osqp_problem l') = o 0%N init (osqp_problem l') ->
      solvefirst o2 n (l :: hs) init = Some (l' :: hs).
Proof.
move=> sh we; have [q [VA [Va [WB [Wb [eq qc _ _]]]]]] := firstQP_ok sh we.
have [dH dg dA du _ _ _ _] := qc.
rewrite /solvefirst eq; set l1 := setQP l _ _ _ _ _ _; set x := o 0%N init (osqp_problem l1).
have [|y [ey dy my]] := @seg_vec R (n + l_nin l) x 0 n; first by rewrite leq_addr.
have [|v [ev dv mv]] := @seg_vec R (n + l_nin l) x n (l_nin l); first by [].
have e1 : tail (vec (n + l_nin l) x) (l_nin l) = Some v by rewrite /tail /= leq_addl addnK.
rewrite ey e1; exists (setAns l1 y v (l_w l1) (vec (n + l_nin l) x)); split=> //; split.
  by move: dH dg dA du => /=; rewrite add0n => *; split.
by move=> o2; rewrite -[osqp_problem (setAns _ _ _ _ _)]/(osqp_problem l1) => ->; rewrite -/x ey e1.
Qed.
End OSQProofs.
