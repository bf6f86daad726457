(* Consequences of the content of the problems for whole runs of solveSequential. *)
From mathcomp Require Import all_ssreflect all_algebra.
From mathcomp Require Import zify.
From mathcomp.algebra_tactics Require Import ring.
From Verif Require Import LinAlg DMat DMatL Cone_Model QP_Model QP_Spec HQP_Model HQP_Spec HQP_Proofs.
Set Implicit Arguments.
Unset Strict Implicit.
Unset Printing Implicit Defensive.
Import Order.TTheory GRing.Theory Num.Theory.
Local Open Scope ring_scope.

Section Thm.
Variable R : realFieldType.
Local Notation dm := (dm R).
Local Notation level := (level R).
Variable n : nat.
Variable osqp : nat -> bool -> oqp R -> (nat -> R).
Variables (d : level) (hs hs' : seq level) (init : bool).
Hypothesis sh : forall i, (i < size hs)%N -> shaped n (nth d hs i).
Hypothesis pr : prepared n d hs.
Hypothesis st : init \/ all_ready d hs.
Hypothesis e : solveSequential osqp hs init = Some hs'.

Local Notation lv i := (nth d hs' i).
Local Notation exact_qp i := (OQP (l_qH (lv i)) (l_qg (lv i)) (l_qA (lv i)) (l_qub (lv i))).

Lemma Zs i : (i < size hs)%N -> dims (l_Z (nth d hs i)) n (l_ns (nth d hs i)).
Proof. by move=> /pr[]. Qed.

Lemma is_run : (0 < size hs)%N -> run osqp d init hs hs'.
Proof. by move=> p; apply: solveSequential_run e; case: (hs) p. Qed.

Lemma content i : (0 < i < size hs)%N -> qp_content n d (take i hs') (lv i.-1) (lv i) (exact_qp i).
Proof.
move=> li; have [||| r [e' h]] := @solveSequential_ok R n osqp d init hs.
- by case: (hs) li => //; rewrite andbF.
- by move=> j lj; split; [apply: sh|apply: Zs].
- exact: st.
by move: e' h; rewrite e => -[<-] h; apply: h.
Qed.

Lemma sz i : (i < size hs)%N -> size hs' = size hs.
Proof. by move=> li; apply: run_size (is_run (leq_ltn_trans (leq0n _) li)). Qed.

Lemma from i : (0 < i < size hs)%N ->
  solved_from n osqp (take i hs') (lv i.-1) (nth d hs i) init (lv i).
Proof.
move=> /andP[i0 li].
by have [_ _ /(_ i0)] := run_level sh Zs (is_run (leq_ltn_trans (leq0n _) li)) li.
Qed.

Lemma from_nin i : (0 < i < size hs)%N -> l_nin (lv i) = l_nin (nth d hs i).
Proof. by move=> /from/solved_kept[[-> _ _ _ _] _]. Qed.

(* the answer split at the null space size *)
Lemma y_ans i : (0 < i < size hs)%N ->
  yv n (lv i) = yv n (lv i.-1) + Zm n (lv i.-1) *m col_of (l_ns (lv i.-1)) (ans_of (lv i)).
Proof. by case/from => _ _ _ _ [_ ->]. Qed.

Lemma v_ans i : (0 < i < size hs)%N ->
  vv (lv i) = col_of (l_nin (lv i)) (fun c => ans_of (lv i) (l_ns (lv i.-1) + c)%N).
Proof. by case/from => _ _ _ _ _ [_ ->]. Qed.

Lemma nth_above i j : (0 < i < size hs)%N -> (j < i)%N ->
  (j < size (take i hs'))%N /\ nth d (take i hs') j = lv j.
Proof.
move=> /andP[_ li] lj; rewrite nth_take // size_take (sz li) li; by [].
Qed.

Lemma size_above i : (0 < i < size hs)%N -> size (take i hs') = i.
Proof. by move=> /andP[_ li]; rewrite size_take (sz li) li. Qed.

(* C31, with the error due to dropped entries *)
Lemma kept_ineq i : (0 < i < size hs)%N -> oqp_feasible (osqp_problem (lv i)) (ans_of (lv i)) ->
  forall k, (k <= i)%N -> forall r,
    (Am n (lv k) *m yv n (lv i) + av (lv k)) r 0 <=
      vv (lv k) r 0 + tol1 (col_of (l_ns (lv i.-1)) (ans_of (lv i))).
Proof.
move=> li fe k; have [h1 h2] := content_sparse (content li) fe.
rewrite leq_eqVlt => /predU1P[->|lk] r.
  by rewrite (y_ans li) (v_ans li); apply: h1.
have [lt en] := nth_above li lk.
by have := h2 k lt; rewrite en (y_ans li) => /(_ r).
Qed.

Lemma sparse_id (M : dm) : nothing_dropped M -> forall i j, (i < nr M)%N -> (j < nc M)%N ->
  ent (sparseView M) i j = ent M i j.
Proof. by move=> h i j li lj /=; case: ifP => // /(h i j li lj) ->. Qed.

Lemma feasible_exact i x : (0 < i < size hs)%N -> nothing_dropped (l_qA (lv i)) ->
  oqp_feasible (osqp_problem (lv i)) x <-> oqp_feasible (exact_qp i) x.
Proof.
move=> li nd; rewrite /oqp_feasible /=.
have E a : (a < nr (l_qA (lv i)))%N -> rowdot (sparseView (l_qA (lv i))) a x = rowdot (l_qA (lv i)) a x.
  by move=> la; rewrite /rowdot; apply: sum_nat_eq => c lc; rewrite sparse_id.
by split=> h a la; have := h a la; rewrite E.
Qed.

Lemma cost_exact i x : (0 < i < size hs)%N -> nothing_dropped (l_qH (lv i)) ->
  oqp_cost (osqp_problem (lv i)) x = oqp_cost (exact_qp i) x.
Proof.
move=> li nd; rewrite /oqp_cost; congr (_ * _ + _); apply: sum_nat_eq => a la.
by apply: sum_nat_eq => c lc; rewrite sparse_id.
Qed.

Lemma kept_ineq_exact i : (0 < i < size hs)%N -> nothing_dropped (l_qA (lv i)) ->
  oqp_feasible (osqp_problem (lv i)) (ans_of (lv i)) ->
  forall k, (k <= i)%N -> lec (Am n (lv k) *m yv n (lv i) + av (lv k)) (vv (lv k)).
Proof.
move=> li nd /(feasible_exact _ li nd) /(content_feasible (content li))[h1 h2] k.
rewrite leq_eqVlt => /predU1P[->|lk].
  by rewrite (y_ans li) (v_ans li).
have [lt en] := nth_above li lk.
by have := h2 k lt; rewrite en (y_ans li).
Qed.

(* a vector with the given two parts *)
Definition two_parts a b (u : 'cV[R]_a) (v : 'cV[R]_b) : nat -> R := fun c =>
  if (c < a)%N then ent (of_mx u) c 0 else ent (of_mx v) (c - a) 0.

Lemma ent0 a (u : 'cV[R]_a) (c : 'I_a) : ent (of_mx u) c 0 = u c 0.
Proof. by rewrite -[0%N]/(val (0 : 'I_1)) of_mxE. Qed.

Lemma two_parts_u a b (u : 'cV[R]_a) (v : 'cV[R]_b) : col_of a (two_parts u v) = u.
Proof. by apply/matrixP => c j; rewrite mxE ord1 /two_parts ltn_ord ent0. Qed.
Lemma two_parts_v a b (u : 'cV[R]_a) (v : 'cV[R]_b) : col_of b (fun c => two_parts u v (a + c)%N) = v.
Proof. by apply/matrixP => c j; rewrite mxE ord1 /two_parts ltnNge leq_addr [~~ true]/negb addKn ent0. Qed.

(* every level's problem is feasible and so is every answer, if the solver found feasible points
   where there were any *)
Lemma all_feasible :
  (forall i, (0 < i < size hs)%N -> (exists x, oqp_feasible (osqp_problem (lv i)) x) ->
     oqp_feasible (osqp_problem (lv i)) (ans_of (lv i))) ->
  lec (Am n (nth d hs 0) *m yv n (nth d hs 0) + av (nth d hs 0)) (vv (nth d hs 0)) ->
  (forall i, (0 < i < size hs)%N -> nothing_dropped (l_qA (lv i))) ->
  forall i, (0 < i < size hs)%N -> oqp_feasible (osqp_problem (lv i)) (ans_of (lv i)).
Proof.
move=> ok h0 nd; elim=> // i IH li.
have lev k : (k <= i)%N -> lec (Am n (lv k) *m yv n (lv i) + av (lv k)) (vv (lv k)).
  case: (posnP i) => [i0|ip] lk.
    move: lk; rewrite i0 leqn0 => /eqP->.
    have [[[e1 _ e2 e3 _] _] [e4 [e5 _]]] := run_kept0 (is_run (leq_ltn_trans (leq0n _) (proj2 (andP li)))).
    by move: h0; rewrite /Am /yv /av /vv e1 e2 e3 e4 e5.
  have li' : (0 < i < size hs)%N by case/andP: li => _ li; rewrite ip ltnW.
  exact: kept_ineq_exact (nd i li') (IH li') _ lk.
pose x := two_parts (0 : 'cV[R]_(l_ns (lv i))) (Am n (lv i.+1) *m yv n (lv i) + av (lv i.+1)).
have fx : oqp_feasible (osqp_problem (lv i.+1)) x.
  apply/(feasible_exact _ li (nd _ li)); apply/(content_feasible (content li)) => /=.
  rewrite two_parts_u two_parts_v mulmx0 addr0; split=> [r|j]; first exact: lexx.
  rewrite (size_above li) => lj; have [_ ->] := nth_above li lj; exact: lev.
by apply: ok => //; exists x.
Qed.

(* C32 *)
Lemma optimal i : (0 < i < size hs)%N -> nothing_dropped (l_qA (lv i)) -> nothing_dropped (l_qH (lv i)) ->
  (l_cost (lv i) -> (Hm n (lv i))^T = Hm n (lv i)) ->
  oqp_optimal (osqp_problem (lv i)) (ans_of (lv i)) ->
  forall (y : 'cV[R]_n) (v : 'cV[R]_(l_nin (lv i))),
    (forall k, (k < i)%N -> Bm n (lv k) *m y = Bm n (lv k) *m yv n (lv i.-1)) ->
    lec (Am n (lv i) *m y + av (lv i)) v ->
    (forall k, (k < i)%N -> lec (Am n (lv k) *m y + av (lv k)) (vv (lv k))) ->
    level_objective (lv i) (yv n (lv i)) (vv (lv i)) <= level_objective (lv i) y v.
Proof.
move=> li ndA ndH sym [fa opt] y v hB hA hK.
have i0 := proj1 (andP li); have lt := proj2 (andP li).
have pr' := run_prepared sh Zs (is_run (leq_ltn_trans (leq0n _) lt)) pr.
have [|_ _ comp] := pr' i.-1; first by rewrite (sz lt) prednK // ltnW.
have [|u eu] := comp (y - yv n (lv i.-1)).
  move=> k lk; rewrite mulmxBr hB ?subrr //; by rewrite -[i]prednK.
have ey : y = yv n (lv i.-1) + Zm n (lv i.-1) *m u by rewrite -eu addrC subrK.
pose x := two_parts u v.
have fx : oqp_feasible (osqp_problem (lv i)) x.
  apply/(feasible_exact _ li ndA); apply/(content_feasible (content li)).
  rewrite two_parts_u two_parts_v -ey; split=> // j.
  by rewrite (size_above li) => lj; have [_ ->] := nth_above li lj; apply: hK.
have := opt x fx; rewrite !cost_exact //.
rewrite -(@ler_pmul2l _ 2%:R) ?ltr0n // !(content_cost (content li)) //.
by rewrite ler_add2r two_parts_u two_parts_v -ey -(y_ans li) -(v_ans li).
Qed.
End Thm.
