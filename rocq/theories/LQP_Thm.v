(* Consequences of the LQP configuration for the answers. *)
From mathcomp Require Import all_ssreflect all_algebra.
From mathcomp Require Import zify.
From mathcomp.algebra_tactics Require Import ring.
From Verif Require Import LinAlg DMat DMatL Cone_Model Cone_Spec Cone_Props QP_Model QP_Spec HQP_Model HQP_Spec HQP_Proofs HQP_Thm HQP_Ex HQP_Props LQP_Model LQP_Spec LQP_Proofs.
Set Implicit Arguments.
Unset Strict Implicit.
Unset Printing Implicit Defensive.
Import Order.TTheory GRing.Theory Num.Theory.
Local Open Scope ring_scope.

Section LQPThm.
Variable R : rcfType.
Local Notation dm := (dm R).
Local Notation level := (level R).
Local Notation d0 := (initLevel R 0 0 0).
Local Notation answer := LQP_Spec.answer.

(* the matrix view of a row *)
Lemma eq_row n (l l' : level) (r : 'I_(l_neq l)) : shaped n l ->
  (Bm n l *m yv n l' + bv l) r 0 = rowdot (l_B l) r (answer l') + ent (l_b l) r 0.
Proof.
case=> -[_ cB] _ _ _ _; rewrite mxE (rowdot_mx _ r cB) [bv l r 0]mxE; congr (_ + _).
by rewrite !mxE; apply: eq_bigr => j _; rewrite !mxE.
Qed.

Lemma in_row n (l l' : level) (r : 'I_(l_nin l)) : shaped n l ->
  (Am n l *m yv n l' + av l) r 0 = rowdot (l_A l) r (answer l') + ent (l_a l) r 0.
Proof.
case=> _ _ h _ _; have [|[_ cA] _ _] := h; first by case: r => r /=; case: (l_nin l).
rewrite mxE (rowdot_mx _ r cA) [av l r 0]mxE; congr (_ + _).
by rewrite !mxE; apply: eq_bigr => j _; rewrite !mxE.
Qed.

Lemma means_eqP n (l l' : level) P : shaped n l -> means_eq l P ->
  (Bm n l *m yv n l' + bv l = 0) <-> P (answer l').
Proof.
move=> sh <-; split=> [e r lr|h].
  by rewrite -(eq_row l' (Ordinal lr) sh) e mxE.
by apply/matrixP => r j; rewrite ord1 (eq_row l' r sh) h // mxE.
Qed.

Lemma means_ineqP n (l l' : level) P : shaped n l -> means_ineq l P ->
  lec (Am n l *m yv n l' + av l) 0 <-> P (answer l').
Proof.
move=> sh <-; split=> [e r lr|h r].
  by rewrite -(in_row l' (Ordinal lr) sh); apply: le_trans (e _) _; rewrite mxE.
by rewrite (in_row l' r sh) [X in _ <= X]mxE; apply: h.
Qed.

(* what repeated solving keeps *)
Lemma solved_inv osqp n (hs hs' : seq level) :
  (forall i, (i < size hs)%N -> shaped n (nth d0 hs i)) -> prepared n d0 hs -> solved osqp hs hs' ->
  [/\ size hs' = size hs, forall i, (i < size hs)%N -> shaped n (nth d0 hs' i), prepared n d0 hs' &
     [/\ all_ready d0 hs',
         forall i, (i < size hs)%N -> same_data (nth d0 hs i) (nth d0 hs' i),
         (0 < size hs)%N -> yv n (nth d0 hs' 0) = yv n (nth d0 hs 0) /\ l_v (nth d0 hs' 0) = l_v (nth d0 hs 0) &
         forall k i, (k <= i < size hs)%N ->
           Bm n (nth d0 hs' k) *m yv n (nth d0 hs' i) = Bm n (nth d0 hs' k) *m yv n (nth d0 hs' k)]].
Proof.
move=> sh pr; elim=> [h1 e|h1 h2 init _ IH e].
  have [rd pr1 sh1] := C72_solve_leaves_ready sh pr (or_introl isT) e.
  have [sz res] := C30_residuals_kept sh pr e.
  have [v0 _] := C31_inequalities_kept_partial sh pr (or_introl isT) e.
  split=> //; first by move=> i li; apply: sh1; rewrite sz.
  split=> //.
  - by move=> i li; have [] := res i i; rewrite ?leqnn.
  - by move=> s0; split=> //; have [_ _ ->] := res 0%N 0%N s0.
  - by move=> k i lki; have [] := res k i lki.
have [sz sh1 pr1 [rd1 sd1 y1 res1]] := IH.
have sh1' i : (i < size h1)%N -> shaped n (nth d0 h1 i) by rewrite sz; apply: sh1.
have [rd pr2 sh2] := C72_solve_leaves_ready sh1' pr1 (or_intror rd1) e.
have [sz2 res] := C30_residuals_kept sh1' pr1 e.
have [v0 _] := C31_inequalities_kept_partial sh1' pr1 (or_intror rd1) e.
rewrite sz in sz2 res; split=> //; first by move=> i li; apply: sh2; rewrite sz2.
split=> //.
- move=> i li.
  have [a1 a2 a3 a4 [a5 a6 a7 a8 [a9 a10 a11]]] := sd1 i li.
  have [|[b1 b2 b3 b4 [b5 b6 b7 b8 [b9 b10 b11]]] _ _ _] := res i i; first by rewrite leqnn.
  split; [by rewrite b1|by rewrite b2|by rewrite b3|by rewrite b4|].
  split; [by rewrite b5|by rewrite b6|by rewrite b7|by rewrite b8|].
  by split; [rewrite b9|rewrite b10|rewrite b11].
- move=> s0; have [_ _ yE _] := res 0%N 0%N s0; have [y1E v1E] := y1 s0.
  by rewrite yE // y1E v0 v1E.
- by move=> k i lki; have [] := res k i lki.
Qed.

Lemma solved_defined osqp n (hs hs' : seq level) init : hs <> [::] ->
  (forall i, (i < size hs)%N -> shaped n (nth d0 hs i)) -> prepared n d0 hs -> solved osqp hs hs' ->
  exists h2, CalcControlTorqueLQP osqp hs' init = Some h2.
Proof.
move=> ne sh pr so; have [sz sh1 pr1 [rd1 _ _ _]] := solved_inv sh pr so.
have [|||h2 [e _]] := @solveSequential_ok R n osqp d0 init hs'.
- by move=> e; move: sz; rewrite e; case: (hs) ne.
- by move=> i; rewrite sz => li; split; [apply: sh1|have [] := pr1 i; rewrite ?sz].
- by right.
by exists h2.
Qed.

Lemma frob_pos (D : lqdata R) m c : lq_ok D m c -> inverse_ok D -> frob (d_A D) != 0.
Proof.
move=> [nvE _ _ [rA cA] _] inv; apply/eqP; rewrite /frob rA cA => f0.
have z0 : \sum_(0 <= i < 6 + m) \sum_(0 <= j < 6 + m) ent (d_A D) i j ^+ 2 = 0.
  apply/eqP; rewrite eq_le -sqrtr_eq0 f0 eqxx /=.
  by rewrite sumr_ge0 // => i _; apply: sumr_ge0 => j _; apply: sqr_ge0.
have A0 : mx_of (d_nv D) (d_nv D) (d_A D) = 0.
  apply/matrixP => i j; rewrite !mxE; apply/eqP; rewrite -sqrf_eq0.
  move: z0; rewrite sum_ord => /eqP; rewrite psumr_eq0; last first.
    by move=> a _; apply: sumr_ge0 => b _; apply: sqr_ge0.
  move/allP; have li : (i < 6 + m)%N by rewrite -nvE.
  have lj : (j < 6 + m)%N by rewrite -nvE.
  move/(_ (Ordinal li)); rewrite mem_index_enum => /(_ isT) /=.
  rewrite sum_ord psumr_eq0; last by move=> b _; apply: sqr_ge0.
  by move/allP/(_ (Ordinal lj)); rewrite mem_index_enum => /(_ isT) /=.
move: inv; rewrite /inverse_ok A0 mul0mx => /matrixP.
have l0 : (0 < d_nv D)%N by rewrite nvE.
by move/(_ (Ordinal l0) (Ordinal l0)); rewrite !mxE eqxx => /eqP; rewrite eq_sym oner_eq0.
Qed.

Lemma conf_nr (f : dm -> dm) (rb : lrobot R) m : null_space_ok f -> robot_ok rb m ->
  exists hs C H, [/\ ConfigureLQP f rb [::] = Some hs,
    lq_conf (dataLQP rb) (fun=> 200%:R) C H [seq (t, k_J t) | t <- q_ts rb] hs,
    mass_scaled (dataLQP rb) (frob (q_A rb)) H,
    dims H (6 + m + q_cdof rb) (6 + m + q_cdof rb) /\ nr C = (q_cln rb * 10)%N &
    forall x, (forall r, (r < nr C)%N -> rowdot C r (fun j => x (6 + m + j)%N) <= 0) <-> in_cones rb (6 + m) x].
Proof.
move=> fok [[pl clnE cdE] ok inv okt]; set D := dataLQP rb in ok inv *.
have [nvE mE cE _ _] := ok.
have [H [eH dH ms]] := cost_h_ok ok (frob_pos ok inv).
pose c0 := @PContact R false 0 0 0 0 0 0 0 0.
have [C [eC [rC cC cone]]] := C08_constraint_matrix_is_cone c0 pl.
rewrite -cdE in eC cC; rewrite -clnE in eC rC.
have dC : dims C (q_cln rb * 10) (q_cdof rb) by split=> //; rewrite rC mulnC.
have okp : List.Forall (fun p : ltask R * dm => task_ok (6 + m) p.1 p.2) [seq (t, k_J t) | t <- q_ts rb].
  by elim: okt => [|t ts h _ IH] /=; constructor.
have [hs [e cf]] := conf_ok (fun=> 200%:R) fok ok eC dC dH okp.
exists hs, C, H; split=> //; last 2 first.
- by split=> //; case: dC.
- move=> x; rewrite (cone (fun j => x (6 + m + j)%N)); split=> h.
    move=> c1 k lk; rewrite (set_nth_default c0) //; exact: h.
  by move=> k lk; apply: h.
  rewrite /ConfigureLQP -/D eH; have mE' : q_m rb = m := mE; rewrite /= mE' /tlimLQP.
  move: e; case: priority1 => //= h1; case: priority2 => //= h2.
  by rewrite tasks_pairs.
Qed.

Lemma conf (f : dm -> dm) (rb : lrobot R) m : null_space_ok f -> robot_ok rb m ->
  exists hs C H, [/\ ConfigureLQP f rb [::] = Some hs,
    lq_conf (dataLQP rb) (fun=> 200%:R) C H [seq (t, k_J t) | t <- q_ts rb] hs,
    mass_scaled (dataLQP rb) (frob (q_A rb)) H,
    dims H (6 + m + q_cdof rb) (6 + m + q_cdof rb) &
    forall x, (forall r, (r < nr C)%N -> rowdot C r (fun j => x (6 + m + j)%N) <= 0) <-> in_cones rb (6 + m) x].
Proof.
by move=> fok rok; have [hs [C [H [e cf ms [dH _] cone]]]] := conf_nr fok rok; exists hs, C, H.
Qed.

(* what a call starts from *)
Lemma call_inv osqp n (hs hs2 : seq level) init :
  (forall i, (i < size hs)%N -> shaped n (nth d0 hs i)) -> prepared n d0 hs -> call osqp hs init hs2 ->
  exists hs1, [/\ solveSequential osqp hs1 init = Some hs2, init \/ all_ready d0 hs1,
    forall i, (i < size hs1)%N -> shaped n (nth d0 hs1 i), prepared n d0 hs1 &
    [/\ size hs1 = size hs, forall i, (i < size hs)%N -> same_data (nth d0 hs i) (nth d0 hs1 i) &
      (0 < size hs)%N -> yv n (nth d0 hs1 0) = yv n (nth d0 hs 0) /\ l_v (nth d0 hs1 0) = l_v (nth d0 hs 0)]].
Proof.
move=> sh pr [hs1 [[[-> ii]|so] e]].
  by exists hs; split=> //; left.
have [sz sh1 pr1 [rd sd y0 _]] := solved_inv sh pr so.
exists hs1; split=> //; [by right|by move=> i; rewrite sz; apply: sh1].
Qed.

Lemma call_solved osqp (hs hs2 : seq level) init : call osqp hs init hs2 -> solved osqp hs hs2.
Proof.
by case=> hs1 [[[-> ->]|so] e]; [apply: solved_first|apply: solved_again so e].
Qed.

Lemma solved_nonempty osqp (hs hs' : seq level) : solved osqp hs hs' -> exists init, call osqp hs init hs'.
Proof.
case=> [h e|h1 h2 init so e].
  by exists true; exists hs; split=> //; left.
by exists init; exists h1; split=> //; right.
Qed.

(* the equation of motion at the first answer *)
Lemma first_balance (D : lqdata R) m c x : lq_ok D m c -> inverse_ok D ->
  (forall i, (i < d_nv D + d_c D)%N -> x i =
    if (i < d_nv D)%N then - rowdot (d_Ainv D) i (fun j => ent (d_G D) j 0) else 0) ->
  forall i, (i < d_nv D)%N -> genforce D x i = 0.
Proof.
move=> [nvE _ cE [rA cA] [[rI cI] [rG cG] _]] inv hx i li; rewrite /genforce.
rewrite [X in _ + X + _]sum_nat0 ?addr0; last first.
  move=> j lj; rewrite hx ?ltn_add2l //.
  have -> : (d_nv D + j < d_nv D)%N = false by lia.
  by rewrite mulr0.
rewrite (@sum_nat_eq _ _ _ (fun j => ent (d_A D) i j * (- rowdot (d_Ainv D) j (fun k => ent (d_G D) k 0)))); last first.
  by move=> j lj; rewrite hx ?ltn_addr // lj.
pose G := mx_of (d_nv D) 1 (d_G D).
have -> : \sum_(0 <= j < d_nv D) ent (d_A D) i j * - rowdot (d_Ainv D) j (fun k => ent (d_G D) k 0) =
   - (mx_of (d_nv D) (d_nv D) (d_A D) *m (mx_of (d_nv D) (d_nv D) (d_Ainv D) *m G)) (Ordinal li) 0.
  rewrite mxE sum_ord -sumrN; apply: eq_bigr => j _; rewrite mulrN mxE; congr (- (_ * _)).
  rewrite [RHS]mxE /rowdot cI -nvE sum_ord; apply: eq_bigr => k _; by rewrite !mxE.
by rewrite mulmxA inv mul1mx mxE addNr.
Qed.
End LQPThm.
