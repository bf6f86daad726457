(* What solving the QP for the non-contact joints does. *)
From mathcomp Require Import all_ssreflect all_algebra.
From mathcomp Require Import zify.
From mathcomp.algebra_tactics Require Import ring.
From Verif Require Import LinAlg DMat DMatL Geo_Model Geo_Spec Cone_Model Cone_Spec QP_Model QP_Spec HQP_Model HQP_Spec HQP_Proofs HQP_Thm HQP_Ex HQP_Props HQP_First LQP_Model LQP_Spec LQP_Proofs LQP_Thm LQP_Props Jacc_Model Jacc_Spec LNC_Model LNC_Spec LNC_Proofs.
Set Implicit Arguments.
Unset Strict Implicit.
Unset Printing Implicit Defensive.
Import Order.TTheory GRing.Theory Num.Theory.
Local Open Scope ring_scope.

Section LNCThm.
Variable R : rcfType.
Local Notation dm := (dm R).
Local Notation level := (level R).
Local Notation d0 := (initLevel R 0 0 0).
Local Notation answer := LQP_Spec.answer.

(* a state of the hierarchy between two calls *)
Record nc_state (rb : nrobot R) (q : dm) (t : ntask R) (r : 'cV[R]_3) (hs : seq level) : Prop := {
  ns_conf : nc_conf rb q t r hs;
  ns_ready : all_ready d0 hs
}.

Lemma conf_same rb q t r (hs hs' : seq level) : nc_conf rb q t r hs -> size hs' = 2%N ->
  (forall i, (i < 2)%N -> shaped (n_nc rb) (nth d0 hs' i)) -> prepared (n_nc rb) d0 hs' ->
  (forall i, (i < 2)%N -> same_data (nth d0 hs i) (nth d0 hs' i)) -> nc_conf rb q t r hs'.
Proof.
move=> cf sz sh pr sd; have sd0 := sd 0%N isT; have sd1 := sd 1%N isT.
split=> //.
- by move=> i li; have [-> -> _ _ _] := sd i li; apply: (nf_n cf).
- by move=> i li; have [_ _ _ _ [_ _ _ _ [-> -> _]]] := sd i li; apply: (nf_weights cf).
- exact: mq_same sd0 (nf_eq0 cf).
- exact: mi_same sd0 (nf_in0 cf).
- exact: mq_same sd1 (nf_eq1 cf).
- exact: mi_same sd1 (nf_in1 cf).
- by move=> i li; have [_ _ _ _ [_ _ ce He _]] := sd i li; have [c1 c2 c3] := nf_cost cf li; split; rewrite ?ce ?He.
- by have [_ _ _ _ [-> -> _ _ _]] := sd0; apply: (nf_rows cf).
- by have [_ _ -> -> _] := sd0; apply: (nf_ineqs cf).
Qed.

(* one call: solvefirst replaces level 0 by l0, solveSequential then level 1 *)
Lemma call_ok (osqp : nat -> bool -> oqp R -> nat -> R) rb q t r (hs : seq level) (init : bool) :
  nc_conf rb q t r hs -> init \/ all_ready d0 hs ->
  exists l0 l1 hs', [/\ hs = [:: l0; l1], CalcControlTorqueLQP_R_NC osqp (n_nc rb) hs init = Some hs', nc_state rb q t r hs',
    exists2 l0', solvefirst osqp (n_nc rb) hs init = Some [:: l0'; l1] &
      [/\ nc_conf rb q t r [:: l0'; l1], init \/ all_ready d0 [:: l0'; l1], solveSequential osqp [:: l0'; l1] init = Some hs',
          nth d0 hs' 0 = setQP l0' (l_qH l0') (l_qg l0') (l_qA l0') (l_qub l0') (l_nv l0') (l_nin l0') & size hs' = 2%N] &
    forall k, (k < 6)%N -> nc_rate rb (final hs') k = nc_rate rb (answer (nth d0 hs' 0)) k].
Proof.
move=> cf st; have sz := nf_size cf.
case: hs sz cf st => [|l0 [|l1 [|]]] // _ cf st.
set n := n_nc rb.
have sh0 : shaped n l0 := nf_shaped cf (isT : (0 < 2)%N).
have we : weighted l0.
  have /= [eV eW] := nf_weights cf (isT : (0 < 2)%N); have /= [e1 e2] := nf_n cf (isT : (0 < 2)%N).
  by rewrite /weighted eV eW e1 e2.
have [l0' [e sd an [zE nsE sh0'] _]] := first_problem osqp [:: l1] init sh0 we.
have sh k : (k < size [:: l0'; l1])%N -> shaped n (nth d0 [:: l0'; l1] k).
  by case: k => [|[|]] // _; exact: (nf_shaped cf (isT : (1 < 2)%N)).
have [nin0 neq0 A0 a0 [B0 b0 c0 H0 [V0 W0 g0]]] := sd.
have prk := nf_prepared cf.
have BE : Bm n l0' *m (0 : 'cV[R]_n) = 0 by rewrite mulmx0.
have pr : prepared n d0 [:: l0'; l1].
  have sameB m (x : 'M[R]_(n, m)) : Bm n l0' *m x = 0 <-> Bm n l0 *m x = 0.
    rewrite /Bm B0; move: (l_neq l0') neq0 => k ->; by [].
  have BZ : Bm n l0' *m Zm n l0' = 0.
    have [_ /(_ 0%N (leqnn _)) h _] := prk 0%N isT.
    by apply/sameB; rewrite /Zm zE nsE.
  move=> [|[|i]] // li; have [p1 p2 p3] := prk _ li; split.
  - by rewrite /= zE nsE.
  - by case.
  - move=> x /(_ 0%N (leqnn _)) /= /sameB hx.
    have [k|u ->] := p3 x; first by rewrite leqn0 => /eqP ->.
    by rewrite /Zm /= zE nsE; exists u.
  - by [].
  - by case=> [|k] lk; [apply/sameB; exact: (p2 0%N)|exact: (p2 k.+1)].
  - move=> x hx; apply: p3 => -[|k] lk; first by apply/sameB; exact: (hx 0%N).
    exact: (hx k.+1).
have cf' : nc_conf rb q t r [:: l0'; l1].
  by apply: (conf_same cf) => //; case=> [|[|]] //= _; split.
have st' : init \/ all_ready d0 [:: l0'; l1].
  case: st => [->|rd]; [by left|right=> -[|[|]] // li]; have [] := rd 1%N isT.
  by rewrite /qp_ready /= /rows_of /= nsE nin0.
have [|||hs' [e2 _]] := @solveSequential_ok R n osqp d0 init [:: l0'; l1].
- by [].
- by move=> i li; split; [apply: sh|have [] := pr i li].
- exact: st'.
have [rd pr' sh'] := C72_solve_leaves_ready sh pr st' e2.
have [sz' res] := C30_residuals_kept sh pr e2.
have sd' i : (i < 2)%N -> same_data (nth d0 [:: l0'; l1] i) (nth d0 hs' i).
  by move=> li; have [] := res i i; rewrite ?leqnn.
have cf2 : nc_conf rb q t r hs' by apply: (conf_same cf') => // i li; apply: sh'; rewrite sz'.
have e0 : nth d0 hs' 0 = setQP l0' (l_qH l0') (l_qg l0') (l_qA l0') (l_qub l0') (l_nv l0') (l_nin l0').
  move: e2; rewrite /solveSequential /=; case: solve_level => //= l2 [<-] //.
exists l0, l1, hs'; split=> //.
- by rewrite /CalcControlTorqueLQP_R_NC e.
- by exists l0'.
move=> k k6; have [_ kept _ _] := res 0%N 1%N isT.
have lk : (k < l_neq (nth d0 hs' 0))%N by have [_ ->] := nf_n cf2 (isT : (0 < 2)%N).
have row i : (i < 2)%N -> (Bm n (nth d0 hs' 0) *m yv n (nth d0 hs' i) + bv (nth d0 hs' 0)) (Ordinal lk) 0 = nc_rate rb (answer (nth d0 hs' i)) k - rate_wanted q k.
  move=> li; rewrite eq_row; first by rewrite (nf_rows cf2).
  by apply: (nf_shaped cf2 (isT : (0 < 2)%N)).
rewrite /final -nth_last sz'.
by apply: (addIr (- rate_wanted q k)); rewrite -!row //= kept.
Qed.

Lemma solved_state osqp rb q t r (hs hs' : seq level) : nc_conf rb q t r hs -> nc_solved osqp (n_nc rb) hs hs' -> nc_state rb q t r hs'.
Proof.
move=> cf; elim=> [h e|h1 h2 init _ IH e].
  by have [l0 [l1 [h' [_ e' st _ _]]]] := call_ok osqp cf (or_introl (isT : is_true true)); move: e'; rewrite e => -[->].
have [cf1 rd] := IH.
by have [l0 [l1 [h' [_ e' st _ _]]]] := call_ok osqp cf1 (or_intror rd : init \/ _); move: e'; rewrite e => -[->].
Qed.

(* the last call *)
Lemma solved_last osqp rb q t r (hs hs' : seq level) : nc_conf rb q t r hs -> nc_solved osqp (n_nc rb) hs hs' ->
  exists h (init : bool), [/\ nc_conf rb q t r h, init \/ all_ready d0 h & CalcControlTorqueLQP_R_NC osqp (n_nc rb) h init = Some hs'].
Proof.
move=> cf; case=> [h e|h1 h2 init so e]; first by exists hs, true; split=> //; left.
have [cf1 rd] := solved_state cf so; by exists h1, init; split=> //; right.
Qed.

(* rows and cost of level 0 on functions *)
Section Level0.
Variables (rb : nrobot R) (q : dm) (t : ntask R) (r : 'cV[R]_3) (l : level) (hs : seq level).
Hypothesis cf : nc_conf rb q t r (l :: hs).
Local Notation n := (n_nc rb).
Let sh : shaped n l := nf_shaped cf (isT : (0 < 2)%N).
Let nn : l_nin l = (2 * n)%N /\ l_neq l = 6%N := nf_n cf (isT : (0 < 2)%N).

Lemma obj0 (x v : nat -> R) : level_objective l (col_of n x) (col_of (l_nin l) v) = nc_objective rb q x v.
Proof.
have [[rB cB] [rb' cb] _ _ _] := sh; have [ni ne] := nn.
have [hc [rH cH] hH] := nf_cost cf (isT : (0 < 2)%N).
rewrite /level_objective /nc_objective hc; congr (_ + _ + _).
- rewrite /sqnorm -ne sum_ord; apply: eq_bigr => k _; congr (_ ^+ 2).
  have lk : (k < 6)%N by rewrite -ne.
  have /= <- := nf_rows cf x lk; rewrite mxE [bv l k 0]mxE; congr (_ + _).
  by rewrite (rowdot_mx _ k cB).
- by rewrite /sqnorm -ni sum_ord; apply: eq_bigr => k _; rewrite mxE.
rewrite /nc_energy mulr_sumr sum_ord mxE.
rewrite (eq_bigr (fun j : 'I_n => \sum_(i < n) 5%:R / nc_norm rb * (x i * nc_inertia rb i j * x j))); last first.
  move=> j _; rewrite mxE mulr_suml; apply: eq_bigr => i _; rewrite !mxE hH //; ring.
by rewrite exchange_big /=; apply: eq_bigr => i _; rewrite mulr_sumr sum_ord.
Qed.

Lemma excess0 (x v : nat -> R) : lec (Am n l *m col_of n x + av l) (col_of (l_nin l) v) <-> nc_excess rb x v.
Proof.
have [_ _ h _ _] := sh; have [ni ne] := nn.
have rowE (k : 'I_(l_nin l)) : (Am n l *m col_of n x + av l) k 0 = rowdot (l_A l) k x + ent (l_a l) k 0.
  have [|[_ cA] _ _] := h; first by case: k => k /=; case: (l_nin l).
  rewrite mxE [av l k 0]mxE; congr (_ + _); by rewrite (rowdot_mx _ k cA).
have sp k (lk : (k < n)%N) := nf_ineqs cf x lk; rewrite /= in sp.
split=> [hh k lk|hh k].
  have [s1 s2] := sp k lk.
  have l1 : (k < l_nin l)%N by rewrite ni; lia.
  have l2 : (n + k < l_nin l)%N by rewrite ni; lia.
  have := hh (Ordinal l1); have := hh (Ordinal l2).
  by rewrite !rowE !mxE /= s1 s2 !ler_subl_addl.
have lk2 : (k < 2 * n)%N by rewrite -ni.
rewrite rowE mxE; case: (ltnP k n) => lk.
  by have [-> _] := sp k lk; rewrite ler_subl_addl; case: (hh k lk).
have lk' : (k - n < n)%N by lia.
have [_] := sp _ lk'; rewrite subnKC // => ->; rewrite ler_subl_addl.
by case: (hh _ lk'); rewrite subnKC.
Qed.

Lemma wobj0 (y : 'cV[R]_n) (v : 'cV[R]_(l_nin l)) : @weighted_objective R n l y v = level_objective l y v.
Proof.
rewrite /weighted_objective /level_objective; have /= [_ eW] := nf_weights cf (isT : (0 < 2)%N).
suff -> : Wm l = 1%:M by rewrite (@mul1mx R (l_neq l) 1).
by rewrite /Wm eW -(proj2 nn) mx_ident.
Qed.
Lemma Vid (y : 'cV[R]_(l_nin l)) : Vm l *m y = y.
Proof.
have /= [eV _] := nf_weights cf (isT : (0 < 2)%N).
suff -> : Vm l = 1%:M by exact: mul1mx.
by rewrite /Vm eV -(proj1 nn) mx_ident.
Qed.
Lemma symH : nc_spd rb -> (Hm n l)^T = Hm n l.
Proof.
move=> [sy _]; have [_ _ hH] := nf_cost cf (isT : (0 < 2)%N).
by apply/matrixP => i j; rewrite !mxE !hH // sy.
Qed.
Lemma weighted0 : weighted l.
Proof.
have /= [eV eW] := nf_weights cf (isT : (0 < 2)%N); have [e1 e2] := nn.
by rewrite /weighted eV eW e1 e2.
Qed.
End Level0.

(* an exact solve of level 0 finds the minimum of nc_objective *)
Lemma first_minimum osqp rb q t r (hs hs' : seq level) : nc_conf rb q t r hs -> nc_solved osqp (n_nc rb) hs hs' ->
  nc_spd rb -> exactly_solved hs' 0 ->
  let x := answer (nth d0 hs' 0) in let v := slack (nth d0 hs' 0) in
  [/\ nc_excess rb x v, forall y w, nc_excess rb y w -> nc_objective rb q x v <= nc_objective rb q y w &
      forall k, (k < 2 * n_nc rb)%N -> 0 <= v k].
Proof.
move=> cf so spd ex x v.
have [h [init [cfh st e]]] := solved_last cf so.
have [l0 [l1 [h' [hE e' _ [l0' ef [cf' _ e2 eh sz]] _]]]] := call_ok osqp cfh st.
move: e'; rewrite e => -[E]; rewrite -{h'}E in e2 eh sz *.
rewrite {h}hE in cfh st e ef.
have sh0 : shaped (n_nc rb) l0 := nf_shaped cfh (isT : (0 < 2)%N).
have we : weighted l0 := weighted0 cfh.
have [l2 [e3 sd an opt]] := C71_first_level_weighted osqp [:: l1] init sh0 we.
have {e3} E2 : l2 = l0' by move: e3; rewrite ef => -[].
rewrite {}E2 in sd an opt.
have [ndA ndH op] := ex; rewrite eh in ndA ndH op.
have hx : x = answer l0' by rewrite /x eh.
have hv : v = slack l0' by rewrite /v eh.
have [|okS mn pos] := opt ndA ndH _ op; first by move=> _; apply: symH cfh spd.
have ni : l_nin l0 = (2 * n_nc rb)%N by have /= [] := nf_n cfh (isT : (0 < 2)%N).
have yE : yv (n_nc rb) l0' = col_of (n_nc rb) x by apply/matrixP => i j; rewrite !mxE hx ord1.
have vE : mx_of (l_nin l0) 1 (l_v l0') = col_of (l_nin l0) v by apply/matrixP => i j; rewrite !mxE hv ord1.
rewrite yE vE in okS mn pos; split.
- by move: okS; rewrite (Vid cfh) => /(excess0 cfh).
- move=> y w hh; rewrite -(obj0 cfh x v) -(obj0 cfh y w) -(wobj0 cfh (col_of _ x) (col_of _ v)) -(wobj0 cfh (col_of _ y) (col_of _ w)); apply: mn; rewrite (Vid cfh).
  by apply/(excess0 cfh).
move=> k; rewrite -ni => lk; by have := pos (Ordinal lk); rewrite mxE.
Qed.
End LNCThm.
