From mathcomp Require Import all_ssreflect all_algebra.
From mathcomp.algebra_tactics Require Import ring.
From Verif Require Import LinAlg Geo_Model Geo_Spec Geo_Proofs Dyn_Model Dyn_Spec Dyn_Proofs.
From Verif Require Import Redis_Model Redis_Spec.
Set Implicit Arguments.
Unset Strict Implicit.
Unset Printing Implicit Defensive.
Import Order.TTheory GRing.Theory Num.Theory.
Local Open Scope ring_scope.

Section Eta.
Variable R : rcfType.
Variable zs : bool.
Local Notation ext := (ext R).

Lemma solE sg (A B C : R) : A != 0 ->
  sol zs sg (A * A) (2%:R * A * B) (B * B - C * C) =
  Fin (- B / A + (if sg then - (`|C| / `|A|) else `|C| / `|A|)).
Proof.
move=> hA; rewrite /sol /sqrtx.
have -> : 2%:R * A * B * (2%:R * A * B) - 4%:R * (A * A) * (B * B - C * C) = (2%:R * (A * C)) ^+ 2 by ring.
rewrite ltNge sqr_ge0 /= sqrtr_sqr !normrM (ger0_norm (ler0n _ _)).
have h2 : (2%:R : R) != 0 by rewrite pnatr_eq0.
have hA2 : A * A != 0 by rewrite mulf_neq0.
have nA : `|A| != 0 by rewrite normr_eq0.
have e : `|A| * `|A| = A * A by rewrite -normrM ger0_norm // -expr2 sqr_ge0.
have d : `|A| / (A * A) = `|A|^-1 by rewrite -e invfM mulrA mulfV // mul1r.
have f : - B / A = (- B * A) / (A * A) by rewrite invfM mulrA mulfK.
have k : forall w : R, (- (2%:R * A * B) + 2%:R * w) / 2%:R / (A * A) = - B / A + w / (A * A).
  move=> w; rewrite f -mulrDl; congr (_ / _).
  have -> : - (2%:R * A * B) + 2%:R * w = 2%:R * (- B * A + w) by ring.
  by rewrite mulrC mulrA mulVf // mul1r.
have q : `|A| * `|C| / (A * A) = `|C| / `|A| by rewrite mulrAC d mulrC.
case: sg; rewrite /divx /= (negPf h2) (negPf hA2); congr Fin.
  by rewrite -[- (2%:R * (`|A| * `|C|))]mulrN k [- (`|A| * _) / _]mulNr q.
by rewrite k q.
Qed.

Lemma sol0 sg (B C : R) : sol zs sg (0 * 0) (2%:R * 0 * B) (B * B - C * C) = NaN.
Proof.
rewrite /sol /sqrtx !(mulr0, mul0r) subrr ltxx sqrtr0 /divx.
by case: sg; rewrite /= !(oppr0, addr0) mul0r eqxx pnatr_eq0 /= eqxx.
Qed.

Lemma eta_boundP (A B C l u : R) : exists l' u',
  eta_bound zs A B C (Fin l, Fin u) = (Fin l', Fin u') /\
  forall e, (l' <= e <= u') = (l <= e <= u) && ((A != 0) ==> (`|A * e + B| <= `|C|)).
Proof.
rewrite /eta_bound; case: (eqVneq A 0) => [->|hA].
  by rewrite !sol0 /=; exists l, u; split=> // e; rewrite andbT.
rewrite !solE //=.
set r := `|C| / `|A|; set b := - B / A.
have r0 : 0 <= r by rewrite /r divr_ge0.
have key e : (`|A * e + B| <= `|C|) = (b - r <= e <= b + r).
  have -> : A * e + B = A * (e - b) by rewrite /b mulNr opprK mulrDr mulrCA mulfV // mulr1.
  have pA : 0 < `|A| by rewrite normr_gt0.
  by rewrite normrM mulrC -ler_pdivl_mulr // -/r ler_distl.
have lub (x y : R) e : (if x < y then x else y) >= e = (e <= x) && (e <= y).
  case: ltP => h; apply/idP/andP; [move=> h1; split=> //|by case|move=> h1; split=> //|by case].
    exact: le_trans h1 (ltW h).
  exact: le_trans h1 h.
have glb (x y : R) e : (if x < y then y else x) <= e = (x <= e) && (y <= e).
  case: ltP => h; apply/idP/andP; [move=> h1; split=> //|by case|move=> h1; split=> //|by case].
    exact: le_trans (ltW h) h1.
  exact: le_trans h h1.
case: ltP => h.
  exists (if l < b - r then b - r else l), (if b + r < u then b + r else u).
  split; first by do 2!case: ifP.
  move=> e; rewrite lub glb key; by do 4!case: (_ <= _).
have rr : r = 0.
  apply/eqP; rewrite eq_le r0 andbT; move: h; rewrite ler_add2l => h.
  by rewrite -(ler_add2r r) add0r (le_trans (ler_add h (lexx _))) // addNr.
exists (if l < b + r then b + r else l), (if b - r < u then b - r else u).
split; first by do 2!case: ifP.
move=> e; rewrite lub glb key rr subr0 addr0; by do 4!case: (_ <= _).
Qed.

Section Choose.
Variables (ec fl fw mu rx ry : R) (P1 P2 f m : 'cV[R]_3).
Let cx := ry * fw / 2%:R * `|Z f|.
Let cy := rx * fl / 2%:R * `|Z f|.
Let cz := mu * `|Z f|.
Let meets (A B C e : R) := (A != 0) ==> (`|A * e + B| <= `|C|).
Let all_meet e := [&& meets (Ax P1 P2 f) (Bx P2 f m) cx e, meets (Ay P1 P2 f) (By P2 f m) cy e
  & meets (Az P1 P2 f) (Bz P2 f m) cz e].
Local Notation eta := (choose_eta zs ec fl fw mu rx ry P1 P2 f m).

Lemma etaP : exists l u, (forall e, (l <= e <= u) = (1 - ec <= e <= ec) && all_meet e) /\
  let es := divx zs (Fin (- Bx P2 f m)) (Fin (Ax P1 P2 f)) in
  let et := if ltx (Fin u) es then Fin u else if ltx es (Fin l) then Fin l else es in
  eta = if ltx (Fin ec) et || ltx et (Fin (1 - ec)) then Fin (1 / 2%:R) else et.
Proof.
rewrite /choose_eta.
have [l1 [u1 [-> h1]]] := eta_boundP (Ax P1 P2 f) (Bx P2 f m) cx (1 - ec) ec.
have [l2 [u2 [-> h2]]] := eta_boundP (Ay P1 P2 f) (By P2 f m) cy l1 u1.
have [l3 [u3 [-> h3]]] := eta_boundP (Az P1 P2 f) (Bz P2 f m) cz l2 u2.
exists l3, u3; split; first by move=> e; rewrite h3 h2 h1 /all_meet /meets -!andbA.
have -> : - X m - Z P2 * Y f + Y P2 * Z f = - Bx P2 f m by rewrite /Bx; ring.
by [].
Qed.

(* the outcome is a number unless 0/0 arises *)
Lemma eta_defined : (exists e, eta = Fin e) <-> ~~ ((Ax P1 P2 f == 0) && (Bx P2 f m == 0)).
Proof.
have [l [u [_ ->]]] := etaP.
rewrite /divx oppr_eq0; case: eqP => a0 /=; last first.
  by split=> // _; do !case: ifP; move=> *; eexists.
case: eqP => b0 /=; first by split=> // -[e].
by split=> // _; case: (_ (+) _); rewrite /= ?if_same; do !case: ifP; move=> *; eexists.
Qed.

Lemma eta_nan : (Ax P1 P2 f == 0) && (Bx P2 f m == 0) -> eta = NaN.
Proof. by have [l [u [_ ->]]] := etaP; case/andP=> /eqP -> /eqP ->; rewrite /divx oppr0 !eqxx. Qed.

Lemma eta_range e : 1 / 2%:R <= ec -> eta = Fin e -> 1 - ec <= e <= ec.
Proof.
move=> hc; have [l [u [_ ->]]] := etaP.
set es := divx _ _ _; set et := if ltx (Fin u) es then _ else _; case: ifP => h.
  case=> <-; apply/andP; split=> //.
  rewrite ler_subl_addr; apply: (@le_trans _ _ (1 / 2%:R + 1 / 2%:R)); first by rewrite -splitr.
  by rewrite ler_add2l.
by move=> E; move: h; rewrite E /= !ltNge -negb_and => /negbFE /andP[-> ->].
Qed.

Lemma eta_meets e e0 : 1 / 2%:R <= ec -> eta = Fin e ->
  1 - ec <= e0 <= ec -> all_meet e0 -> all_meet e.
Proof.
move=> hc; have [l [u [hlu ->]]] := etaP.
move=> E r0 m0; have := hlu e0; rewrite r0 m0 /= => lu0.
have lu : l <= u by case/andP: lu0; exact: le_trans.
have inr x : l <= x <= u -> 1 - ec <= x <= ec by rewrite hlu => /andP[].
suff : l <= e <= u by rewrite hlu => /andP[].
move: E; set es := divx _ _ _; set et := if ltx (Fin u) es then _ else _.
have hl : et = NaN \/ exists x, et = Fin x /\ l <= x <= u.
  rewrite /et; clear et; move: es; case=> [x|b|]; last by left.
    right; rewrite /=; case: ltP => h1; first by exists u; rewrite lu lexx.
    case: ltP => h2; first by exists l; rewrite lu lexx.
    by exists x; rewrite h1 h2.
  by case: b => /=; right; [exists u|exists l]; rewrite lu lexx.
case: hl => [->|[x [-> hx]]] //=.
by case/andP: (inr _ hx) => h1 h2; rewrite !ltNge h1 h2 /= => -[<-].
Qed.
End Choose.
End Eta.

Section Two.
Variable R : rcfType.
Local Notation W12 := 'cV[R]_((3 + 3) + (3 + 3)).

Lemma w12P (F G : W12) : force1 F = force1 G -> moment1 F = moment1 G ->
  force2 F = force2 G -> moment2 F = moment2 G -> F = G.
Proof.
move=> h1 h2 h3 h4; rewrite -[F]vsubmxK -[G]vsubmxK; congr col_mx.
  by rewrite -[usubmx F]vsubmxK -[usubmx G]vsubmxK; congr col_mx.
by rewrite -[dsubmx F]vsubmxK -[dsubmx G]vsubmxK; congr col_mx.
Qed.

Lemma w12E (f1 m1 f2 m2 : 'cV[R]_3) (F := col_mx (col_mx f1 m1) (col_mx f2 m2)) :
  [/\ force1 F = f1, moment1 F = m1, force2 F = f2 & moment2 F = m2].
Proof. by rewrite /force1 /moment1 /force2 /moment2 /F !(col_mxKu, col_mxKd). Qed.

Lemma WmxE P1 P2 (F : W12) :
  Wmx P1 P2 *m F = col_mx (net_force F) (net_moment 0 P1 P2 F).
Proof.
rewrite -{1}[F]vsubmxK /Wmx mul_row_col -[usubmx F]vsubmxK -[dsubmx F]vsubmxK !mul_block_col.
rewrite !mul1mx !mul0mx !addr0 add_col_mx !skew_cross /net_force /net_moment !subr0.
by congr col_mx; rewrite ![crossp _ _ + _]addrC.
Qed.

Lemma net_moment_shift o P1 P2 (F : W12) :
  net_moment o P1 P2 F = net_moment 0 P1 P2 F - crossp o (net_force F).
Proof.
rewrite /net_moment /net_force.
move: (moment1 F) (moment2 F) (force1 F) (force2 F) => *.
by apply: vecP; rewrite !xyz; ring.
Qed.

Lemma same_netP P1 P2 (F F' : W12) :
  net_force F' = net_force F -> net_moment 0 P1 P2 F' = net_moment 0 P1 P2 F -> same_net P1 P2 F F'.
Proof. by move=> h1 h2; split=> // o; rewrite [LHS]net_moment_shift [RHS]net_moment_shift h1 h2. Qed.

Lemma split_net P1 P2 (F : W12) e : same_net P1 P2 F (split_wrench P1 P2 F e).
Proof.
have [e1 e2 e3 e4] := w12E (e *: net_force F)
  (e *: net_moment (e *: P1 + (1 - e) *: P2) P1 P2 F) ((1 - e) *: net_force F)
  ((1 - e) *: net_moment (e *: P1 + (1 - e) *: P2) P1 P2 F).
have nf : net_force (split_wrench P1 P2 F e) = net_force F.
  by rewrite {1}/net_force /split_wrench e1 e3 -scalerDl addrC subrK scale1r.
apply: same_netP => //.
rewrite {1}/net_moment /split_wrench e1 e2 e3 e4 net_moment_shift.
move: (net_moment 0 _ _ F) (net_force F) => M f.
by apply: vecP; rewrite !xyz; ring.
Qed.

Variable zs : bool.
Lemma twomodP ec fl fw mu rx ry P1 P2 (F : W12) :
  let r := ContactRedistributetwomod zs ec fl fw mu rx ry P1 P2 F in
  [/\ r.1.1 = col_mx (net_force F) (net_moment 0 P1 P2 F),
   r.1.2 = choose_eta zs ec fl fw mu rx ry P1 P2 (net_force F) (net_moment 0 P1 P2 F) &
   r.2 = if r.1.2 is Fin e then Some (split_wrench P1 P2 F e) else None].
Proof.
rewrite /ContactRedistributetwomod /= WmxE col_mxKu col_mxKd; split=> //.
case: (choose_eta _ _ _ _ _ _ _ _ _ _ _) => // e; congr Some.
rewrite /split_wrench [net_moment (_ + _) _ _ _]net_moment_shift.
move: (net_moment 0 _ _ F) (net_force F) => M f.
by congr (col_mx (col_mx _ _) (col_mx _ _)); apply: vecP; rewrite !xyz; ring.
Qed.

Lemma AxE P1 P2 (f : 'cV[R]_3) : Ax P1 P2 f = - X (crossp (P1 - P2) f).
Proof. by rewrite /Ax !xyz; ring. Qed.
Lemma AyE P1 P2 (f : 'cV[R]_3) : Ay P1 P2 f = - Y (crossp (P1 - P2) f).
Proof. by rewrite /Ay !xyz; ring. Qed.
Lemma AzE P1 P2 (f : 'cV[R]_3) : Az P1 P2 f = - Z (crossp (P1 - P2) f).
Proof. by rewrite /Az !xyz; ring. Qed.

Lemma ABx P1 P2 e (F : W12) :
  Ax P1 P2 (net_force F) * e + Bx P2 (net_force F) (net_moment 0 P1 P2 F) =
  X (net_moment (e *: P1 + (1 - e) *: P2) P1 P2 F).
Proof. by rewrite [net_moment (_ + _) _ _ _]net_moment_shift /Ax /Bx !xyz; ring. Qed.
Lemma ABy P1 P2 e (F : W12) :
  Ay P1 P2 (net_force F) * e + By P2 (net_force F) (net_moment 0 P1 P2 F) =
  Y (net_moment (e *: P1 + (1 - e) *: P2) P1 P2 F).
Proof. by rewrite [net_moment (_ + _) _ _ _]net_moment_shift /Ay /By !xyz; ring. Qed.
Lemma ABz P1 P2 e (F : W12) :
  Az P1 P2 (net_force F) * e + Bz P2 (net_force F) (net_moment 0 P1 P2 F) =
  Z (net_moment (e *: P1 + (1 - e) *: P2) P1 P2 F).
Proof. by rewrite [net_moment (_ + _) _ _ _]net_moment_shift /Az /Bz !xyz; ring. Qed.

(* both feet of a split meet the limits iff the common moment does *)
Lemma feet_okE ly lx mu P1 P2 (F : W12) e : 0 < e < 1 ->
  let f := net_force F in let M := net_moment (e *: P1 + (1 - e) *: P2) P1 P2 F in
  feet_ok ly lx mu (split_wrench P1 P2 F e) <-> foot_ok ly lx mu f M.
Proof.
move=> /andP[e0 e1] f M.
have [h1 h2 h3 h4] := w12E (e *: f) (e *: M) ((1 - e) *: f) ((1 - e) *: M).
rewrite /feet_ok /split_wrench -/f -/M h1 h2 h3 h4 /foot_ok !xyz.
have d0 : 0 < 1 - e by rewrite subr_gt0.
have k (x a b l : R) : 0 < x -> (`|x * a| <= l * `|x * b|) = (`|a| <= l * `|b|).
  by move=> hx; rewrite !normrM (ger0_norm (ltW hx)) mulrCA ler_pmul2l.
by rewrite !k //; split=> [[] //|].
Qed.
End Two.
