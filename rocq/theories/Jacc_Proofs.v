(* Proofs about the acceleration-level QPs: the meaning of the problem. *)
From mathcomp Require Import all_ssreflect all_algebra.
From mathcomp Require Import zify.
From mathcomp.algebra_tactics Require Import ring.
From Verif Require Import DMat DMatL Cone_Model Cone_Spec Cone_Props QP_Model QP_Proofs Jacc_Model Jacc_Spec.
Set Implicit Arguments.
Unset Strict Implicit.
Unset Printing Implicit Defensive.
Import Order.TTheory GRing.Theory Num.Theory.
Local Open Scope ring_scope.

Section JaccProofs.
Variable R : realFieldType.
Local Notation dm := (dm R).
Local Notation jdata := (jdata R).

Definition blank (M : dm) (i j h w : nat) : Prop :=
  forall a b, (i <= a < i + h)%N -> (j <= b < j + w)%N -> ent M a b = 0.

Lemma blank_zero r c i j h w : blank (dzero R r c) i j h w.
Proof. by []. Qed.

Lemma blank_blockw (M M' : dm) i0 j0 h0 w0 B i j h w : blockw M i0 j0 h0 w0 B = Some M' -> blank M i j h w ->
  (i + h <= i0 \/ i0 + h0 <= i \/ j + w <= j0 \/ j0 + w0 <= j)%N -> blank M' i j h w.
Proof.
move/blockwP => [_ [_ _ e]] bl dj a b ha hb; rewrite e bl //.
case: ifP => // /andP[/andP[h1 h2] /andP[h3 h4]].
case/andP: ha => g1 g2; case/andP: hb => g3 g4; lia.
Qed.

Lemma blockw_row (M M' : dm) i0 j0 h w B : blockw M i0 j0 h w B = Some M' -> blank M i0 j0 h w ->
  forall a x, rowdot M' a x = rowdot M a x + (if (i0 <= a < i0 + h)%N then rowdot B (a - i0) (fun k => x (j0 + k)%N) else 0).
Proof.
move/blockwP => [[rB cB h1 h2] [_ ncM e]] bl a x; rewrite /rowdot ncM.
case: ifP => ha; last first.
  by rewrite addr0; apply: sum_nat_eq => j lj; rewrite e ha.
have -> : \sum_(0 <= j < nc M) ent M' a j * x j =
   \sum_(0 <= j < nc M) (ent M a j * x j + (if (j0 <= j < j0 + w)%N then ent B (a - i0) (j - j0) * x j else 0)).
  apply: sum_nat_eq => j lj; rewrite e ha /=; case: ifP => hj; last by rewrite addr0.
  by rewrite bl // mul0r add0r.
rewrite big_split /=; congr (_ + _).
rewrite (@sum_window _ j0 w) //; last by move=> j _ /negbTE ->.
rewrite cB; apply: sum_nat_eq => j lj.
by rewrite leq_addr ltn_add2l lj addKn.
Qed.

Lemma row_zero r c a (x : nat -> R) : rowdot (dzero R r c) a x = 0.
Proof. by rewrite /rowdot; apply: sum_nat0 => j _; rewrite mul0r. Qed.

(* a row that a write does not touch *)
Lemma blockw_row_other (M M' : dm) i0 j0 h w B a x : blockw M i0 j0 h w B = Some M' -> ~~ (i0 <= a < i0 + h)%N ->
  rowdot M' a x = rowdot M a x.
Proof.
move/blockwP => [_ [_ ncM e]] /negbTE ha; rewrite /rowdot ncM.
by apply: sum_nat_eq => j lj; rewrite e ha.
Qed.

Lemma segwP (v v' s : dm) i h : segw v i h s = Some v' ->
  [/\ nr s = h, (i + h <= nr v)%N, nr v' = nr v, nc v' = nc v &
   forall a, ent v' a 0 = if (i <= a < i + h)%N then ent s (a - i) 0 else ent v a 0].
Proof.
move/blockwP => [[rs cs h1 h2] [r c e]]; split=> // a; rewrite e /= addn1 subn0.
by case: (i <= a < i + h)%N.
Qed.

Lemma segw_some (v s : dm) i h : dims s h 1 -> (i + h <= nr v)%N -> nc v = 1%N -> exists v', segw v i h s = Some v'.
Proof. by case=> rs cs le c1; apply: blockw_some; rewrite ?rs ?cs ?c1. Qed.

Lemma rowdot_nc (M : dm) n a x : nc M = n -> rowdot M a x = jaccel n M x a.
Proof. by move=> <-. Qed.

(* the tasks above *)
Lemma jprev_ok nv n : (nv <= n)%N -> forall (prev : seq (nat * dm * dm)) idx (A lb : dm),
  List.Forall (fun p => dims p.1.2 p.1.1 nv /\ dims p.2 p.1.1 1) prev ->
  let tot := sumn [seq p.1.1 | p <- prev] in
  (idx + tot <= nr A)%N -> nc A = n -> dims lb (nr A) 1 -> blank A idx 0 (nr A - idx) n ->
  exists A' lb', [/\ jprev nv prev idx A lb = Some (A', lb', (idx + tot)%N), dims A' (nr A) n, dims lb' (nr A) 1,
    blank A' (idx + tot) 0 (nr A - (idx + tot)) n &
    [/\ forall a x, (a < idx)%N -> rowdot A' a x = rowdot A a x, forall a, (a < idx)%N -> ent lb' a 0 = ent lb a 0 &
    forall x, (forall a, (idx <= a < idx + tot)%N -> rowdot A' a x = ent lb' a 0) <-> kept nv prev x]].
Proof.
move=> lvn; elim=> [|[[p J] f] prev IH] idx A lb ok tot le ncA dlb bl.
  exists A, lb; rewrite /tot /= addn0; split=> //; split=> // x.
  by split=> [_|_ a]; [constructor|case/andP=> h1 h2; lia].
case/List.Forall_cons_iff: ok => -[dJ df] ok; rewrite /= in dJ df.
have totE : tot = (p + sumn [seq q.1.1 | q <- prev])%N by [].
clearbody tot; case: (dlb) => rlb clb; case: (dJ) => rJ cJ; case: (df) => rf cf.
have [A1 eA1] : exists A1, blockw A idx 0 p nv J = Some A1.
  by apply: blockw_some => //; rewrite ?add0n ?ncA //; lia.
have [lb1 elb1] : exists lb1, segw lb idx p f = Some lb1.
  by apply: segw_some => //; rewrite rlb; lia.
have [[_ _ _ _] [rA1 cA1 _]] := blockwP eA1.
have [_ _ rlb1 clb1 elb] := segwP elb1.
have bl1 : blank A1 (idx + p) 0 (nr A1 - (idx + p)) n.
  apply: (blank_blockw eA1); last by right; left.
  by move=> a b ha hb; apply: bl => //; rewrite rA1 in ha; lia.
have [||||A' [lb' [e dA' dlb' bl' [r1 r2 r3]]]] := IH (idx + p)%N A1 lb1 ok.
- by rewrite rA1; lia.
- by rewrite cA1.
- by split; rewrite ?rlb1 ?clb1 ?rA1.
- exact: bl1.
have sE : (idx + p + sumn [seq q.1.1 | q <- prev])%N = (idx + tot)%N by rewrite totE addnA.
rewrite rA1 sE in e dA' dlb' bl' r3.
have rowA a x : (idx <= a < idx + p)%N -> rowdot A1 a x = jaccel nv J x (a - idx).
  move=> ha; rewrite (blockw_row eA1) ?ha.
    rewrite [rowdot A a x](_ : _ = 0); last first.
      rewrite /rowdot ncA; apply: sum_nat0 => j lj; rewrite bl ?mul0r //.
      by lia.
    by rewrite add0r (rowdot_nc _ _ cJ).
  by move=> a' b ha' hb; apply: bl; rewrite ?add0n in hb *; lia.
exists A', lb'; split=> //; first by rewrite /= eA1 elb1.
split.
- move=> a x la; rewrite r1 ?(blockw_row_other _ eA1) //; lia.
- by move=> a la; rewrite r2 ?elb; [case: ifP => // h; lia|lia].
move=> x; rewrite /kept List.Forall_cons_iff -/(kept nv prev x) -r3 /=; split=> [h|[h1 h2] a ha].
  split=> [r lr|a ha]; last by apply: h; lia.
  have hh : (idx <= idx + r < idx + p)%N by lia.
  have := h (idx + r)%N; rewrite r1 ?r2 ?rowA ?elb ?hh ?addKn //; [|lia|lia].
  by apply; lia.
case: (ltnP a (idx + p)) => hp; last by apply: h2; lia.
rewrite r1 // r2 // rowA ?elb; last by lia.
have hh : (idx <= a < idx + p)%N by lia.
by rewrite hh h1 //; lia.
Qed.


(* the equation of motion and the contacts *)
Lemma jmotion_ok (D : jdata) m c n eq : jd_ok D m c -> (6 + m + m + c <= n)%N -> (6 + m + c <= eq)%N ->
  exists A lb, [/\ jmotion D n (dzero R eq n) (dzero R eq 1) = Some (A, lb), dims A eq n, dims lb eq 1,
    blank A (6 + m + c) 0 (eq - (6 + m + c)) n &
    forall x, (forall a, (a < 6 + m + c)%N -> rowdot A a x = ent lb a 0) <->
      motion D (gravity D) x /\ forall r, (r < c)%N -> jaccel (d_nv D) (d_J D) x r = 0].
Proof.
case=> nvE mE cE [rA cA] [[rG cG] [rJ cJ]] len leq.
rewrite /jmotion nvE mE cE.
have [ST eST] : exists ST, blockw (dzero R (6 + m) m) 6 0 m m (dident R m) = Some ST by apply: blockw_some.
have [A1 eA1] : exists A1, blockw (dzero R eq n) 0 0 (6 + m) (6 + m) (d_A D) = Some A1.
  by apply: blockw_some => //=; lia.
have [_ [rST cST STe]] := blockwP eST.
have [_ [rA1 cA1 _]] := blockwP eA1.
have [A2 eA2] : exists A2, blockw A1 0 (6 + m) (6 + m) m (dopp ST) = Some A2.
  by apply: blockw_some => //=; rewrite ?rST ?cST ?rA1 ?cA1 //=; lia.
have [_ [rA2 cA2 _]] := blockwP eA2.
have [A3 eA3] : exists A3, blockw A2 0 (6 + m + m) (6 + m) c (dtr (d_J D)) = Some A3.
  by apply: blockw_some => //=; rewrite ?rA2 ?cA2 ?rA1 ?cA1 //=; lia.
have [_ [rA3 cA3 _]] := blockwP eA3.
have [lb elb] : exists lb, segw (dzero R eq 1) 0 (6 + m) (dopp (d_G D)) = Some lb.
  by apply: segw_some => //=; lia.
have [_ _ rlb clb lbe] := segwP elb.
have [A4 eA4] : exists A4, blockw A3 (6 + m) 0 c (6 + m) (d_J D) = Some A4.
  by apply: blockw_some => //=; rewrite ?rA3 ?cA3 ?rA2 ?cA2 ?rA1 ?cA1 //=; lia.
have [_ [rA4 cA4 _]] := blockwP eA4.
rewrite eST eA1 eA2 eA3 elb eA4.
have b1 : blank A1 0 (6 + m) (6 + m) m by apply: (blank_blockw eA1) => //; lia.
have b2 : blank A2 0 (6 + m + m) (6 + m) c.
  by apply: (blank_blockw eA2); last lia; apply: (blank_blockw eA1) => //; lia.
have b3 : blank A3 (6 + m) 0 (eq - (6 + m)) n.
  by apply: (blank_blockw eA3); last lia; apply: (blank_blockw eA2); last lia; apply: (blank_blockw eA1) => //; lia.
have b3' : blank A3 (6 + m) 0 c (6 + m) by move=> a b ha hb; apply: b3; lia.
have b4 : blank A4 (6 + m + c) 0 (eq - (6 + m + c)) n.
  by apply: (blank_blockw eA4); last lia; move=> a b ha hb; apply: b3; lia.
exists A4, lb; split=> //; first by split; rewrite ?rA4 ?rA3 ?rA2 ?rA1 ?cA4 ?cA3 ?cA2 ?cA1.
move=> x.
have rowM a : (a < 6 + m)%N -> rowdot A4 a x = jaccel (6 + m) (d_A D) x a - (if (a < 6)%N then 0 else trq D x (a - 6))
    + \sum_(0 <= j < c) ent (d_J D) j a * frc D x j.
  move=> la; rewrite (blockw_row_other _ eA4); last by lia.
  rewrite (blockw_row eA3) // (blockw_row eA2) // (blockw_row eA1) // row_zero.
  have -> : (0 <= a < 0 + (6 + m))%N by lia.
  rewrite subn0 add0r (rowdot_nc _ _ cA); congr (_ + _ + _); last first.
    by rewrite /rowdot /= rJ; apply: sum_nat_eq => j lj; rewrite /frc nvE mE.
  rewrite /rowdot /= cST /=.
  case: (ltnP a 6) => h6.
    rewrite oppr0; apply: sum_nat0 => j lj; rewrite STe.
    have -> : (6 <= a < 6 + m)%N = false by lia.
    by rewrite /= oppr0 mul0r.
  rewrite (@sum_window _ (a - 6) 1); last first.
  - move=> j lj hj; rewrite STe; case: ifP => // _ /=; last by rewrite oppr0 mul0r.
    have -> : (a - 6 == j - 0)%N = false by lia.
    by rewrite oppr0 mul0r.
  - lia.
  rewrite big_nat1 STe addn0.
  have -> : ((6 <= a < 6 + m) && (0 <= a - 6 < 0 + m))%N by lia.
  by rewrite /= subn0 eqxx mulN1r /trq nvE.
have rowC r : (r < c)%N -> rowdot A4 (6 + m + r)%N x = jaccel (6 + m) (d_J D) x r.
  move=> lr; rewrite (blockw_row eA4) //.
  have -> : (6 + m <= 6 + m + r < 6 + m + c)%N by lia.
  rewrite addKn (rowdot_nc _ _ cJ) [rowdot A3 _ _](_ : _ = 0) ?add0r //.
  by rewrite /rowdot cA3 cA2 cA1; apply: sum_nat0 => j lj; rewrite b3 ?mul0r //=; lia.
have lbM a : (a < 6 + m)%N -> ent lb a 0 = - gravity D a.
  by move=> la; rewrite lbe /= add0n la subn0.
have lbC r : ent lb (6 + m + r)%N 0 = 0.
  by rewrite lbe /=; case: ifP => // h; lia.
split=> [h|[h1 h2] a la].
  split=> [i|r lr]; last by rewrite -rowC // h ?lbC //; lia.
  rewrite nvE cE => li.
  have := h i; rewrite rowM // lbM // => /(_ ltac:(lia)) e.
  apply/eqP; rewrite -subr_eq0; apply/eqP; rewrite -[RHS](subrr (- gravity D i)) -{1}e; ring.
case: (ltnP a (6 + m)) => ha.
  rewrite rowM // lbM //; have := h1 a; rewrite nvE cE => /(_ ha) <-; ring.
have {1 2}-> : a = (6 + m + (a - (6 + m)))%N by lia.
by rewrite rowC ?lbC ?h2 //; lia.
Qed.

Lemma lput_some (l : lbv R) i h w : (i + h <= lsize l)%N -> dims w h 1 ->
  lput l i h w = Some (LBV (lsize l) (fun k => if (i <= k < i + h)%N then Some (ent w (k - i) 0) else lent l k)).
Proof. by move=> le [rw cw]; rewrite /lput le rw cw !eqxx. Qed.

Lemma lconst_some (l : lbv R) i h x : (i + h <= lsize l)%N ->
  lconst l i h x = Some (LBV (lsize l) (fun k => if (i <= k < i + h)%N then Some x else lent l k)).
Proof. by move=> le; rewrite /lconst le. Qed.

Lemma norm_le (x l : R) : (- l <= x /\ x <= l) <-> `|x| <= l.
Proof. by rewrite ler_norml; split=> [[-> ->]|/andP]. Qed.

(* the cost *)
Lemma jcost_ok (D : jdata) m c t : jd_ok D m c ->
  exists H, [/\ jcost D t = Some H, dims H (6 + m + m + c + t) (6 + m + m + c + t) &
    forall x, \sum_(0 <= i < nr H) \sum_(0 <= j < nc H) x i * ent H i j * x j = energy D x + 100%:R * deviation D t x].
Proof.
case=> nvE mE cE [rA cA] _; rewrite /jcost nvE mE cE.
set n := (6 + m + m + c + t)%N.
have [H1 e1] : exists H1, blockw (dzero R n n) 0 0 (6 + m) (6 + m) (d_A D) = Some H1.
  by apply: blockw_some => //=; rewrite /n; lia.
have [_ [r1 c1 _]] := blockwP e1.
have [H e2] : exists H, blockw H1 (6 + m + m + c) (6 + m + m + c) t t (dscal t 100%:R) = Some H.
  by apply: blockw_some => //=; rewrite ?r1 ?c1 /n //=.
have [_ [r2 c2 _]] := blockwP e2.
rewrite e1 e2; exists H; rewrite r2 c2 r1 c1 /=; split=> //; first by split; rewrite ?r2 ?c2 ?r1 ?c1.
move=> x; pose u := (6 + m + m + c)%N.
have b1 : blank H1 u u t t by apply: (blank_blockw e1) => //; rewrite /u; lia.
have row a : \sum_(0 <= j < n) x a * ent H a j * x j =
    (if (a < 6 + m)%N then x a * jaccel (6 + m) (d_A D) x a else 0) +
    (if (u <= a < u + t)%N then 100%:R * x a ^+ 2 else 0).
  have -> : \sum_(0 <= j < n) x a * ent H a j * x j = x a * rowdot H a x.
    by rewrite /rowdot c2 c1 mulr_sumr; apply: sum_nat_eq => j _; rewrite mulrA.
  rewrite (blockw_row e2) // (blockw_row e1) // row_zero add0r mulrDr subn0 add0n /=; congr (_ + _).
    by case: ifP; rewrite ?mulr0 // (rowdot_nc _ _ cA).
  case: ifP => ha; last by rewrite mulr0.
  rewrite /rowdot /= (@sum_window _ (a - u) 1); last first.
  - move=> j lj hj; have -> : (a - (6 + m + m + c) == j)%N = false by rewrite /u in hj; lia.
    by rewrite mul0r.
  - lia.
  rewrite big_nat1 addn0 eqxx -/u subnKC; first by rewrite mulrCA.
  by case/andP: ha.
rewrite (@sum_nat_eq _ n _ (fun a => (if (a < 6 + m)%N then x a * jaccel (6 + m) (d_A D) x a else 0) +
    (if (u <= a < u + t)%N then 100%:R * x a ^+ 2 else 0))); last by move=> a _; apply: row.
rewrite big_split /=; congr (_ + _).
  rewrite (@sum_window _ 0 (6 + m)); first last.
  - by move=> j _; rewrite add0n /= => /negbTE ->.
  - by rewrite /n; lia.
  rewrite /energy nvE; apply: sum_nat_eq => i li; rewrite add0n li /jaccel mulr_sumr.
  by apply: sum_nat_eq => j _; rewrite mulrA.
rewrite (@sum_window _ u t); first last.
- by move=> j _ /negbTE ->.
- by rewrite /n /u.
rewrite /deviation mulr_sumr; apply: sum_nat_eq => r lr.
by rewrite leq_addr ltn_add2l lr /slk nvE mE cE.
Qed.

(* the whole problem *)
Lemma JaccQP_ok (D : jdata) m c (C : dm) ccs tb prev t (J f : dm) : jd_ok D m c -> dims C ccs c -> (tb <= m)%N ->
  List.Forall (fun p => dims p.1.2 p.1.1 (6 + m) /\ dims p.2 p.1.1 1) prev ->
  dims J t (6 + m) -> dims f t 1 ->
  exists q, [/\ JaccQP D C ccs tb prev t J f = Some q,
    forall x, bqp_feasible q x <->
      [/\ motion D (gravity D) x, forall r, (r < d_c D)%N -> jaccel (d_nv D) (d_J D) x r = 0,
          forall r, (r < ccs)%N -> rowdot C r (frc D x) <= 0,
          forall r, (r < d_m D)%N -> `|x (6 + r)%N| <= 10%:R &
      [/\ forall r, (r < tb)%N -> `|trq D x r| <= 200%:R, kept (d_nv D) prev x & follows D t J f x]] &
    forall x, bqp_cost q x = 1 / 2%:R * (energy D x + 100%:R * deviation D t x)].
Proof.
move=> ok dC ltb okp dJ df; have [nvE mE cE [rA cA] [[rG cG] [rJC cJC]]] := ok.
have [H [eH dH Hcost]] := jcost_ok t ok.
rewrite /JaccQP eH nvE mE cE; cbv zeta.
set n := (6 + m + m + c + t)%N; set P := sumn _; set eq := (6 + m + c + P + t)%N.
have [||A1 [lb1 [e1 [rA1 cA1] [rl1 cl1] bl1 row1]]] := @jmotion_ok D m c n eq ok; try by rewrite /n /eq; lia.
rewrite e1 [in jprev _ _ _ _ _]/=.
have lvn : (6 + m <= n)%N by rewrite /n; lia.
have [||||A2 [lb2 [e2 [rA2 cA2] [rl2 cl2] bl2 [k1 k2 row2]]]] := @jprev_ok (6 + m) n lvn prev (6 + m + c) A1 lb1 okp.
- by rewrite rA1 /eq -/P; lia.
- exact: cA1.
- by rewrite rA1.
- by rewrite rA1.
rewrite rA1 -/P in rA2 rl2 bl2 row2 e2; rewrite e2; cbv iota beta.
set idx := (6 + m + c + P)%N in bl2 row2 *.
have idxE : (idx + t)%N = eq by [].
have [rJ cJ] := dJ.
have [A3 e3] : exists A3, blockw A2 idx 0 t (6 + m) J = Some A3.
  by apply: blockw_some; rewrite ?rA2 ?cA2 //; lia.
have [_ [rA3 cA3 _]] := blockwP e3; rewrite rA2 in rA3; rewrite cA2 in cA3.
have [A4 e4] : exists A4, blockw A3 idx (6 + m + m + c) t t (dopp (dident R t)) = Some A4.
  by apply: blockw_some; rewrite ?rA3 ?cA3 //=; rewrite ?idxE /n; lia.
have [_ [rA4 cA4 _]] := blockwP e4; rewrite rA3 in rA4; rewrite cA3 in cA4.
have [lb3 e5] : exists lb3, segw lb2 idx t f = Some lb3 by apply: segw_some; rewrite ?rl2 ?idxE.
have [_ _ rl3 cl3 lbe] := segwP e5; rewrite rl2 in rl3; rewrite cl2 in cl3.
have [rC cC] := dC.
have [Ai e6] : exists Ai, blockw (dzero R ccs n) 0 (6 + m + m) ccs c C = Some Ai.
  by apply: blockw_some => //=; rewrite /n; lia.
have [_ [rAi cAi _]] := blockwP e6; rewrite /= in rAi cAi.
have [B1 e7] : exists B1, blockw (dzero R (eq + ccs) n) 0 0 eq n A4 = Some B1.
  by apply: blockw_some => //=; lia.
have [_ [rB1 cB1 _]] := blockwP e7; rewrite /= in rB1 cB1.
have [B2 e8] : exists B2, blockw B1 eq 0 ccs n Ai = Some B2.
  by apply: blockw_some => //=; rewrite ?rB1 ?cB1.
have [_ [rB2 cB2 _]] := blockwP e8; rewrite rB1 in rB2; rewrite cB1 in cB2.
have [u1 e9] : exists u1, segw (dzero R (eq + ccs) 1) 0 eq lb3 = Some u1 by apply: segw_some => //=; lia.
have [_ _ ru1 cu1 u1e] := segwP e9; rewrite /= in ru1 cu1.
have [u2 e10] : exists u2, segw u1 eq ccs (dzero R ccs 1) = Some u2 by apply: segw_some => //=; rewrite ?ru1.
have [_ _ ru2 cu2 u2e] := segwP e10; rewrite ru1 in ru2; rewrite cu1 in cu2.
rewrite e3 e4 e5 e6 e7 e8 lput_some /=; [|lia|by []].
rewrite /lsetinf /= leqnn e9 e10 !lconst_some /=; try (rewrite /n; lia).
eexists; split; first by [].
  move=> x; rewrite /bqp_feasible /= rB2 cB2.
  have lbE a : (a < eq)%N -> ent u2 a 0 = ent lb3 a 0.
    move=> la; rewrite u2e u1e /= add0n la subn0; case: ifP => // h; lia.
  have u2C r : (r < ccs)%N -> ent u2 (eq + r)%N 0 = 0.
    by move=> lr; rewrite u2e leq_addr ltn_add2l lr.
  have rowE a : (a < eq)%N -> rowdot B2 a x = rowdot A4 a x.
    move=> la; rewrite (blockw_row_other _ e8); last by lia.
    by rewrite (blockw_row e7) // row_zero add0r /= add0n la subn0.
  have rowI r : (r < ccs)%N -> rowdot B2 (eq + r)%N x = rowdot C r (frc D x).
    move=> lr; rewrite (blockw_row e8); last by apply: (blank_blockw e7) => //; lia.
    rewrite leq_addr ltn_add2l lr addKn (blockw_row e7) // row_zero add0r.
    have -> : (0 <= eq + r < 0 + eq)%N = false by lia.
    rewrite add0r [rowdot Ai _ _](_ : _ = rowdot Ai r x) //.
    rewrite (blockw_row e6) // row_zero add0r /= add0n lr subn0.
    by apply: sum_nat_eq => j lj; rewrite /frc nvE mE.
  have A4lt a : (a < idx)%N -> rowdot A4 a x = rowdot A2 a x.
    by move=> la; rewrite (blockw_row_other _ e4) ?(blockw_row_other _ e3) //; lia.
  have bl3 : blank A2 idx 0 t (6 + m) by move=> a b ha hb; apply: bl2; lia.
  have bl4 : blank A3 idx (6 + m + m + c) t t.
    by apply: (blank_blockw e3); last lia; move=> a b ha hb; apply: bl2; rewrite /n; lia.
  have A4t r : (r < t)%N -> rowdot A4 (idx + r)%N x = jaccel (6 + m) J x r - slk D x r.
    move=> lr; rewrite (blockw_row e4) // (blockw_row e3) // leq_addr ltn_add2l lr addKn.
    have -> : rowdot A2 (idx + r)%N x = 0.
      by rewrite /rowdot cA2; apply: sum_nat0 => j lj; rewrite bl2 ?mul0r //; lia.
    rewrite add0r (rowdot_nc _ _ cJ); congr (_ + _).
    rewrite /rowdot /= (@sum_window _ r 1); last first.
    - move=> j lj hj; have -> : (r == j) = false by lia.
      by rewrite oppr0 mul0r.
    - lia.
    by rewrite big_nat1 addn0 eqxx mulN1r /slk nvE mE cE.
  have lb3lt a : (a < idx)%N -> ent lb3 a 0 = ent lb2 a 0.
    by move=> la; rewrite lbe; case: ifP => // h; lia.
  have lb3t r : (r < t)%N -> ent lb3 (idx + r)%N 0 = ent f r 0.
    by move=> lr; rewrite lbe leq_addr ltn_add2l lr addKn.
  split.
    case=> hr hb.
    have heq a : (a < eq)%N -> rowdot A4 a x = ent lb3 a 0.
      move=> la; have [|h1 h2] := hr a; first by lia.
      rewrite rowE // lbE // in h2; have := h1 (ent lb3 a 0).
      have -> : (eq <= a < eq + ccs)%N = false by lia.
      rewrite add0n la subn0 rowE // => /(_ erefl) h3.
      by apply/eqP; rewrite eq_le h2 h3.
    have [h1 h2] : motion D (gravity D) x /\ forall r, (r < c)%N -> jaccel (d_nv D) (d_J D) x r = 0.
      apply/row1 => a la; rewrite -k1 // -k2 // -A4lt ?heq ?lb3lt //; rewrite /idx /eq; lia.
    rewrite -nvE; split=> //.
    - move=> r lr; have [|_] := hr (eq + r)%N; first by lia.
      by rewrite rowI // u2C.
    - move=> r lr; have [|g1 g2] := hb (6 + r)%N; first by rewrite /n; lia.
      have e0 : ((6 + m) <= 6 + r < (6 + m) + tb)%N = false by lia.
      have e0' : (6 <= 6 + r < 6 + m)%N by lia.
      apply/norm_le; split; [apply: g1|apply: g2]; by rewrite e0 e0'.
    split.
    - move=> r lr; rewrite /trq nvE.
      have [|g1 g2] := hb (6 + m + r)%N; first by rewrite /n; lia.
      have e0 : ((6 + m) <= 6 + m + r < (6 + m) + tb)%N by lia.
      by apply/norm_le; split; [apply: g1|apply: g2]; rewrite e0.
    - rewrite nvE; apply/row2 => a ha; rewrite -A4lt ?heq ?lb3lt //; rewrite /idx /eq; lia.
    move=> r lr; rewrite nvE -lb3t // -heq; last by lia.
    by rewrite A4t // subrK.
  case=> m1 m2 m3 m4 [m5 m6 m7].
  have heq a : (a < eq)%N -> rowdot A4 a x = ent lb3 a 0.
    move=> la; case: (ltnP a (6 + m + c)) => h1.
      rewrite A4lt ?lb3lt ?k1 ?k2 //; try (rewrite /idx; lia).
      by apply: (proj2 (row1 x) _ a h1); split=> // r lr; rewrite nvE; apply: m2.
    case: (ltnP a idx) => h2.
      rewrite A4lt ?lb3lt //.
      by apply: (proj2 (row2 x)) => //; rewrite h1 h2.
    have -> : a = (idx + (a - idx))%N by lia.
    rewrite A4t ?lb3t; try lia.
    have := m7 (a - idx)%N; rewrite nvE => -> ; last by lia.
    by rewrite addrK.
  split.
    move=> a la; case: (ltnP a eq) => h.
      rewrite rowE // heq // lbE //; split=> // l.
      by rewrite ?add0n ?h /= ?subn0 => -[<-].
    have lr : (a - eq < ccs)%N by lia.
    have := rowI _ lr; have := u2C _ lr; rewrite !subnKC // => -> ->.
    by rewrite la /=; split=> //; apply: m3.
  move=> a la.
  case: (ltnP a (6 + m)) => h /=.
    case: (ltnP a 6) => h6 /=; first by split.
    have := m4 (a - 6)%N; rewrite subnKC // => /(_ ltac:(lia)) /norm_le[g1 g2].
    by split=> l [<-].
  rewrite andbF; case: ifP => ha; last by split.
  have := m5 (a - (6 + m))%N; rewrite /trq nvE subnKC // => /(_ ltac:(lia)) /norm_le[g1 g2].
  by split=> l [<-].
move=> x; rewrite /bqp_cost /= Hcost [X in _ + X](_ : _ = 0) ?addr0 //.
by apply: sum_nat0 => i _; rewrite mul0r.
Qed.
End JaccProofs.
