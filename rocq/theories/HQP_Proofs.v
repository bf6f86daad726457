(* Proofs about the hierarchical QP. *)
From mathcomp Require Import all_ssreflect all_algebra.
From mathcomp Require Import zify.
From mathcomp.algebra_tactics Require Import ring.
From Verif Require Import LinAlg DMat DMatL Cone_Model QP_Model QP_Spec HQP_Model HQP_Spec.
Set Implicit Arguments.
Unset Strict Implicit.
Unset Printing Implicit Defensive.
Import Order.TTheory GRing.Theory Num.Theory.
Local Open Scope ring_scope.

Section Prepare.
Variable R : realFieldType.
Local Notation dm := (dm R).
Local Notation level := (level R).
Variable n : nat.
Variable f : dm -> dm.
Hypothesis fok : null_space_ok f.

(* Z spans what keeps the B_ of all levels in ls *)
Definition spans (ls : seq level) (Z : dm) : Prop :=
  [/\ nr Z = n, forall l, List.In l ls -> Bm n l *m mx_of n (nc Z) Z = 0 &
      forall x : 'cV[R]_n, (forall l, List.In l ls -> Bm n l *m x = 0) ->
        exists u, x = mx_of n (nc Z) Z *m u].

Lemma spans_first l : shaped n l -> spans [:: l] (f (l_B l)).
Proof.
move=> [[rB cB] _ _ _ _]; have [e [k1 k2]] := fok (l_B l).
split=> [|l' [<-|[]]|x h]; first by rewrite e cB.
  by rewrite /Bm; move: k1; rewrite rB cB.
move: k1 k2; rewrite rB cB => _ k2; apply: k2; apply: h; by left.
Qed.

Lemma in_rcons T (x y : T) s : List.In y (rcons s x) <-> y = x \/ List.In y s.
Proof. by rewrite -cats1 List.in_app_iff /=; split=> [[|[|[]]]|[]]; auto. Qed.

Lemma spans_next ls l Z : spans ls Z -> shaped n l ->
  exists Bn Z', [/\ dmul (l_B l) Z = Some Bn, dmul Z (f Bn) = Some Z' & spans (rcons ls l) Z'].
Proof.
move=> [rZ ann comp] [dB _ _ _ _].
have dZ : dims Z n (nc Z) by [].
have [Bn [e1 d1 m1]] := dmul_mx dB dZ.
have [e2 [k1 k2]] := fok Bn; case: (d1) => rBn cBn.
have dN : dims (f Bn) (nc Z) (nc (f Bn)) by split=> //; rewrite e2.
have [Z' [e3 d3 m3]] := dmul_mx dZ dN; case: (d3) => rZ' cZ'.
exists Bn, Z'; split=> //.
move: k1 k2; rewrite rBn cBn m1 => k1 k2.
split=> // [l'|x h].
  rewrite cZ' m3 mulmxA => /in_rcons[->|i]; last by rewrite ann // mul0mx.
  exact: k1.
have [u eu] : exists u, x = mx_of n (nc Z) Z *m u.
  by apply: comp => l' i; apply: h; apply/in_rcons; right.
have [v ev] : exists v, u = mx_of (nc Z) (nc (f Bn)) (f Bn) *m v.
  by apply: k2; rewrite -mulmxA -eu; apply: h; apply/in_rcons; left.
by rewrite cZ' m3 eu ev; exists v; rewrite mulmxA.
Qed.

(* everything but Z_ and null_space_size_ is untouched *)
Definition same_but_Z (l l' : level) : Prop := l' = setZ l (l_Z l') (l_ns l').

Lemma prepare_rest_ok d hs ls Z : spans ls Z -> (forall i, (i < size hs)%N -> shaped n (nth d hs i)) ->
  exists hs', [/\ prepare_rest f Z hs = Some hs', size hs' = size hs &
    forall i, (i < size hs)%N -> [/\ spans (ls ++ take i.+1 hs) (l_Z (nth d hs' i)),
      l_ns (nth d hs' i) = nc (l_Z (nth d hs' i)) & same_but_Z (nth d hs i) (nth d hs' i)]].
Proof.
elim: hs ls Z => [|l hs IH] ls Z sp sh; first by exists [::].
have [Bn [Z' [e1 e2 sp']]] := spans_next sp (sh 0%N isT).
have [|hs' [e3 sz h]] := IH _ _ sp'; first by move=> i li; apply: (sh i.+1).
exists (setZ l Z' (nc Z') :: hs'); split=> /=; [by rewrite e1 e2 e3|by rewrite sz|].
case=> [|i] li /=; first by rewrite take0 cats1.
by have := h i li; rewrite cat_rcons.
Qed.

Lemma prepare_ok d hs : hs <> [::] -> (forall i, (i < size hs)%N -> shaped n (nth d hs i)) ->
  exists hs', [/\ prepare f hs = Some hs', size hs' = size hs &
    forall i, (i < size hs)%N -> [/\ spans (take i.+1 hs) (l_Z (nth d hs' i)),
      l_ns (nth d hs' i) = nc (l_Z (nth d hs' i)) & same_but_Z (nth d hs i) (nth d hs' i)]].
Proof.
case: hs => // l hs _ sh.
have [|hs' [e sz h]] := @prepare_rest_ok d hs [:: l] _ (spans_first (sh 0%N isT)).
  by move=> i li; apply: (sh i.+1).
exists (setZ l (f (l_B l)) (nc (f (l_B l))) :: hs'); split=> /=; [by rewrite e|by rewrite sz|].
case=> [|i] li /=; last exact: h.
by rewrite take0; split=> //; apply: spans_first; apply: (sh 0%N isT).
Qed.

Lemma spans_prepared d hs hs' :
  (forall i, (i < size hs)%N -> [/\ spans (take i.+1 hs) (l_Z (nth d hs' i)),
      l_ns (nth d hs' i) = nc (l_Z (nth d hs' i)) & same_but_Z (nth d hs i) (nth d hs' i)]) ->
  size hs' = size hs -> prepared n d hs'.
Proof.
move=> h sz i; rewrite sz => li; have [[rZ ann comp] ens _] := h i li.
have inT k : (k <= i)%N -> List.In (nth d hs k) (take i.+1 hs).
  move=> lk; have lk' : (k < size (take i.+1 hs))%N by rewrite size_take; case: ifP; lia.
  rewrite -(nth_take d (_ : (k < i.+1)%N)) //.
  elim: (take i.+1 hs) k lk' {lk} => [|x s IH] [|k] //= lk; [by left|by right; apply: IH].
have Bk k : (k <= i)%N -> l_neq (nth d hs' k) = l_neq (nth d hs k) /\ l_B (nth d hs' k) = l_B (nth d hs k).
  by move=> lk; have [_ _ ->] := h k (leq_ltn_trans lk li).
split.
- by split=> //.
- move=> k lk; rewrite /Bm /Zm; have [-> ->] := Bk k lk.
  rewrite ens; exact: ann (inT k lk).
move=> x hx; rewrite /Zm ens; apply: comp => l.
have aux (s : seq level) : List.In l s -> exists2 k, (k < size s)%N & nth d s k = l.
  elim: s => //= y s IH [->|/IH[k lk e]]; [by exists 0%N|by exists k.+1].
case/aux => k; rewrite size_take => lk.
have lk' : (k <= i)%N by move: lk; case: ifP; lia.
rewrite nth_take // => <-; have := hx k lk'; rewrite /Bm; by have [-> ->] := Bk k lk'.
Qed.
End Prepare.

Section Blocks.
Variable R : realFieldType.
Local Notation dm := (dm R).

Lemma dims_ex (M : dm) m n : dims M m n -> nr M = m /\ nc M = n. Proof. by []. Qed.

(* writing a block, with sizes given by dims *)
Lemma blockw_ok (M B : dm) m n i j h w : dims M m n -> dims B h w -> (i + h <= m)%N -> (j + w <= n)%N ->
  exists M', [/\ blockw M i j h w B = Some M', dims M' m n & forall a b,
    ent M' a b = if ((i <= a < i + h) && (j <= b < j + w))%N then ent B (a - i) (b - j) else ent M a b].
Proof.
move=> [rM cM] [rB cB] l1 l2.
have [||M' e] := @blockw_some R M i j h w B rB cB; rewrite ?rM ?cM //.
by have [_ [r c E]] := blockwP e; exists M'; split=> //; split; rewrite ?r ?c.
Qed.

Lemma dblock_ok (M : dm) m n i j h w : dims M m n -> (i + h <= m)%N -> (j + w <= n)%N ->
  exists B, [/\ dblock M i j h w = Some B, dims B h w & forall a b, ent B a b = ent M (i + a) (j + b)].
Proof. by move=> [rM cM] l1 l2; rewrite /dblock rM cM l1 l2 /=; eexists. Qed.

Lemma mxE' (M : dm) m n (i : 'I_m) (j : 'I_n) : mx_of m n M i j = ent M i j.
Proof. by rewrite mxE. Qed.

Lemma mx_of_tr (M : dm) m n : mx_of n m (dtr M) = (mx_of m n M)^T.
Proof. by apply/matrixP => i j; rewrite !mxE. Qed.

Lemma dtr_dims (M : dm) m n : dims M m n -> dims (dtr M) n m.
Proof. by case. Qed.
End Blocks.

Section LevelQP.
Variable R : realFieldType.
Local Notation dm := (dm R).
Local Notation level := (level R).
Variable n : nat.

(* what solving a lower level needs of a level above *)
Definition row_ok (j : level) : Prop :=
  (0 < l_nin j)%N -> [/\ dims (l_A j) (l_nin j) n, dims (l_a j) (l_nin j) 1, nc (l_V j) = l_nin j &
                       dims (l_v j) (l_nin j) 1].

Lemma shaped_row_ok j : shaped n j -> row_ok j.
Proof. by move=> [_ _ h _ [_ dv]] p; have [? ? ?] := h p. Qed.

Variables (Z y : dm) (ns : nat).
Hypothesis dZ : dims Z n ns.
Hypothesis dy : dims y n 1.
Local Notation Zx := (mx_of n ns Z).
Local Notation yx := (mx_of n 1 y).

Lemma inherited_ok (d : level) above idx (q : oqp R) ncon nv :
  (forall j, (j < size above)%N -> row_ok (nth d above j)) ->
  dims (o_A q) ncon nv -> dims (o_ub q) ncon 1 -> (ns <= nv)%N ->
  (idx + rows_of above <= ncon)%N ->
  exists q', [/\ inherited_rows above Z y ns idx q = Some q', o_H q' = o_H q, o_g q' = o_g q,
    dims (o_A q') ncon nv /\ dims (o_ub q') ncon 1 &
  [/\ forall a b, ~~ (idx <= a < idx + rows_of above)%N || (ns <= b)%N -> ent (o_A q') a b = ent (o_A q) a b,
      forall a b, ~~ (idx <= a < idx + rows_of above)%N -> ent (o_ub q') a b = ent (o_ub q) a b &
      forall j, (j < size above)%N -> let lj := nth d above j in
        forall r : 'I_(l_nin lj),
        (forall c : 'I_ns, ent (o_A q') (idx + rows_of (take j above) + r) c = (Am n lj *m Zx) r c) /\
        ent (o_ub q') (idx + rows_of (take j above) + r) 0 = (- (Am n lj *m yx) + vv lj - av lj) r 0]].
Proof.
elim: above idx q => [|j above IH] idx q ok dA dub lns le.
  by exists q; split=> //; split.
have ok' i : (i < size above)%N -> row_ok (nth d above i) by move=> li; apply: (ok i.+1).
have rowsE : rows_of (j :: above) = (l_nin j + rows_of above)%N by [].
case: (posnP (l_nin j)) => [n0|npos].
  have [|q' [e eH eg [dA' dub'] [hA hub hj]]] := IH idx q ok' dA dub lns.
    by move: le; rewrite rowsE n0.
  exists q'; rewrite /= n0 ltnn; split=> //; rewrite rowsE n0 add0n; split=> //.
  case=> [_ r|i li /=]; first by exfalso; move: r; rewrite /= n0 => -[].
  move=> r; have := hj i li r; by rewrite /rows_of /= n0 add0n.
have [dAj daj cV dvj] := ok 0%N isT npos; rewrite /= in dAj daj cV dvj.
have [AZ [e1 d1 m1]] := dmul_mx dAj dZ.
have [||A1 [e2 d2 E2]] := @blockw_ok R (o_A q) AZ ncon nv idx 0 (l_nin j) ns dA d1.
- by move: le; rewrite rowsE; lia.
- by rewrite add0n.
have [Ay [e3 d3 m3]] := dmul_mx (dopp_dims dAj) dy.
have [u1 [e4 d4 m4]] := dadd_mx d3 dvj.
have [u [e5 d5 m5]] := dsub_mx d4 daj.
have [||ub [e6 d6 E6]] := @blockw_ok R (o_ub q) u ncon 1 idx 0 (l_nin j) 1 dub d5.
- by move: le; rewrite rowsE; lia.
- by [].
have [|q' [e eH eg [dA' dub'] [hA hub hj]]] :=
    IH (idx + l_nin j)%N (OQP (o_H q) (o_g q) A1 ub) ok' d2 d6 lns.
  by move: le; rewrite rowsE; lia.
exists q'; split=> //.
  rewrite /= npos; have [-> cA] := dims_ex dAj; have [rZ _] := dims_ex dZ.
  by rewrite cV cA rZ !eqxx /= e1 e2 e3 e4 e5 /segw e6.
rewrite rowsE; split.
- move=> a b h; rewrite hA /=; last first.
    by case/orP: h => [|->]; rewrite ?orbT // => h; apply/orP; left; move: h; lia.
  rewrite E2 ifF //; apply/negbTE; move: h.
  by rewrite add0n; lia.
- move=> a b h; rewrite hub /=; last by move: h; lia.
  rewrite E6 ifF //; apply/negbTE; move: h; lia.
case=> [_|i li] /=; last first.
  by move=> r; have := hj i li r; rewrite /rows_of /= -!addnA.
move=> r; rewrite /rows_of /= addn0; have lr := ltn_ord r; split=> [c|].
  have lc := ltn_ord c.
  rewrite hA /=; last by apply/orP; left; lia.
  rewrite E2 ifT; last by lia.
  rewrite addKn subn0 -(mxE' AZ r c) m1; by [].
rewrite hub /=; last by lia.
rewrite E6 ifT; last by lia.
by rewrite addKn subn0 -(mxE' u r (0 : 'I_1)) m5 m4 m3 dopp_mx mulNmx.
Qed.

Lemma own_rows_ok (l : level) (q : oqp R) nv ncon :
  shaped n l -> nv = (ns + l_nin l)%N -> (l_nin l <= ncon)%N ->
  dims (o_H q) nv nv -> dims (o_g q) nv 1 -> dims (o_A q) ncon nv -> dims (o_ub q) ncon 1 ->
  exists q', [/\ own_rows l Z y ns q = Some q',
    [/\ dims (o_H q') nv nv, dims (o_g q') nv 1, dims (o_A q') ncon nv & dims (o_ub q') ncon 1] &
  [/\ forall a b, (a < nv)%N -> (b < nv)%N ->
        ent (o_H q') a b = if ((ns <= a) && (ns <= b))%N then (a == b)%:R else ent (o_H q) a b,
      forall a, (a < nv)%N -> ent (o_g q') a 0 = if (ns <= a)%N then 0 else ent (o_g q) a 0,
      forall a b, (l_nin l <= a)%N -> ent (o_A q') a b = ent (o_A q) a b &
  [/\ forall (r : 'I_(l_nin l)) (c : 'I_ns), ent (o_A q') r c = (Am n l *m mx_of n ns Z) r c,
      forall (r : 'I_(l_nin l)) c, (ns <= c < nv)%N -> ent (o_A q') r c = - (c == ns + r)%N%:R &
      forall r : 'I_(l_nin l), ent (o_ub q') r 0 = (- (Am n l *m mx_of n 1 y) - av l) r 0]]].
Proof.
move=> sh env lcon dH dg dA dub; rewrite /own_rows.
case: (posnP (l_nin l)) => [n0|npos].
  exists q; split=> //; have e : nv = ns by rewrite env n0 addn0.
  split=> [a b|a|//|]; rewrite ?e.
  - by move=> la lb; rewrite leqNgt la.
  - by move=> la; rewrite leqNgt la.
  by split=> r; exfalso; move: r; rewrite n0 => -[].
have [dB db /(_ npos)[dAl dal _] _ [_ _]] := sh; set nin := l_nin l in env lcon npos dAl dal *.
have [rH cH] := dims_ex dH; have [rg cg] := dims_ex dg; have [rA cA] := dims_ex dA.
have eq1 : (nv - nin = ns)%N by rewrite env addnK.
have lnin : (nin <= nv)%N by rewrite env leq_addl.
have dI : dims (dident R nin) nin nin by [].
have [||H1 [e1 d1 E1]] := blockw_ok dH dI (i := ns) (j := ns); [by rewrite env..|].
have [|||g1 [e2 d2 E2]] := @blockw_ok R (o_g q) (dzero R nin 1) nv 1 ns 0 nin 1 dg; [by []|by rewrite env|by []|].
have [AZ [e3 d3 m3]] := dmul_mx dAl dZ.
have [||A1 [e4 d4 E4]] := @blockw_ok R (o_A q) AZ ncon nv 0 0 nin ns dA d3; [by []|by rewrite env leq_addr|].
have [|||A2 [e5 d5 E5]] := @blockw_ok R A1 (dopp (dident R nin)) ncon nv 0 ns nin nin d4; [by []|by []|by rewrite env|].
have [Ay [e6 d6 m6]] := dmul_mx dAl dy.
have [u [e7 d7 m7]] := dsub_mx (dopp_dims d6) dal.
have [||ub [e8 d8 E8]] := @blockw_ok R (o_ub q) u ncon 1 0 0 nin 1 dub d7; [by []|by []|].
exists (OQP H1 g1 A2 ub); split.
- rewrite /brcw rH cH eq1 lnin /= e1 /tailw rg eq1 lnin /segw e2 e3 e4 /trcw.
  by have [_ ->] := dims_ex d4; rewrite lnin eq1 e5 e6 e7 e8.
- by split.
split=> /=.
- move=> a b la lb; rewrite E1 -env la lb !andbT; case: ifP => // /andP[ha hb] /=.
  by congr (_%:R); apply/eqP/eqP; lia.
- by move=> a la; rewrite E2 -env la !andbT; case: (ns <= a)%N.
- move=> a b ha; rewrite E5 ifF; last by lia.
  rewrite E4 ifF //; by lia.
split.
- move=> r c; have lr := ltn_ord r; have lc := ltn_ord c.
  rewrite E5 ifF; last by lia.
  rewrite E4 ifT; last by lia.
  by rewrite !subn0 -(mxE' AZ r c) m3.
- move=> r c hc; have lr := ltn_ord r.
  rewrite E5 ifT; last by move: hc; rewrite env -/nin; lia.
  rewrite /= subn0; congr (- _%:R); apply/eqP/eqP; lia.
move=> r; have lr := ltn_ord r; rewrite E8 ifT; last by lia.
by rewrite !subn0 -(mxE' u r (0 : 'I_1)) m7 dopp_mx m6.
Qed.

(* the least squares and additional cost, as matrices *)
Definition TT (l : level) : 'M[R]_ns :=
  (Bm n l *m mx_of n ns Z)^T *m (Bm n l *m mx_of n ns Z)
  + (if l_cost l then (mx_of n ns Z)^T *m Hm n l *m mx_of n ns Z else 0).
Definition Tg (l : level) : 'cV[R]_ns :=
  (Bm n l *m mx_of n ns Z)^T *m (Bm n l *m mx_of n 1 y + bv l)
  + (if l_cost l then (mx_of n ns Z)^T *m Hm n l *m mx_of n 1 y else 0).

Lemma costs_ok (l : level) (q : oqp R) nv : shaped n l -> (ns <= nv)%N ->
  dims (o_H q) nv nv -> dims (o_g q) nv 1 ->
  exists q2 q', [/\ own_cost l Z y ns q = Some q2, extra_cost l Z y ns q2 = Some q',
    [/\ dims (o_H q') nv nv, dims (o_g q') nv 1, o_A q' = o_A q & o_ub q' = o_ub q] &
  [/\ forall a b, ~~ ((a < ns) && (b < ns))%N -> ent (o_H q') a b = ent (o_H q) a b,
      forall a b, (ns <= a)%N -> ent (o_g q') a b = ent (o_g q) a b,
      forall a b : 'I_ns, ent (o_H q') a b = TT l a b &
      forall a : 'I_ns, ent (o_g q') a 0 = Tg l a 0]].
Proof.
move=> [dB db _ dHl [_ _]] lns dH dg.
have [T [e1 d1 m1]] := dmul_mx dB dZ.
have [By [e2 d2 m2]] := dmul_mx dB dy.
have [t [e3 d3 m3]] := dadd_mx d2 db.
have [T2 [e4 d4 m4]] := dmul_mx (dtr_dims d1) d1.
have [||H1 [e5 d5 E5]] := blockw_ok dH d4 (i := 0) (j := 0); [by []..|].
have [Tt [e6 d6 m6]] := dmul_mx (dtr_dims d1) d3.
have [||g1 [e7 d7 E7]] := @blockw_ok R (o_g q) Tt nv 1 0 0 ns 1 dg d6; [by []..|].
pose q2 := OQP H1 g1 (o_A q) (o_ub q).
have eq2 : own_cost l Z y ns q = Some q2 by rewrite /own_cost e1 e2 e3 e4 e5 e6 /segw e7.
rewrite /extra_cost /TT /Tg; case: (boolP (l_cost l)) => hc; last first.
  exists q2, q2; split=> //; split=> //=.
  - by move=> a b h; rewrite E5 ifF //; apply/negbTE; move: h; lia.
  - by move=> a b h; rewrite E7 ifF //; apply/negbTE; move: h; lia.
  - move=> a b; have la := ltn_ord a; have lb := ltn_ord b; rewrite E5 ifT; last by lia.
    by rewrite !subn0 -(mxE' T2 a b) m4 mx_of_tr m1 addr0.
  move=> a; have la := ltn_ord a; rewrite E7 ifT; last by lia.
  by rewrite !subn0 -(mxE' Tt a (0 : 'I_1)) m6 mx_of_tr m1 m3 m2 addr0.
have [ZtH [f1 c1 n1]] := dmul_mx (dtr_dims dZ) (dHl hc).
have [ZHZ [f2 c2 n2]] := dmul_mx c1 dZ.
have [||H0 [f3 c3 F3]] := @dblock_ok R H1 nv nv 0 0 ns ns d5; [by []..|].
have [H2 [f4 c4 n4]] := dadd_mx c3 c2.
have [||H3 [f5 c5 F5]] := blockw_ok d5 c4 (i := 0) (j := 0); [by []..|].
have [ZHy [f6 c6 n6]] := dmul_mx c1 dy.
have [||g0 [f7 c7 F7]] := @dblock_ok R g1 nv 1 0 0 ns 1 d7; [by []..|].
have [g2 [f8 c8 n8]] := dadd_mx c7 c6.
have [||g3 [f9 c9 F9]] := @blockw_ok R g1 g2 nv 1 0 0 ns 1 d7 c8; [by []..|].
exists q2, (OQP H3 g3 (o_A q) (o_ub q)); split=> //.
  by rewrite /= f1 f2 f3 f4 f5 f6 /seg f7 f8 /segw f9.
split=> /=.
- move=> a b h; rewrite F5 ifF; last by apply/negbTE; move: h; lia.
  by rewrite E5 ifF //; apply/negbTE; move: h; lia.
- move=> a b h; rewrite F9 ifF; last by apply/negbTE; move: h; lia.
  by rewrite E7 ifF //; apply/negbTE; move: h; lia.
- move=> a b; have la := ltn_ord a; have lb := ltn_ord b.
  rewrite F5 ifT; last by lia.
  rewrite !subn0 -(mxE' H2 a b) n4 !mxE F3 !add0n E5 ifT; last by lia.
  rewrite !subn0 -(mxE' T2 a b) m4 mx_of_tr m1 -(mxE' ZHZ a b) n2 n1 mx_of_tr !mxE.
  by congr (_ + _); apply: eq_bigr => k _; rewrite !mxE.
move=> a; have la := ltn_ord a.
rewrite F9 ifT; last by lia.
rewrite !subn0 -(mxE' g2 a (0 : 'I_1)) n8 !mxE F7 !add0n E7 ifT; last by rewrite la.
rewrite !subn0 -(mxE' Tt a (0 : 'I_1)) m6 mx_of_tr m1 m3 m2 -(mxE' ZHy a (0 : 'I_1)) n6 n1 mx_of_tr !mxE.
by congr (_ + _); apply: eq_bigr => k _; rewrite !mxE.
Qed.
End LevelQP.

Section LevelQP2.
Variable R : realFieldType.
Local Notation dm := (dm R).
Local Notation level := (level R).
Variable n : nat.

(* the contents of a level's problem *)
Record qp_content (d : level) (above : seq level) (p l : level) (q : oqp R) : Prop := QPC {
  qc_H : dims (o_H q) (l_ns p + l_nin l) (l_ns p + l_nin l);
  qc_g : dims (o_g q) (l_ns p + l_nin l) 1;
  qc_A : dims (o_A q) (rows_of above + l_nin l) (l_ns p + l_nin l);
  qc_ub : dims (o_ub q) (rows_of above + l_nin l) 1;
  qc_Hm : mx_of (l_ns p + l_nin l) (l_ns p + l_nin l) (o_H q) =
          block_mx (TT n (l_Z p) (l_ns p) l) 0 0 1%:M;
  qc_gm : mx_of (l_ns p + l_nin l) 1 (o_g q) = col_mx (Tg n (l_Z p) (l_y p) (l_ns p) l) 0;
  qc_own : forall r : 'I_(l_nin l),
    [/\ forall c : 'I_(l_ns p), ent (o_A q) r c = (Am n l *m mx_of n (l_ns p) (l_Z p)) r c,
        forall c : 'I_(l_nin l), ent (o_A q) r (l_ns p + c) = - (c == r)%:R &
        ent (o_ub q) r 0 = (- (Am n l *m mx_of n 1 (l_y p)) - av l) r 0];
  qc_inh : forall j, (j < size above)%N -> let lj := nth d above j in forall r : 'I_(l_nin lj),
    let a := (l_nin l + rows_of (take j above) + r)%N in
    [/\ forall c : 'I_(l_ns p), ent (o_A q) a c = (Am n lj *m mx_of n (l_ns p) (l_Z p)) r c,
        forall c : 'I_(l_nin l), ent (o_A q) a (l_ns p + c) = 0 &
        ent (o_ub q) a 0 = (- (Am n lj *m mx_of n 1 (l_y p)) + vv lj - av lj) r 0]
}.

Lemma levelQP_ok d above p l (init : bool) :
  dims (l_Z p) n (l_ns p) -> dims (l_y p) n 1 -> shaped n l ->
  (forall j, (j < size above)%N -> row_ok n (nth d above j)) ->
  init \/ qp_ready above p l ->
  exists q, levelQP above p l init (l_ns p + l_nin l) (rows_of above + l_nin l) = Some q /\
    qp_content d above p l q.
Proof.
move=> dZ dy sh ok st; rewrite /levelQP.
set q0 := if init then _ else _.
set nv := (l_ns p + l_nin l)%N; set ncon := (rows_of above + l_nin l)%N.
have [[dH0 dg0 dA0 dub0] [z1 z2]] :
    [/\ dims (o_H q0) nv nv, dims (o_g q0) nv 1, dims (o_A q0) ncon nv & dims (o_ub q0) ncon 1] /\
    (forall a b, (a < l_ns p)%N -> (l_ns p <= b < nv)%N -> ent (o_H q0) a b = 0 /\ ent (o_H q0) b a = 0) /\
    (forall a b, (l_nin l <= a < ncon)%N -> (l_ns p <= b < nv)%N -> ent (o_A q0) a b = 0).
  by rewrite {}/q0; case: init st => [_|[//|[h1 h2 h3 h4 [h5 h6]]]] //.
have lcon : (l_nin l <= ncon)%N by rewrite leq_addl.
have [q1 [-> [dH1 dg1 dA1 dub1] [EH1 Eg1 EA1 [EA1' EA1'' Eu1]]]] :=
  own_rows_ok dZ dy sh (erefl nv) lcon dH0 dg0 dA0 dub0.
have lns : (l_ns p <= nv)%N by rewrite leq_addr.
have [q2 [q3 [-> -> [dH3 dg3 eA3 eub3] [EH3 Eg3 EH3' Eg3']]]] := costs_ok dZ dy sh lns dH1 dg1.
have [||||q [-> eH eg [dA dub] [EA Eu Ej]]] := @inherited_ok R n _ _ _ dZ dy d above (l_nin l) q3 ncon nv ok.
- by rewrite eA3.
- by rewrite eub3.
- by [].
- by rewrite addnC.
exists q; split=> //; split=> //; rewrite ?eH ?eg //.
- apply/matrixP => a b; rewrite mxE.
  case: (split_ordP a) => a' ->; case: (split_ordP b) => b' ->;
    rewrite ?block_mxEul ?block_mxEur ?block_mxEdl ?block_mxEdr /=.
  + exact: EH3'.
  + have la := ltn_ord a'; have lb := ltn_ord b'.
    rewrite EH3 ?EH1; [|by rewrite /nv; lia..].
    rewrite ifF; last by lia.
    have [|-> _] := z1 a' (l_ns p + b')%N la; by [rewrite /nv; lia|rewrite mxE].
  + have la := ltn_ord a'; have lb := ltn_ord b'.
    rewrite EH3 ?EH1; [|by rewrite /nv; lia..].
    rewrite ifF; last by lia.
    have [|_ ->] := z1 b' (l_ns p + a')%N lb; by [rewrite /nv; lia|rewrite mxE].
  have la := ltn_ord a'; have lb := ltn_ord b'.
  rewrite EH3 ?EH1; [|by rewrite /nv; lia..].
  rewrite ifT; last by lia.
  by rewrite !mxE eqn_add2l.
- apply/matrixP => a b; rewrite mxE ord1; case: (split_ordP a) => a' ->.
    by rewrite col_mxEu /=; apply: Eg3'.
  have la := ltn_ord a'; rewrite col_mxEd /= Eg3; last by lia.
  by rewrite Eg1 ?leq_addr ?mxE // /nv; lia.
- move=> r; have lr := ltn_ord r; split.
  + move=> c; rewrite EA ?eA3 ?EA1' //; by lia.
  + move=> c; have lc := ltn_ord c; rewrite EA ?eA3 ?EA1''; [|by rewrite /nv; lia|by lia].
    by rewrite eqn_add2l.
  by rewrite Eu ?eub3 ?Eu1 //; lia.
move=> j lj lv r a.
have [h1 h2] := Ej j lj r; split=> // c; have lc := ltn_ord c.
rewrite EA ?leq_addr ?orbT // eA3 EA1; last by rewrite /a; lia.
apply: z2; last by rewrite /nv; lia.
have lr := ltn_ord r; rewrite /a /ncon; apply/andP; split; first by lia.
have -> : rows_of above = (rows_of (take j above) + (l_nin lv + rows_of (drop j.+1 above)))%N.
  rewrite -{1}(cat_take_drop j above) /rows_of map_cat sumn_cat; congr (_ + _)%N.
  by rewrite (drop_nth d lj).
by lia.
Qed.

(* an inherited row belongs to one of the levels above *)
Lemma row_of_level (d : level) above a : (a < rows_of above)%N ->
  exists2 j, (j < size above)%N & exists r : 'I_(l_nin (nth d above j)), a = (rows_of (take j above) + r)%N.
Proof.
elim: above a => // l above IH a; rewrite /rows_of /= => la.
case: (ltnP a (l_nin l)) => h; first by exists 0%N => //; exists (Ordinal h).
have [|j lj [r e]] := IH (a - l_nin l)%N; first by rewrite -/(rows_of above) in la; lia.
by exists j.+1 => //; exists r; move: e; rewrite /rows_of /=; lia.
Qed.

Definition upart (p l : level) (x : nat -> R) : 'cV[R]_(l_ns p) := col_of (l_ns p) x.
Definition vpart (p l : level) (x : nat -> R) : 'cV[R]_(l_nin l) := col_of (l_nin l) (fun c => x (l_ns p + c)%N).

Definition tol1 k (u : 'cV[R]_k) : R := sparse_tol R * \sum_c `|u c 0|.

Lemma tol_ge0 : 0 <= sparse_tol R.
Proof. by rewrite /sparse_tol invr_ge0 exprn_ge0 ?ler0n. Qed.
Lemma tol_lt1 : sparse_tol R < 1.
Proof. by rewrite /sparse_tol invf_lt1 ?exprn_gt0 ?ltr0n // exprn_egt1 // ltr1n. Qed.

Definition sv (x : R) : R := if `|x| <= sparse_tol R then 0 else x.
Lemma sv_diff x : `|sv x - x| <= sparse_tol R.
Proof. by rewrite /sv; case: ifP => h; rewrite ?sub0r ?normrN // subrr normr0 tol_ge0. Qed.
Lemma sv0 : sv 0 = 0. Proof. by rewrite /sv; case: ifP. Qed.
Lemma svN1 b : sv (- (b : bool)%:R) = - b%:R.
Proof.
case: b; rewrite /sv ?oppr0; last by case: ifP.
by rewrite normrN normr1 leNgt tol_lt1.
Qed.

(* a row of the handed constraint matrix against the intended one *)
Lemma rowdot_split ns nin (M : dm) i (x : nat -> R) : nc M = (ns + nin)%N ->
  rowdot M i x = \sum_(c < ns) ent M i c * x c + \sum_(c < nin) ent M i (ns + c) * x (ns + c)%N.
Proof. by move=> e; rewrite /rowdot e sum_split !sum_ord. Qed.

Lemma sparse_row ns nin (M : dm) i (x : nat -> R) : nc M = (ns + nin)%N ->
  (forall c : 'I_nin, sv (ent M i (ns + c)) = ent M i (ns + c)) ->
  rowdot M i x <= rowdot (sparseView M) i x + tol1 (col_of ns x).
Proof.
move=> e h; rewrite (rowdot_split i x e) (@rowdot_split ns nin) // /tol1.
rewrite -addrA [X in _ <= _ + X]addrC addrA.
rewrite [X in _ <= _ + X](_ : _ = \sum_(c < nin) ent M i (ns + c) * x (ns + c)%N); last first.
  by apply: eq_bigr => c _; rewrite /= -/(sv _) h.
rewrite ler_add2r mulr_sumr -big_split /=; apply: ler_sum => c _; rewrite mxE -/(sv _).
rewrite -ler_subl_addl -mulrBl; apply: le_trans (ler_norm _) _.
by rewrite normrM ler_wpmul2r // -normrN opprB sv_diff.
Qed.
End LevelQP2.

Section Solve.
Variable R : realFieldType.
Local Notation dm := (dm R).
Local Notation level := (level R).
Variable n : nat.
Variable osqp : nat -> bool -> oqp R -> (nat -> R).

(* the vector the solver answered for level i *)
Definition answer (i : nat) (init : bool) (l : level) : nat -> R := osqp i init (osqp_problem l).

Record solved_from (above : seq level) (p l : level) (init : bool) (l' : level) : Prop := SF {
  sf_q : oqp R;
  sf_qp : levelQP above p l init (l_ns p + l_nin l)
            ((if size above == 1%N then l_nin p else l_ncon p) + l_nin l) = Some sf_q;
  sf_eq : l' = setAns (setQP l (o_H sf_q) (o_g sf_q) (o_A sf_q) (o_ub sf_q) (l_ns p + l_nin l)
            ((if size above == 1%N then l_nin p else l_ncon p) + l_nin l)) (l_y l') (l_v l') (l_w l') (l_ans l');
  sf_ans : l_ans l' = vec (l_ns p + l_nin l) (answer (size above) init l');
  sf_y : dims (l_y l') n 1 /\ yv n l' = yv n p + Zm n p *m col_of (l_ns p) (ans_of l');
  sf_v : dims (l_v l') (l_nin l') 1 /\ vv l' = col_of (l_nin l') (fun c => ans_of l' (l_ns p + c)%N);
  sf_w : dims (l_w l') (l_neq l') 1 /\ wv l' = Bm n l' *m yv n l' + bv l'
}.

Lemma vec_seg (nv : nat) (xs : nat -> R) i h : (i + h <= nv)%N ->
  exists u, [/\ seg (vec nv xs) i h = Some u, dims u h 1 & forall a b, ent u a b = xs (i + a)%N].
Proof. by move=> le; rewrite /seg /dblock /= le; eexists. Qed.

Lemma solve_tail (nv : nat) (xs : nat -> R) ns h : nv = (ns + h)%N ->
  exists u, [/\ tail (vec nv xs) h = Some u, dims u h 1 & forall a b, ent u a b = xs (ns + a)%N].
Proof.
move=> e; have [|u [e1 d1 E1]] := @vec_seg nv xs ns h; first by rewrite e.
exists u; split=> //; rewrite /tail /= e leq_addl addnK -e; exact: e1.
Qed.

Lemma solve_level_some above p l init q :
  dims (l_Z p) n (l_ns p) -> dims (l_y p) n 1 -> shaped n l ->
  levelQP above p l init (l_ns p + l_nin l)
     ((if size above == 1%N then l_nin p else l_ncon p) + l_nin l) = Some q ->
  exists l', solve_level osqp above p l init = Some l' /\ solved_from above p l init l'.
Proof.
move=> dZ dy [dB db _ _ _] eq; rewrite /solve_level eq /=.
set l1 := setQP _ _ _ _ _ _ _; set xs := osqp _ _ _.
have [|u [e1 d1 E1]] := @vec_seg (l_ns p + l_nin l) xs 0 (l_ns p); first by rewrite leq_addr.
have [Zu [e2 d2 m2]] := dmul_mx dZ d1.
have [y [e3 d3 m3]] := dadd_mx dy d2.
have [v [e4 d4 E4]] := @solve_tail (l_ns p + l_nin l) xs (l_ns p) (l_nin l) (erefl _).
have [By [e5 d5 m5]] := dmul_mx dB d3.
have [w [e6 d6 m6]] := dadd_mx d5 db.
rewrite e1 e2 e3 e4 e5 e6; eexists; split; first by [].
exists q => //=.
- split=> //; rewrite /yv /= m3 m2; congr (_ + _ *m _).
  by apply/matrixP => i j; rewrite !mxE E1.
- split=> //; rewrite /vv; apply/matrixP => i j; by rewrite !mxE /= E4.
split=> //; rewrite /wv /= m6 m5; by [].
Qed.

Lemma solve_level_inv above p l init l' :
  dims (l_Z p) n (l_ns p) -> dims (l_y p) n 1 -> shaped n l ->
  solve_level osqp above p l init = Some l' -> solved_from above p l init l'.
Proof.
move=> dZ dy sh e; case eq: (levelQP above p l init (l_ns p + l_nin l)
     ((if size above == 1%N then l_nin p else l_ncon p) + l_nin l)) => [q|]; last first.
  by move: e; rewrite /solve_level eq.
have [l'' [e' s]] := solve_level_some dZ dy sh eq.
by move: e; rewrite e' => -[<-].
Qed.

(* data, null space unchanged *)
Definition kept (l l' : level) : Prop := same_data l l' /\ l_Z l' = l_Z l /\ l_ns l' = l_ns l.

Lemma kept_refl l : kept l l. Proof. by []. Qed.

Lemma solved_kept above p l init l' : solved_from above p l init l' -> kept l l'.
Proof. by case=> q _ -> *. Qed.

Lemma kept_shaped l l' : kept l l' -> dims (l_y l') n 1 -> dims (l_v l') (l_nin l') 1 ->
  shaped n l -> shaped n l'.
Proof.
move=> [[e1 e2 e3 e4 [e5 e6 e7 e8 [e9 _ _]]] _] dy dv [h1 h2 h3 h4 _].
by rewrite /shaped e1 e2 e3 e4 e5 e6 e7 e8 e9; split=> //; split=> //; rewrite -e1.
Qed.

Lemma solved_shaped above p l init l' : solved_from above p l init l' -> shaped n l -> shaped n l'.
Proof.
move=> s; have k := solved_kept s; case: s => _ _ _ _ [dy _] [dv _] _; exact: kept_shaped.
Qed.

(* a run of solveSequential, level by level *)
Record run (d : level) (init : bool) (hs hs' : seq level) : Prop := RUN {
  run_size : size hs' = size hs;
  run_first : nth d hs' 0 = setQP (nth d hs 0) (l_qH (nth d hs 0)) (l_qg (nth d hs 0)) (l_qA (nth d hs 0))
                (l_qub (nth d hs 0)) (l_nv (nth d hs 0)) (l_ncon (nth d hs' 0));
  run_step : forall i, (0 < i < size hs)%N ->
    solve_level osqp (take i hs') (nth d hs' i.-1) (nth d hs i) init = Some (nth d hs' i)
}.

Lemma solve_rest_step d init hs above p r :
  (0 < size above)%N -> p = nth d above (size above).-1 -> solve_rest osqp above p hs init = Some r ->
  [/\ size r = (size above + size hs)%N, take (size above) r = above &
      forall j, (j < size hs)%N -> let i := (size above + j)%N in
        solve_level osqp (take i r) (nth d r i.-1) (nth d hs j) init = Some (nth d r i)].
Proof.
elim: hs above p r => [|l hs IH] above p r sa ep /=.
  by move=> [<-]; rewrite addn0 take_size.
case e: solve_level => [l'|] // h.
have [|| sr tr st] := IH _ _ _ _ _ h; rewrite ?size_rcons //.
  by rewrite nth_rcons ltnn eqxx.
rewrite size_rcons in sr tr st.
have tr' : take (size above) r = above.
  have -> : take (size above) r = take (size above) (take (size above).+1 r) by rewrite take_take.
  by rewrite tr -cats1 take_size_cat.
split=> //; first by rewrite sr addSnnS.
case=> [_|j lj]; last by have := st j lj; rewrite addnS addSn.
rewrite addn0 tr' /=.
have -> : nth d r (size above) = l'.
  by rewrite -(nth_take d (ltnSn (size above))) tr nth_rcons ltnn eqxx.
rewrite -e ep; congr (solve_level _ _ _ _ _).
by rewrite -{2}tr' nth_take // prednK.
Qed.

Lemma solveSequential_run d init hs hs' : hs <> [::] -> solveSequential osqp hs init = Some hs' ->
  run d init hs hs'.
Proof.
case: hs => // l hs _; rewrite /solveSequential; set l0 := (X in solve_rest _ _ X).
move=> h; have [//|//|sr tr st] := @solve_rest_step d init hs [:: l0] l0 hs' _ _ h.
have e0 : nth d hs' 0 = l0 by rewrite -(nth_take d (ltn0Sn 0)) tr.
split=> //=; first by rewrite e0 /l0; case: (hs) => //; case: (l).
case=> // i /andP[_ li]; exact: (st i li).
Qed.

Section Run.
Variables (d : level) (hs hs' : seq level) (init : bool).
Hypothesis sh : forall i, (i < size hs)%N -> shaped n (nth d hs i).
Hypothesis dZs : forall i, (i < size hs)%N -> dims (l_Z (nth d hs i)) n (l_ns (nth d hs i)).
Hypothesis r : run d init hs hs'.

Lemma run_kept0 : kept (nth d hs 0) (nth d hs' 0) /\ l_y (nth d hs' 0) = l_y (nth d hs 0) /\
  l_v (nth d hs' 0) = l_v (nth d hs 0) /\ l_w (nth d hs' 0) = l_w (nth d hs 0).
Proof. by rewrite (run_first r). Qed.

Lemma run_level i : (i < size hs)%N ->
  [/\ kept (nth d hs i) (nth d hs' i), shaped n (nth d hs' i) &
      (0 < i)%N -> solved_from (take i hs') (nth d hs' i.-1) (nth d hs i) init (nth d hs' i)].
Proof.
elim: i => [|i IH] li.
  have [k [ey [ev _]]] := run_kept0; split=> //.
  have s0 := sh li; have [_ _ _ _ [dy dv]] := s0; apply: (kept_shaped k) => //; rewrite ?ey ?ev //.
  by case: k => -[-> _ _ _ _].
have li' := ltnW li; have [k s _] := IH li'.
have e := run_step r (i := i.+1) li.
have [_ _ _ _ [dy _]] := s.
have [_ [eZ ens]] := k.
have sf := solve_level_inv (p := nth d hs' i) (l := nth d hs i.+1) _ dy (sh li) e.
have {}sf : solved_from (take i.+1 hs') (nth d hs' i) (nth d hs i.+1) init (nth d hs' i.+1).
  by apply: sf; rewrite eZ ens; apply: dZs.
by split=> //; [apply: solved_kept sf|apply: solved_shaped sf (sh li)].
Qed.

Lemma run_prepared : prepared n d hs -> prepared n d hs'.
Proof.
move=> pr i; rewrite (run_size r) => li.
have K k : (k < size hs)%N -> kept (nth d hs k) (nth d hs' k) by move=> lk; have [] := run_level lk.
have [h1 h2 h3] := pr i li; have [_ [eZ ens]] := K i li.
have e k : (k <= i)%N -> l_neq (nth d hs' k) = l_neq (nth d hs k) /\ l_B (nth d hs' k) = l_B (nth d hs k).
  by move=> lk; have [[_ -> _ _ [-> _ _ _ _]] _] := K k (leq_ltn_trans lk li).
split; first by rewrite eZ ens.
- move=> k lk; have := h2 k lk; rewrite /Bm /Zm eZ ens; by have [-> ->] := e k lk.
move=> x hx; have [|u eu] := h3 x.
  move=> k lk; have := hx k lk; rewrite /Bm; by have [-> ->] := e k lk.
by move: u eu; rewrite /Zm eZ ens => u eu; exists u.
Qed.

Lemma run_residual : prepared n d hs -> forall i k, (k <= i < size hs)%N ->
  Bm n (nth d hs' k) *m yv n (nth d hs' i) = Bm n (nth d hs' k) *m yv n (nth d hs' k).
Proof.
move=> /run_prepared pr; elim=> [|i IH] k /andP[lk li]; first by move: lk; rewrite leqn0 => /eqP->.
move: lk; rewrite leq_eqVlt => /predU1P[->//|lk].
have [_ _ /(_ isT)[_ _ _ _ [_ ey] _ _]] := run_level li.
rewrite /= in ey; rewrite ey mulmxDr mulmxA.
have [|_ -> // _] := pr i; first by rewrite (run_size r) ltnW.
by rewrite mul0mx addr0; apply: IH; rewrite -ltnS lk ltnW.
Qed.
End Run.

(* every level of a run has the sizes and the content it should have *)
Lemma rows_of_kept d (s s' : seq level) m : (m <= size s)%N -> size s = size s' ->
  (forall i, (i < m)%N -> l_nin (nth d s' i) = l_nin (nth d s i)) -> rows_of (take m s') = rows_of (take m s).
Proof.
move=> lm es h; rewrite /rows_of; congr sumn; apply: (@eq_from_nth _ 0%N).
  by rewrite !size_map !size_take es.
move=> i; rewrite size_map size_take => li.
have li' : (i < m)%N by move: li; case: ifP; lia.
rewrite !(nth_map d) ?nth_take ?h // size_take; case: ifP; lia.
Qed.

Lemma rows_of_rcons (s : seq level) l : rows_of (rcons s l) = (rows_of s + l_nin l)%N.
Proof. by rewrite /rows_of map_rcons sumn_rcons addnC. Qed.

Lemma qp_ready_ext above above' p p' (l : level) : rows_of above' = rows_of above -> l_ns p' = l_ns p ->
  qp_ready above p l -> qp_ready above' p' l.
Proof. by rewrite /qp_ready => -> ->. Qed.

Lemma solve_rest_ok d (init : bool) hs above p :
  (0 < size above)%N -> p = nth d above (size above).-1 -> l_ncon p = rows_of above ->
  (forall j, (j < size above)%N -> shaped n (nth d above j)) -> dims (l_Z p) n (l_ns p) ->
  (forall i, (i < size hs)%N -> shaped n (nth d hs i) /\ dims (l_Z (nth d hs i)) n (l_ns (nth d hs i))) ->
  (init \/ forall i, (i < size hs)%N -> qp_ready (above ++ take i hs) (nth d (p :: hs) i) (nth d hs i)) ->
  exists r', [/\ solve_rest osqp above p hs init = Some r' &
    forall j, (j < size hs)%N -> let i := (size above + j)%N in
      let l := nth d r' i in
      qp_content n d (take i r') (nth d r' i.-1) l (OQP (l_qH l) (l_qg l) (l_qA l) (l_qub l))].
Proof.
elim: hs above p => [|l hs IH] above p sa ep enc shA dZp shH st; first by exists above.
have [shl dZl] := shH 0%N isT; rewrite /= in shl dZl.
have shp : shaped n p by rewrite ep; apply: shA; rewrite prednK.
have [_ _ _ _ [dyp _]] := shp.
have encE : ((if size above == 1%N then l_nin p else l_ncon p) + l_nin l = rows_of above + l_nin l)%N.
  case: eqP => [e|_]; last (by rewrite enc); congr addn; rewrite ep e /=.
  by case: (above) e => [|x [|? ?]] //= _; rewrite /rows_of /= addn0.
have [||q [eq qc]] := @levelQP_ok R n d above p l init dZp dyp shl.
- by move=> j lj; apply: shaped_row_ok; apply: shA.
- by case: st => [|/(_ 0%N isT)]; rewrite ?take0 ?cats0; [left|right].
rewrite -encE in eq.
have [l' [e sf]] := solve_level_some dZp dyp shl eq.
have k := solved_kept sf; have [[enin _ _ _ _] [eZ ens]] := k.
have elen : l_ncon l' = rows_of (rcons above l').
  by case: (sf) => q' _ -> *; rewrite rows_of_rcons -encE.
have [||||||| r' [er hr]] := IH (rcons above l') l'.
- by rewrite size_rcons.
- by rewrite size_rcons nth_rcons ltnn eqxx.
- by [].
- move=> j; rewrite size_rcons ltnS leq_eqVlt => /predU1P[->|lj].
    by rewrite nth_rcons ltnn eqxx; apply: solved_shaped sf shl.
  by rewrite nth_rcons lj; apply: shA.
- by rewrite eZ ens.
- by move=> i li; apply: (shH i.+1).
- case: st => [|h]; [by left|right] => i li.
  apply: qp_ready_ext (h i.+1 li).
    rewrite cat_rcons /= /rows_of !map_cat !sumn_cat /=; congr (_ + (_ + _))%N; exact: enin.
  by case: (i) => [|i'] /=.
exists r'; rewrite /= e; split=> //.
have [||sr tr sst] := @solve_rest_step d init hs _ _ r' _ _ er; rewrite ?size_rcons // ?nth_rcons ?ltnn ?eqxx //.
rewrite size_rcons in sr tr sst hr.
case=> [_|j lj]; last by have := hr j lj; rewrite addnS addSn.
rewrite addn0 /=.
have tr' : take (size above) r' = above.
  have -> : take (size above) r' = take (size above) (take (size above).+1 r') by rewrite take_take.
  by rewrite tr -cats1 take_size_cat.
have -> : nth d r' (size above) = l'.
  by rewrite -(nth_take d (ltnSn (size above))) tr nth_rcons ltnn eqxx.
have -> : nth d r' (size above).-1 = p.
  by rewrite ep -{2}tr' nth_take // prednK.
rewrite tr'; case: (sf) => q' eq' -> _ _ _ _ /=.
rewrite eq in eq'; case: eq' => <-.
case: qc => h1 h2 h3 h4 h5 h6 h7 h8; by split.
Qed.

Lemma solveSequential_ok d (init : bool) hs : hs <> [::] ->
  (forall i, (i < size hs)%N -> shaped n (nth d hs i) /\ dims (l_Z (nth d hs i)) n (l_ns (nth d hs i))) ->
  (init \/ all_ready d hs) ->
  exists hs', [/\ solveSequential osqp hs init = Some hs' &
    forall i, (0 < i < size hs)%N -> let l := nth d hs' i in
      qp_content n d (take i hs') (nth d hs' i.-1) l (OQP (l_qH l) (l_qg l) (l_qA l) (l_qub l))].
Proof.
case: hs => // l hs _ sh st; rewrite /solveSequential.
case: hs sh st => [|l2 hs] sh st; first by eexists; split; [by []|case].
set l0 := setQP _ _ _ _ _ _ _.
have [sh0 dZ0] := sh 0%N isT.
have [||||||| r' [er hr]] := @solve_rest_ok d init (l2 :: hs) [:: l0] l0.
- by [].
- by [].
- by rewrite /rows_of /= addn0.
- by case.
- by [].
- by move=> i li; apply: (sh i.+1).
- case: st => [|h]; [by left|right] => i li.
  by apply: qp_ready_ext (h i.+1 li) => //; case: (i).
exists r'; split=> //; case=> // i /andP[_ li]; exact: (hr i li).
Qed.
End Solve.

Section Quadratic.
Variable R : realFieldType.

Lemma sqnormE k (w : 'cV[R]_k) : sqnorm w = sc (w^T *m w).
Proof. by rewrite /sqnorm /sc mxE; apply: eq_bigr => i _; rewrite mxE expr2. Qed.

Lemma sc_lsq m k (T : 'M[R]_(m, k)) (u : 'cV[R]_k) (t : 'cV[R]_m) :
  sc ((T *m u + t)^T *m (T *m u + t)) = sc (u^T *m (T^T *m T) *m u) + 2%:R * sc ((T^T *m t)^T *m u) + sc (t^T *m t).
Proof.
rewrite trD mulmxDl !mulmxDr !scD !trmx_mul trmxK !mulmxA.
have -> : sc (u^T *m T^T *m t) = sc (t^T *m T *m u).
  by rewrite -[LHS]scT !trmx_mul !trmxK mulmxA.
by move: (sc (t^T *m T *m u)) (sc (u^T *m T^T *m T *m u)) (sc (t^T *m t)) => a b c; ring.
Qed.

Lemma sc_quad m k (H : 'M[R]_m) (Z : 'M[R]_(m, k)) (y : 'cV[R]_m) (u : 'cV[R]_k) : H^T = H ->
  sc ((y + Z *m u)^T *m H *m (y + Z *m u)) =
  sc (u^T *m (Z^T *m H *m Z) *m u) + 2%:R * sc ((Z^T *m H *m y)^T *m u) + sc (y^T *m H *m y).
Proof.
move=> sym; rewrite trD !mulmxDl !mulmxDr !scD !trmx_mul trmxK sym !mulmxA.
have -> : sc (u^T *m Z^T *m H *m y) = sc (y^T *m H *m Z *m u).
  by rewrite -[LHS]scT !trmx_mul !trmxK sym !mulmxA.
move: (sc (y^T *m H *m Z *m u)) (sc (u^T *m Z^T *m H *m Z *m u)) (sc (y^T *m H *m y)) => a b c; ring.
Qed.
End Quadratic.

Section Meaning.
Variable R : realFieldType.
Local Notation dm := (dm R).
Local Notation level := (level R).
Variable n : nat.
Variables (d : level) (above : seq level) (p l : level) (q : oqp R).
Hypothesis qc : qp_content n d above p l q.
Variable x : nat -> R.
Let u : 'cV[R]_(l_ns p) := col_of (l_ns p) x.
Let v : 'cV[R]_(l_nin l) := col_of (l_nin l) (fun c => x (l_ns p + c)%N).
Let y : 'cV[R]_n := yv n p + Zm n p *m u.

Fact ring_own (a1 a2 a3 a4 : R) : a1 - a4 - (- a2 - a3) = a2 + a1 + a3 - a4.
Proof. ring. Qed.
Fact ring_inh (a1 a2 a3 a4 : R) : a1 - (- a2 + a4 - a3) = a2 + a1 + a3 - a4.
Proof. ring. Qed.

Lemma own_row (r : 'I_(l_nin l)) :
  rowdot (o_A q) r x - ent (o_ub q) r 0 = (Am n l *m y + av l) r 0 - v r 0.
Proof.
have [h1 h2 ->] := qc_own qc r; have [_ cA] := dims_ex (qc_A qc).
rewrite (rowdot_split r x cA) (eq_bigr (fun c => (Am n l *m Zm n p) r c * u c 0)); last first.
  by move=> c _; rewrite h1; congr (_ * _); rewrite /u mxE.
rewrite (eq_bigr (fun c : 'I_(l_nin l) => - ((c == r)%:R * x (l_ns p + c)%N))); last first.
  by move=> c _; rewrite h2 mulNr.
have -> : \sum_(c < l_nin l) - ((c == r)%:R * x (l_ns p + c)%N) = - x (l_ns p + r)%N.
  rewrite sumrN (bigD1 r) //= eqxx mul1r big1 ?addr0 // => c /negbTE->; by rewrite mul0r.
have -> : \sum_c (Am n l *m Zm n p) r c * u c 0 = (Am n l *m Zm n p *m u) r 0 by rewrite mxE.
rewrite /y mulmxDr mulmxA -/(yv n p); move: (Am n l *m Zm n p *m u) (Am n l *m yv n p) => P Q.
have -> : v r 0 = x (l_ns p + r)%N by rewrite mxE.
by rewrite ![(_ + _ : 'cV_(l_nin l)) r 0]mxE ![(- _ : 'cV_(l_nin l)) r 0]mxE; apply: ring_own.
Qed.

Lemma inh_row j (lj : (j < size above)%N) (r : 'I_(l_nin (nth d above j))) :
  let a := (l_nin l + rows_of (take j above) + r)%N in
  rowdot (o_A q) a x - ent (o_ub q) a 0 =
  (Am n (nth d above j) *m y + av (nth d above j)) r 0 - vv (nth d above j) r 0.
Proof.
move=> a; have [h1 h2 h3] := qc_inh qc lj r; rewrite -/a in h1 h2 h3; have [_ cA] := dims_ex (qc_A qc).
rewrite h3 (rowdot_split a x cA) (eq_bigr (fun c => (Am n (nth d above j) *m Zm n p) r c * u c 0)); last first.
  by move=> c _; rewrite h1; congr (_ * _); rewrite /u mxE.
have -> : \sum_(c < l_nin l) ent (o_A q) a (l_ns p + c) * x (l_ns p + c)%N = 0.
  by apply: big1 => c _; rewrite h2 mul0r.
rewrite addr0.
have -> : \sum_c (Am n (nth d above j) *m Zm n p) r c * u c 0 = (Am n (nth d above j) *m Zm n p *m u) r 0 by rewrite mxE.
rewrite /y mulmxDr mulmxA -/(yv n p).
move: (Am _ _ *m Zm n p *m u) (Am _ _ *m yv n p) => P Q.
by rewrite ![(_ + _ : 'cV__) r 0]mxE ![(- _ : 'cV__) r 0]mxE; apply: ring_inh.
Qed.

Lemma inh_lt j (lj : (j < size above)%N) (r : 'I_(l_nin (nth d above j))) :
  (l_nin l + rows_of (take j above) + r < nr (o_A q))%N.
Proof.
have [-> _] := dims_ex (qc_A qc); have lr := ltn_ord r.
have -> : rows_of above = (rows_of (take j above) + (l_nin (nth d above j) + rows_of (drop j.+1 above)))%N.
  rewrite -{1}(cat_take_drop j above) /rows_of map_cat sumn_cat; congr (_ + _)%N.
  by rewrite (drop_nth d lj).
lia.
Qed.

Lemma own_lt (r : 'I_(l_nin l)) : (r < nr (o_A q))%N.
Proof. have [-> _] := dims_ex (qc_A qc); have lr := ltn_ord r; lia. Qed.

Lemma content_feasible : oqp_feasible q x <->
  lec (Am n l *m y + av l) v /\
  forall j, (j < size above)%N -> lec (Am n (nth d above j) *m y + av (nth d above j)) (vv (nth d above j)).
Proof.
split=> [h|[h1 h2]].
  split=> [r|j lj r].
    by rewrite -subr_le0 -own_row subr_le0; apply: h; apply: own_lt.
  by rewrite -subr_le0 -(inh_row lj) subr_le0; apply: h; apply: inh_lt.
move=> a; have [-> _] := dims_ex (qc_A qc) => la.
case: (ltnP a (l_nin l)) => ha.
  by rewrite -subr_le0 (own_row (Ordinal ha)) subr_le0.
have [|j lj [r er]] := @row_of_level R d above (a - l_nin l)%N; first by lia.
have -> : a = (l_nin l + rows_of (take j above) + r)%N by rewrite -addnA -er subnKC.
by rewrite -subr_le0 (inh_row lj) subr_le0; apply: h2.
Qed.

(* with the entries below the threshold of sparseView dropped *)
Lemma content_sparse H g : oqp_feasible (OQP H g (sparseView (o_A q)) (o_ub q)) x ->
  (forall r, (Am n l *m y + av l) r 0 <= v r 0 + tol1 u) /\
  forall j, (j < size above)%N -> forall r,
    (Am n (nth d above j) *m y + av (nth d above j)) r 0 <= vv (nth d above j) r 0 + tol1 u.
Proof.
move=> h; have [_ cA] := dims_ex (qc_A qc); split=> [r|j lj r].
  rewrite -ler_subl_addl -own_row ler_subl_addr addrC.
  have [_ h2 _] := qc_own qc r.
  apply: le_trans (sparse_row x cA _) _; first by move=> c; rewrite h2 svN1.
  by rewrite ler_add2r; apply: h; apply: own_lt.
rewrite -ler_subl_addl -(inh_row lj) ler_subl_addr addrC.
have [_ h2 _] := qc_inh qc lj r.
apply: le_trans (sparse_row x cA _) _; first by move=> c; rewrite h2 sv0.
by rewrite ler_add2r; apply: h; apply: inh_lt.
Qed.

(* twice the cost, up to a constant that does not depend on the answer *)
Lemma content_cost : (l_cost l -> (Hm n l)^T = Hm n l) ->
  2%:R * oqp_cost q x = level_objective l y v - level_objective l (yv n p) 0.
Proof.
move=> sym; have [rH cH] := dims_ex (qc_H qc); have [rg cg] := dims_ex (qc_g qc).
set nv := (l_ns p + l_nin l)%N in rH cH rg.
pose X : 'cV[R]_nv := col_of nv x.
have eX : X = col_mx u v by rewrite /X /nv col_of_add.
have e1 : \sum_(0 <= i < nr (o_H q)) \sum_(0 <= j < nc (o_H q)) x i * ent (o_H q) i j * x j
        = (X^T *m mx_of nv nv (o_H q) *m X) 0 0.
  rewrite rH cH sum_ord -mulmxA mxE; apply: eq_bigr => i _.
  rewrite sum_ord !mxE mulr_sumr; apply: eq_bigr => j _; by rewrite !mxE mulrA.
have e2 : \sum_(0 <= i < nr (o_g q)) ent (o_g q) i 0 * x i = ((mx_of nv 1 (o_g q))^T *m X) 0 0.
  by rewrite rg sum_ord mxE; apply: eq_bigr => i _; rewrite !mxE.
rewrite /oqp_cost e1 e2 (qc_Hm qc) (qc_gm qc) eX.
have e2n : (2%:R : R) != 0 by rewrite pnatr_eq0.
rewrite mulrDr mulrA mul1r mulfV // mul1r.
rewrite tr_col_mx mul_row_block mul_row_col !mulmx0 addr0 add0r mulmx1.
rewrite tr_col_mx mul_row_col tr0 mul0mx addr0.
set T := Bm n l *m Zm n p; set t := Bm n l *m yv n p + bv l.
have ey : Bm n l *m y + bv l = T *m u + t.
  by rewrite /y mulmxDr mulmxA -/T /t addrA; congr (_ + _); rewrite addrC.
rewrite /level_objective ey -/t (_ : sqnorm (0 : 'cV[R]_(l_nin l)) = 0); last first.
  by rewrite sqnormE mulmx0 sc0.
rewrite -[X in X + _]/(sc _) -[X in _ + _ * X]/(sc _) scD !sqnormE sc_lsq.
rewrite /TT /Tg -/(Zm n p) -/(yv n p) -/T -/t.
have rc0 (a b c e : R) : a + b + 2%:R * c = a + 2%:R * c + e + b - e by ring.
have rc1 (a b c e f g h : R) : a + f + b + 2%:R * (c + g) = a + 2%:R * c + e + b + (f + 2%:R * g + h) - (e + 0 + h).
  ring.
case: (boolP (l_cost l)) => hc; last by rewrite !addr0; apply: rc0.
rewrite mulmxDr mulmxDl trD mulmxDl !scD -[(_ *m _ *m y) 0 0]/(sc _) -[(_ *m _ *m yv n p) 0 0]/(sc _).
by rewrite /y sc_quad ?sym //; apply: rc1.
Qed.
End Meaning.
