(* Proofs about the contact constraint matrix. *)
From mathcomp Require Import all_ssreflect all_algebra.
From mathcomp Require Import zify.
From mathcomp.algebra_tactics Require Import ring.
From Verif Require Import DMat Cone_Model Cone_Spec.
Set Implicit Arguments.
Unset Strict Implicit.
Unset Printing Implicit Defensive.
Import Order.TTheory GRing.Theory Num.Theory.
Local Open Scope ring_scope.

Section ConeProofs.
Variable R : realFieldType.
Local Notation pcontact := (pcontact R).

(* rows of the stacked 10x6 constraint matrix of one contact *)
Definition MM (c : pcontact) (r j : nat) : R :=
  if (r < 4)%N then ent (GetZMPConstMatrix (p_lx c) (p_ly c)) r j
  else ent (GetForceConstMatrix (p_mu c) (p_muz c)) (r - 4) j.

(* the 6x6 block-diagonal rotation of one contact *)
Definition RR (c : pcontact) (a b : nat) : R :=
  if ((a < 3) && (b < 3))%N then ent (of_mx (p_rotm c)^T) a b
  else if ((3 <= a < 6) && (3 <= b < 6))%N then ent (of_mx (p_rotm c)^T) (a - 3) (b - 3) else 0.

Definition CInv (K : nat) (d : pcontact) (ds : seq pcontact) (A B : dm R) : Prop :=
  [/\ nr A = (10 * K)%N, nc A = (6 * K)%N, nr B = (6 * K)%N & nc B = (6 * K)%N] /\
  [/\ forall p r j, (p < size ds)%N -> (r < 10)%N ->
        ent A (10 * p + r) j = if (6 * p <= j < 6 * p + 6)%N then MM (nth d ds p) r (j - 6 * p) else 0,
      forall i j, (10 * size ds <= i)%N -> ent A i j = 0,
      forall p a j, (p < size ds)%N -> (a < 6)%N ->
        ent B (6 * p + a) j = if (6 * p <= j < 6 * p + 6)%N then RR (nth d ds p) a (j - 6 * p) else 0
    & forall i j, (6 * size ds <= i)%N -> ent B i j = 0].

Lemma CInv0 K d : CInv K d [::] (dzero R ((4 + 6) * K) (6 * K)) (dzero R (6 * K) (6 * K)).
Proof. by split; split. Qed.

Lemma step_ok K d ds A B c : CInv K d ds A B -> (size ds < K)%N ->
  exists A' B', constraint_step c (10 * size ds) (6 * size ds) A B = Some (A', B') /\
    CInv K d (rcons ds c) A' B'.
Proof.
move=> [[nA cA nB cB] [hA hA0 hB hB0]] lk; rewrite /constraint_step.
set k := size ds in lk *; set rt := of_mx _.
have [B1 e1] : exists B1, blockw B (6 * k) (6 * k) 3 3 rt = Some B1.
  by apply: blockw_some; rewrite ?nB ?cB //=; lia.
rewrite e1; case/blockwP: e1 => _ [n1 c1 E1].
have [B2 e2] : exists B2, blockw B1 (6 * k + 3) (6 * k + 3) 3 3 rt = Some B2.
  by apply: blockw_some; rewrite ?n1 ?c1 ?nB ?cB //=; lia.
rewrite e2; case/blockwP: e2 => _ [n2 c2 E2].
have [A1 e3] : exists A1, blockw A (10 * k) (6 * k) 4 6 (GetZMPConstMatrix (p_lx c) (p_ly c)) = Some A1.
  by apply: blockw_some; rewrite ?nA ?cA //=; lia.
rewrite e3; case/blockwP: e3 => _ [n3 c3 E3].
have [A2 e4] : exists A2, blockw A1 (10 * k + CONTACT_CONSTRAINT_ZMP) (6 * k) 6 6
    (GetForceConstMatrix (p_mu c) (p_muz c)) = Some A2.
  by apply: blockw_some; rewrite ?n3 ?c3 ?nA ?cA //= /CONTACT_CONSTRAINT_ZMP; lia.
rewrite e4; case/blockwP: e4 => _ [n4 c4 E4].
exists A2, B2; split=> //; split; first by rewrite n4 n3 c4 c3 n2 n1 c2 c1.
rewrite size_rcons -/k /CONTACT_CONSTRAINT_ZMP in E4 *; split.
- move=> p r j; rewrite ltnS leq_eqVlt => /orP[/eqP->|lp] lr.
  + rewrite nth_rcons ltnn eqxx E4 E3 (hA0 (10 * k + r)%N j (leq_addr _ _)) /MM.
    case: (boolP (6 * k <= j < 6 * k + 6)%N) => hj; last by rewrite !andbF.
    rewrite !andbT; case: (ltnP r 4) => h4.
    * have -> : (10 * k + 4 <= 10 * k + r < 10 * k + 4 + 6)%N = false by lia.
      have -> : (10 * k <= 10 * k + r < 10 * k + 4)%N by lia.
      by rewrite addKn.
    * have -> : (10 * k + 4 <= 10 * k + r < 10 * k + 4 + 6)%N by lia.
      by congr (ent _ _ _); lia.
  + rewrite nth_rcons lp E4 E3.
    have -> : (10 * k + 4 <= 10 * p + r < 10 * k + 4 + 6)%N = false by lia.
    have -> : (10 * k <= 10 * p + r < 10 * k + 4)%N = false by lia.
    by rewrite /= hA.
- move=> i j hi; rewrite E4 E3.
  have -> : (10 * k + 4 <= i < 10 * k + 4 + 6)%N = false by lia.
  have -> : (10 * k <= i < 10 * k + 4)%N = false by lia.
  by rewrite /= hA0 // -/k; lia.
- move=> p a j; rewrite ltnS leq_eqVlt => /orP[/eqP->|lp] la.
  + rewrite nth_rcons ltnn eqxx E2 E1 (hB0 (6 * k + a)%N j (leq_addr _ _)) /RR -/rt.
    case: (boolP (6 * k <= j < 6 * k + 6)%N) => hj; last first.
      have -> : (6 * k + 3 <= j < 6 * k + 3 + 3)%N = false by lia.
      have -> : (6 * k <= j < 6 * k + 3)%N = false by lia.
      by rewrite !andbF.
    case: (ltnP a 3) => ha.
      have -> : (6 * k + 3 <= 6 * k + a < 6 * k + 3 + 3)%N = false by lia.
      have -> : (6 * k <= 6 * k + a < 6 * k + 3)%N by lia.
      rewrite /= addKn.
      have -> : (6 * k <= j < 6 * k + 3)%N = (j - 6 * k < 3)%N by lia.
      by [].
    have -> : (6 * k + 3 <= 6 * k + a < 6 * k + 3 + 3)%N by lia.
    have -> : (6 * k <= 6 * k + a < 6 * k + 3)%N = false by lia.
    rewrite la ?andTb ?andFb ?andbT.
    have -> : (6 * k + 3 <= j < 6 * k + 3 + 3)%N = (3 <= j - 6 * k < 6)%N by lia.
    by case: ifP => // hj'; congr (ent rt _ _); lia.
  + rewrite nth_rcons lp E2 E1.
    have -> : (6 * k + 3 <= 6 * p + a < 6 * k + 3 + 3)%N = false by lia.
    have -> : (6 * k <= 6 * p + a < 6 * k + 3)%N = false by lia.
    by rewrite /= hB.
- move=> i j hi; rewrite E2 E1.
  have -> : (6 * k + 3 <= i < 6 * k + 3 + 3)%N = false by lia.
  have -> : (6 * k <= i < 6 * k + 3)%N = false by lia.
  by rewrite /= hB0 // -/k; lia.
Qed.

Lemma loop_ok K d cc : forall ds A B, CInv K d ds A B ->
  (forall c, c \in [seq i <- iota 0 (size cc) | p_on (nth d cc i)] -> plane (nth d cc c)) ->
  (size ds + size (actives cc) = K)%N ->
  exists A' B', constraint_loop cc (10 * size ds) (6 * size ds) A B = Some (A', B') /\
    CInv K d (ds ++ actives cc) A' B'.
Proof.
elim: cc => [|c cc IH] ds A B I pl sz /=.
  by exists A, B; rewrite cats0; split.
have pl' : forall i, i \in [seq i <- iota 0 (size cc) | p_on (nth d cc i)] -> plane (nth d cc i).
  move=> i; rewrite mem_filter mem_iota /= => /andP[oi li].
  by apply: (pl i.+1); rewrite mem_filter mem_iota /= oi.
case oc : (p_on c); last first.
  by apply: IH => //; move: sz; rewrite /actives /= oc.
have [A1 [B1 [e I1]]] : exists A' B', constraint_step c (10 * size ds) (6 * size ds) A B = Some (A', B') /\
    CInv K d (rcons ds c) A' B'.
  by apply: step_ok I _; rewrite -sz /actives /= oc /=; lia.
rewrite e; have [pd pn] : plane c by apply: (pl 0%N); rewrite mem_filter /= oc inE.
have := IH (rcons ds c) A1 B1 I1 pl'; rewrite size_rcons pd pn.
rewrite -!mulnSr => -[]; first by move: sz; rewrite /actives /= oc /=; lia.
by move=> A' [B' [e' I']]; exists A', B'; rewrite e'; split=> //; rewrite cat_rcons in I'.
Qed.

Lemma sum6 (f : nat -> R) : \sum_(0 <= j < 6) f j = f 0%N + f 1%N + f 2%N + f 3%N + f 4%N + f 5%N.
Proof. by rewrite !big_nat_recr //= big_geq // add0r. Qed.
Lemma sum3 (f : nat -> R) : \sum_(0 <= j < 3) f j = f 0%N + f 1%N + f 2%N.
Proof. by rewrite !big_nat_recr //= big_geq // add0r. Qed.

(* local wrench component a of contact c whose block starts at b *)
Definition loc (c : pcontact) (F : nat -> R) (b a : nat) : R :=
  \sum_(0 <= j < 6) RR c a j * F (b + j)%N.

Lemma mx3E (M : 'M[R]_3) (v : 'cV[R]_3) (i : 'I_3) :
  (M *m v) i 0 = \sum_(0 <= j < 3) ent (of_mx M) i j * ent (of_mx v) j 0.
Proof.
rewrite mxE sum_ord; apply: eq_bigr => j _.
by rewrite of_mxE -[0%N]/(val (0 : 'I_1)) of_mxE.
Qed.

Lemma blk3E (F : nat -> R) b j : (j < 3)%N -> ent (of_mx (blk3 F b)) j 0 = F (b + j)%N.
Proof. by move=> h; rewrite (of_mxO _ h (isT : (0 < 1)%N)) mxE. Qed.

Lemma locf c F b (i : 'I_3) : loc c F b i = ((p_rotm c)^T *m blk3 F b) i 0.
Proof.
rewrite mx3E /loc sum6 sum3 /RR (ltn_ord i).
have -> : (3 <= i < 6)%N = false by have := ltn_ord i; lia.
rewrite !blk3E //=; ring.
Qed.

Lemma locm c F b (i : 'I_3) : loc c F b (3 + i) = ((p_rotm c)^T *m blk3 F (b + 3)) i 0.
Proof.
rewrite mx3E /loc sum6 sum3 /RR.
have -> : (3 + i < 3)%N = false by lia.
have -> : (3 <= 3 + i < 6)%N by have := ltn_ord i; lia.
rewrite !blk3E // addKn -!addnA -[(3 + 0)%N]/3%N -[(3 + 1)%N]/4%N -[(3 + 2)%N]/5%N.
move: (ent (of_mx _)) => e /=; rewrite -[(3 - 3)%N]/0%N -[(4 - 3)%N]/1%N -[(5 - 3)%N]/2%N; ring.
Qed.

(* every row of the assembled matrix *)
Lemma getC_rows cc d : (forall i, (i < size cc)%N -> p_on (nth d cc i) -> plane (nth d cc i)) ->
  let K := size (actives cc) in
  exists C, getContactConstraintMatrix cc K (6 * K) = Some C /\
    [/\ nr C = (10 * K)%N, nc C = (6 * K)%N &
      forall F p r, (p < K)%N -> (r < 10)%N ->
        rowdot C (10 * p + r) F =
        - \sum_(0 <= a < 6) MM (nth d (actives cc) p) r a * loc (nth d (actives cc) p) F (6 * p) a].
Proof.
move=> pl K.
have [A [B [e [[nA cA nB cB] [hA _ hB _]]]]] :
    exists A B, constraint_loop cc 0 0 (dzero R ((4 + 6) * K) (6 * K)) (dzero R (6 * K) (6 * K)) = Some (A, B)
    /\ CInv K d (actives cc) A B.
  have := @loop_ok K d cc [::] _ _ (CInv0 K d); rewrite /= !muln0; apply => //.
  by move=> i; rewrite mem_filter mem_iota /= => /andP[oi li]; apply: pl.
rewrite /getContactConstraintMatrix e /dmul /= cA nB eqxx; eexists; split; first by [].
split=> //= F p r lp lr; rewrite /rowdot /= cB.
set c := nth d _ p.
have col j : \sum_(0 <= k < (6 * K)%N) - ent A (10 * p + r) k * ent B k j =
   - \sum_(0 <= a < 6) MM c r a * ent B (6 * p + a) j.
  rewrite (@sum_window _ (6 * p) 6).
  - rewrite -sumrN; apply: sum_nat_eq => a la; rewrite hA //.
    have -> : (6 * p <= 6 * p + a < 6 * p + 6)%N by lia.
    by rewrite addKn mulNr.
  - by rewrite /K in lp *; lia.
  - by move=> k lk hk; rewrite hA // (negbTE hk) oppr0 mul0r.
under eq_bigr do rewrite col.
under eq_bigr do rewrite mulNr mulr_suml.
rewrite sumrN exchange_big /=; congr (- _); apply: sum_nat_eq => a la.
rewrite /loc mulr_sumr (@sum_window _ (6 * p) 6).
- apply: sum_nat_eq => j lj; rewrite hB //.
  have -> : (6 * p <= 6 * p + j < 6 * p + 6)%N by lia.
  by rewrite addKn mulrA.
- by rewrite /K in lp *; lia.
- by move=> k lk hk; rewrite hB // (negbTE hk) mulr0 mul0r.
Qed.

Lemma le_norm (a b : R) : `|a| <= b <-> (a <= b /\ - a <= b).
Proof. by rewrite ler_norml ler_oppl; split=> [/andP[]|[-> ->]]. Qed.

Lemma rows_cone (c : pcontact) F b :
  (forall r, (r < 10)%N -> - (\sum_(0 <= a < 6) MM c r a * loc c F b a) <= 0) <->
  in_cone c (blk3 F b) (blk3 F (b + 3)).
Proof.
rewrite /in_cone /=.
set lf := _ *m blk3 F b; set lm := _ *m blk3 F (b + 3).
have L0 : loc c F b 0 = vx lf by rewrite -[0%N]/(val (0 : 'I_3)) locf.
have L1 : loc c F b 1 = vy lf by rewrite -[1%N]/(val (1 : 'I_3)) locf.
have L2 : loc c F b 2 = vz lf by rewrite -[2%N]/(val (2%:R : 'I_3)) locf.
have L3 : loc c F b 3 = vx lm by rewrite -[3%N]/(3 + val (0%R : 'I_3))%N locm.
have L4 : loc c F b 4 = vy lm by rewrite -[4%N]/(3 + val (1%R : 'I_3))%N locm.
have L5 : loc c F b 5 = vz lm by rewrite -[5%N]/(3 + val (2%:R%R : 'I_3))%N locm.
pose row r := - (\sum_(0 <= a < 6) MM c r a * loc c F b a).
have E r : row r = - (MM c r 0 * vx lf + MM c r 1 * vy lf + MM c r 2 * vz lf + MM c r 3 * vx lm
   + MM c r 4 * vy lm + MM c r 5 * vz lm) by rewrite /row sum6 L0 L1 L2 L3 L4 L5.
have S (x y : R) : (x <= y) = (x - y <= 0) by rewrite subr_le0.
have q0 : row 0%N = vy lm - - (p_lx c * vz lf) by rewrite E /MM /=; ring.
have q1 : row 1%N = - vy lm - - (p_lx c * vz lf) by rewrite E /MM /=; ring.
have q2 : row 2%N = vx lm - - (p_ly c * vz lf) by rewrite E /MM /=; ring.
have q3 : row 3%N = - vx lm - - (p_ly c * vz lf) by rewrite E /MM /=; ring.
have q4 : row 4%N = - vx lf - - (p_mu c * vz lf) by rewrite E /MM /=; ring.
have q5 : row 5%N = vx lf - - (p_mu c * vz lf) by rewrite E /MM /=; ring.
have q6 : row 6%N = - vy lf - - (p_mu c * vz lf) by rewrite E /MM /=; ring.
have q7 : row 7%N = vy lf - - (p_mu c * vz lf) by rewrite E /MM /=; ring.
have q8 : row 8%N = - vz lm - - (p_muz c * vz lf) by rewrite E /MM /=; ring.
have q9 : row 9%N = vz lm - - (p_muz c * vz lf) by rewrite E /MM /=; ring.
split=> [h|].
  have hh r : (r < 10)%N -> row r <= 0 by apply: h.
  move: (hh 0%N isT) (hh 1%N isT) (hh 2%N isT) (hh 3%N isT) (hh 4%N isT) (hh 5%N isT) (hh 6%N isT) (hh 7%N isT)
    (hh 8%N isT) (hh 9%N isT).
  rewrite q0 q1 q2 q3 q4 q5 q6 q7 q8 q9 -!S => *.
  by split; apply/le_norm.
case=> /le_norm[a1 a2] /le_norm[a3 a4] /le_norm[a5 a6] /le_norm[a7 a8] /le_norm[a9 a10] r lr.
rewrite -/(row r); move: lr.
do 10 (case: r => [|r] //; first by rewrite ?q0 ?q1 ?q2 ?q3 ?q4 ?q5 ?q6 ?q7 ?q8 ?q9 -S).
Qed.


(* ---- contacts with fewer than six degrees of freedom ---- *)
Lemma step_dims (c : pcontact) a b A B A' B' : constraint_step c a b A B = Some (A', B') ->
  nc B' = nc B /\ (b + 6 <= nc B)%N.
Proof.
rewrite /constraint_step.
case e1 : (blockw B b b 3 3 _) => [B1|//]; case/blockwP: e1 => _ [_ c1 _].
case e2 : (blockw B1 (b + 3) (b + 3) 3 3 _) => [B2|//]; case/blockwP: e2 => -[_ _ _ l2] [_ c2 _].
case: (blockw A _ _ _ _ _) => // A1; case: (blockw A1 _ _ _ _ _) => // A2 [_ <-].
by rewrite c2 c1; split=> //; move: l2; rewrite c1; lia.
Qed.

Lemma loop_short (cc : seq pcontact) : forall d a b A B, (0 < size (actives cc))%N ->
  (p_dof (last d (actives cc)) < 6)%N -> nc B = (b + sumn [seq p_dof c | c <- actives cc])%N ->
  constraint_loop cc a b A B = None.
Proof.
elim: cc => [//|c cc IH] d a b A B; rewrite /actives /=.
case oc : (p_on c); last by move=> *; apply: (IH d).
rewrite /= => _ ld nB.
case e : (constraint_step c a b A B) => [[A' B']|//].
have [nB' l6] := step_dims e.
move: ld nB; rewrite -/(actives cc).
case e0 : (actives cc) => [|c0 cs] /= ld nB.
  by exfalso; move: l6; rewrite nB; lia.
by apply: (IH c); rewrite e0 //= nB' nB; lia.
Qed.

(* ---- getZMP ---- *)
Lemma at_some (F : seq R) k : (k < size F)%N -> at_ F k = Some (nth 0 F k).
Proof. by move=> h; rewrite /at_ (nth_map 0). Qed.
Lemma at_none (F : seq R) k : (size F <= k)%N -> at_ F k = None.
Proof. by move=> h; rewrite /at_ nth_default // size_map. Qed.

Lemma total_none (cc : seq pcontact) d F j : forall i acc, (j < size cc)%N -> p_on (nth d cc j) ->
  (size F <= 6 * (i + j) + 2)%N -> total_fz cc i F acc = None.
Proof.
elim: cc j => [//|c cc IH] [|j] i acc /= lj oj sF.
  by rewrite oj at_none // addnC mulnC; move: sF; rewrite addn0.
have sF' : (size F <= 6 * (i.+1 + j) + 2)%N by rewrite addSnnS.
case: (p_on c); last exact: (IH j).
by case: (at_ F _) => // v; apply: (IH j).
Qed.

Lemma total_off off i (F : seq R) acc : ~~ has (@p_on R) off -> total_fz off i F acc = Some acc.
Proof.
elim: off i => [//|c off IH] i /=; rewrite negb_or => /andP[/negbTE -> h]; exact: IH.
Qed.

Lemma total_on on off (F : seq R) : all (@p_on R) on -> ~~ has (@p_on R) off -> forall i acc,
  (6 * (i + size on) <= size F)%N ->
  total_fz (on ++ off) i F acc = Some (acc + \sum_(0 <= k < size on) nth 0 F (6 * (i + k) + 2)).
Proof.
move=> aon aoff; elim: on aon => [_|c on IH /= /andP[oc aon]] i acc sF.
  by rewrite /= total_off // big_geq // addr0.
rewrite oc at_some; last by lia.
rewrite (IH aon); last by rewrite addSnnS.
congr Some; rewrite big_nat_recl //= addn0 addrA; congr (_ + _ + _).
  by congr (nth _ _ _); lia.
by apply: sum_nat_eq => k _; congr (nth _ _ _); lia.
Qed.

Lemma zmp_off off i (F : seq R) t acc : ~~ has (@p_on R) off -> zmp_loop off i F t acc = Some acc.
Proof.
elim: off i => [//|c off IH] i /=; rewrite negb_or => /andP[/negbTE -> h]; exact: IH.
Qed.

Definition zmp_at d (on : seq pcontact) (F : seq R) k : 'cV[R]_3 :=
  contact_zmp (nth d on k) (nth 0 F (6 * k + 3)) (nth 0 F (6 * k + 4)) (nth 0 F (6 * k + 2)).

Lemma zmp_on d pre on off (F : seq R) t : all (@p_on R) on -> ~~ has (@p_on R) off -> forall acc,
  (6 * (size pre + size on) <= size F)%N ->
  zmp_loop (on ++ off) (size pre) F t acc = Some (acc +
   \sum_(0 <= k < size on) (nth 0 F (6 * (size pre + k) + 2) / t) *: zmp_at d (pre ++ on) F (size pre + k)).
Proof.
move=> aon aoff; elim: on pre aon => [|c on IH] pre /= => [_|/andP[oc aon]] acc sF.
  by rewrite zmp_off // big_geq // addr0.
rewrite oc !at_some; try by lia.
rewrite -[(size pre).+1](size_rcons pre c) (IH (rcons pre c)) //; last by rewrite size_rcons; lia.
congr Some; rewrite big_nat_recl // addn0 addrA; congr (_ + _ + _).
  rewrite /zmp_at nth_cat ltnn subnn /=.
  by rewrite ![(6 * size pre)%N]mulnC.
rewrite !big_nat; apply: eq_bigr => k _; rewrite cat_rcons size_rcons.
by have -> : ((size pre).+1 + k = size pre + k.+1)%N by rewrite addSnnS.
Qed.

Lemma getZMP_on d on off (F : seq R) : all (@p_on R) on -> ~~ has (@p_on R) off ->
  (6 * size on <= size F)%N ->
  getZMP (on ++ off) F = Some (\sum_(0 <= k < size on)
     (nth 0 F (6 * k + 2) / \sum_(0 <= k < size on) nth 0 F (6 * k + 2)) *: zmp_at d on F k).
Proof.
move=> aon aoff sF; rewrite /getZMP total_on // add0r.
by rewrite -[0%N]/(size (@nil pcontact)) (zmp_on d) // add0r.
Qed.

End ConeProofs.
