(* Proofs about the redistribution QP of the reduced model. *)
From mathcomp Require Import all_ssreflect all_algebra.
From mathcomp Require Import zify.
From mathcomp.algebra_tactics Require Import ring.
From Verif Require Import DMat DMatL Cone_Model Cone_Spec Cone_Proofs Cone_Props QP_Model QP_Spec QP_Proofs RedR_Model RedR_Spec.
Set Implicit Arguments.
Unset Strict Implicit.
Unset Printing Implicit Defensive.
Import Order.TTheory GRing.Theory Num.Theory.
Local Open Scope ring_scope.

Section RedRProofs.
Variable R : realFieldType.
Local Notation dm := (dm R).
Local Notation pcontact := (pcontact R).

Lemma dtr_dims (X : dm) m n : dims X m n -> dims (dtr X) n m.
Proof. by move=> [h1 h2]; split. Qed.
Lemma dtr_mx (X : dm) m n : mx_of n m (dtr X) = (mx_of m n X)^T.
Proof. by apply/matrixP => i j; rewrite !mxE. Qed.

(* crot_matrix and RotW after the contacts ds *)
Definition FInv (K : nat) (d : pcontact) (ds : seq pcontact) (C W : dm) : Prop :=
  [/\ dims C (6 * K) (6 * K), dims W (6 * K) (6 * K),
   forall a b, ent C a b = if ((a %/ 3 == b %/ 3) && (a %/ 6 < size ds))%N
       then ent (of_mx (p_rotm (nth d ds (a %/ 6)))^T) (a %% 3) (b %% 3) else 0 &
   forall a b, ent W a b = if ((a %% 6 == 2) && (a %/ 6 < size ds))%N then 0 else (a == b)%:R].

Lemma FInv0 K d : FInv K d [::] (dzero R (6 * K) (6 * K)) (dident R (6 * K)).
Proof. by split=> // a b; rewrite !ltn0 ?andbF. Qed.

Lemma fstep_ok K d ds C W c : FInv K d ds C W -> (size ds < K)%N -> p_dof c = 6%N ->
  exists C' W', frame_step c (6 * size ds) C W = Some (C', W', 6 * size (rcons ds c))%N /\
    FInv K d (rcons ds c) C' W'.
Proof.
move=> [[rC cC] [rW cW] hC hW] lk pd; rewrite /frame_step pd eqxx.
set k := size ds in lk *; set rt := of_mx _.
have [C1 e1] : exists C1, blockw C (6 * k + 3) (6 * k + 3) 3 3 rt = Some C1.
  by apply: blockw_some; rewrite ?rC ?cC //=; lia.
rewrite e1; case/blockwP: e1 => _ [n1 c1 E1].
have [C2 e2] : exists C2, blockw C1 (6 * k) (6 * k) 3 3 rt = Some C2.
  by apply: blockw_some; rewrite ?n1 ?c1 ?rC ?cC //=; lia.
rewrite e2; case/blockwP: e2 => _ [n2 c2 E2].
have [W1 e3] : exists W1, blockw W (6 * k + 2) (6 * k + 2) 1 1 (dzero R 1 1) = Some W1.
  by apply: blockw_some; rewrite ?rW ?cW //=; lia.
rewrite e3; case/blockwP: e3 => _ [n3 c3 E3].
rewrite size_rcons -/k mulnSr; do 2 eexists; split; first by [].
split.
- by rewrite /dims n2 n1 c2 c1.
- by rewrite /dims n3 c3.
- move=> a b; rewrite E2 E1 hC size_rcons -/k nth_rcons -/k.
  case: (ltngtP (a %/ 6) k) => ha.
  + have -> : (a %/ 6 < k.+1)%N by lia.
    have -> : ((6 * k <= a < 6 * k + 3) = false)%N by lia.
    by have -> : ((6 * k + 3 <= a < 6 * k + 3 + 3) = false)%N by lia.
  + have -> : (a %/ 6 < k.+1)%N = false by lia.
    have -> : ((6 * k <= a < 6 * k + 3) = false)%N by lia.
    have -> : ((6 * k + 3 <= a < 6 * k + 3 + 3) = false)%N by lia.
    by rewrite !andbF.
  + have -> : (a %/ 6 < k.+1)%N by lia.
    rewrite andbT andbF ?ha ?eqxx.
    case: (boolP (6 * k <= a < 6 * k + 3)%N) => h1.
      have -> : ((6 * k + 3 <= a < 6 * k + 3 + 3) = false)%N by lia.
      have -> : (6 * k <= b < 6 * k + 3)%N = (a %/ 3 == b %/ 3)%N by lia.
      rewrite /= ; case: eqP => // h2.
      have -> : (a - 6 * k = a %% 3)%N by lia.
      by have -> : (b - 6 * k = b %% 3)%N by lia.
    have -> : (6 * k + 3 <= a < 6 * k + 3 + 3)%N by lia.
    have -> : (6 * k + 3 <= b < 6 * k + 3 + 3)%N = (a %/ 3 == b %/ 3)%N by lia.
    rewrite /= ; case: eqP => // h2.
    have -> : (a - (6 * k + 3) = a %% 3)%N by lia.
    by have -> : (b - (6 * k + 3) = b %% 3)%N by lia.
- move=> a b; rewrite E3 hW size_rcons -/k.
  case: (boolP (a == 6 * k + 2)%N) => h1.
    have -> : (a %% 6 == 2)%N by lia.
    have -> : (a %/ 6 < k.+1)%N by lia.
    have -> : (a %/ 6 < k)%N = false by lia.
    rewrite /=; case: ifP => // h2.
    by have -> : (a == b) = false by lia.
  have -> : (6 * k + 2 <= a < 6 * k + 2 + 1)%N = false by lia.
  by have -> : ((a %% 6 == 2) && (a %/ 6 < k.+1) = (a %% 6 == 2) && (a %/ 6 < k))%N by lia.
Qed.

Lemma floop_ok K d cc : forall ds C W, FInv K d ds C W ->
  List.Forall (fun c => p_on c -> plane c) cc -> (size ds + size (actives cc) = K)%N ->
  exists C' W', frame_loop cc (6 * size ds) C W = Some (C', W') /\ FInv K d (ds ++ actives cc) C' W'.
Proof.
elim: cc => [|c cc IH] ds C W I pl sz /=.
  by exists C, W; rewrite cats0; split.
case/List.Forall_cons_iff: pl => px ps.
case oc : (p_on c); last by apply: IH => //; move: sz; rewrite /actives /= oc.
have [pd _] := px oc.
have [|C1 [W1 [-> I1]]] := fstep_ok (c := c) I _ pd; first by move: sz; rewrite /actives /= oc /=; lia.
have [||C' [W' [e' I']]] := IH (rcons ds c) C1 W1 I1; first by [].
  by move: sz; rewrite size_rcons /actives /= oc /=; lia.
by exists C', W'; rewrite e'; split=> //; rewrite cat_rcons in I'.
Qed.

Lemma sum_blocks (f : nat -> R) K : \sum_(0 <= i < 6 * K) f i =
  \sum_(0 <= k < K) \sum_(0 <= r < 6) f (6 * k + r)%N.
Proof.
elim: K => [|K IH]; first by rewrite muln0 !big_geq.
rewrite [RHS]big_nat_recr //= -IH mulnSr (big_cat_nat _ _ (n := (6 * K)%N)) ?leq_addr //=; congr (_ + _).
by rewrite -[X in \sum_(X <= _ < _) _]add0n big_addn addKn; apply: eq_bigr => i _; rewrite addnC.
Qed.

(* the cost vector: the contact wrenches in their frames without the force along z *)
Lemma frame_norm K d ds C W (F : nat -> R) : FInv K d ds C W -> size ds = K ->
  sqnorm (mx_of (6 * K) (6 * K) W *m mx_of (6 * K) (6 * K) C *m col_of (6 * K) F) =
  \sum_(0 <= k < K) tangential1 (nth d ds k) (blk3 F (6 * k)) (blk3 F (6 * k + 3)).
Proof.
move=> [[rC cC] [rW cW] hC hW] sz.
have CF a : (a < 6 * K)%N -> rowdot C a F =
    ent (of_mx ((p_rotm (nth d ds (a %/ 6)))^T *m blk3 F (3 * (a %/ 3)))) (a %% 3) 0.
  move=> la; rewrite /rowdot cC (@sum_window _ (3 * (a %/ 3)) 3); first last.
  - move=> k lk hk; rewrite hC; case: eqP => h; last by rewrite mul0r.
    by exfalso; move: hk; rewrite negb_and; lia.
  - by lia.
  have l3 : (a %% 3 < 3)%N by rewrite ltn_mod.
  rewrite (of_mxO _ l3 (isT : (0 < 1)%N)) [RHS]mxE sum_ord /=; apply: eq_bigr => j _.
  have lj := ltn_ord j.
  rewrite hC; have -> : (a %/ 3 == (3 * (a %/ 3) + j) %/ 3)%N by lia.
  have -> : (a %/ 6 < size ds)%N by lia.
  have -> : ((3 * (a %/ 3) + j) %% 3 = j)%N by lia.
  rewrite [true && true]/= (of_mxO _ l3 lj) [blk3 _ _ _ _]mxE.
  by have -> : Ordinal lj = j by apply: val_inj.
have row a (la : (a < 6 * K)%N) : (mx_of (6 * K) (6 * K) W *m mx_of (6 * K) (6 * K) C *m col_of (6 * K) F) (Ordinal la) 0 =
   if (a %% 6 == 2)%N then 0 else rowdot C a F.
  rewrite -mulmxA mxE.
  rewrite (eq_bigr (fun j : 'I_(6 * K) => if (a %% 6 == 2)%N then 0 else (a == j)%:R * rowdot C j F)); last first.
    move=> j _; rewrite [mx_of _ _ W _ _]mxE hW (rowdot_mx _ _ cC) /=.
    have -> : (a %/ 6 < size ds)%N by lia.
    by rewrite andbT; case: ifP => _; rewrite ?mul0r.
  case: ifP => _; first by rewrite big1.
  rewrite (bigD1 (Ordinal la)) //= eqxx mul1r big1 ?addr0 // => j nj.
  by case: eqP => [e|]; rewrite ?mul0r //; case/eqP: nj; apply: val_inj.
rewrite /sqnorm; pose G a := (if (a %% 6 == 2)%N then 0 else rowdot C a F) ^+ 2.
rewrite (eq_bigr (fun i : 'I_(6 * K) => G i)); last by move=> [i li] _; rewrite row.
rewrite -(sum_ord (6 * K) G) sum_blocks; apply: sum_nat_eq => k lk.
rewrite sum6 /G !CF; try lia.
have em r : (r < 6)%N -> ((6 * k + r) %% 6 = r)%N by lia.
have eq r : (r < 6)%N -> ((6 * k + r) %/ 6 = k)%N by lia.
have e3 r : (r < 6)%N -> ((6 * k + r) %% 3 = r %% 3)%N by lia.
have t3 r : (r < 3)%N -> (3 * ((6 * k + r) %/ 3) = 6 * k)%N by lia.
have t6 r : (3 <= r < 6)%N -> (3 * ((6 * k + r) %/ 3) = 6 * k + 3)%N by lia.
rewrite !em // !eq // !e3 // (t3 0%N) // (t3 1%N) // (t3 2%N) // !t6 //.
have [cx cy cz] : [/\ forall v : 'cV[R]_3, ent (of_mx v) 0 0 = vx v, forall v : 'cV[R]_3, ent (of_mx v) 1 0 = vy v &
   forall v : 'cV[R]_3, ent (of_mx v) 2 0 = vz v].
  split=> v; rewrite ?(of_mxO _ (isT : (0 < 3)%N) (isT : (0 < 1)%N)) ?(of_mxO _ (isT : (1 < 3)%N) (isT : (0 < 1)%N))
    ?(of_mxO _ (isT : (2 < 3)%N) (isT : (0 < 1)%N)) /vx /vy /vz; congr (v _ _); exact: val_inj.
rewrite -[(0 %% 3)%N]/0%N -[(1 %% 3)%N]/1%N -[(3 %% 3)%N]/0%N -[(4 %% 3)%N]/1%N -[(5 %% 3)%N]/2%N !cx !cy !cz.
by rewrite /tangential1 /= expr0n addr0 -!addrA.
Qed.

Lemma sqnormE n (v : 'cV[R]_n) : sqnorm v = (v^T *m v) 0 0.
Proof. by rewrite /sqnorm mxE; apply: eq_bigr => i _; rewrite mxE expr2. Qed.

Lemma tr1 (M : 'M[R]_1) : M^T = M.
Proof. by apply/matrixP => i j; rewrite mxE !ord1. Qed.

(* a least-squares cost *)
Lemma cost_sq n k (q : qp R) (T : 'M[R]_(k, n)) (v : 'cV[R]_k) (x : nat -> R) :
  dims (q_H q) n n -> dims (q_g q) n 1 ->
  mx_of n n (q_H q) = T^T *m T -> mx_of n 1 (q_g q) = T^T *m v ->
  qp_cost q x = 1 / 2%:R * sqnorm (T *m col_of n x + v) - 1 / 2%:R * sqnorm v.
Proof.
move=> [rH cH] [rg cg] mH mg.
have -> : qp_cost q x = 1 / 2%:R * ((col_of n x)^T *m mx_of n n (q_H q) *m col_of n x) 0 0 +
    ((mx_of n 1 (q_g q))^T *m col_of n x) 0 0.
  rewrite /qp_cost rH cH rg; congr (_ * _ + _).
    rewrite sum_ord -mulmxA mxE; apply: eq_bigr => i _.
    rewrite [(_ *m col_of n x) _ _]mxE sum_ord mulr_sumr.
    by apply: eq_bigr => j _; rewrite !mxE mulrA.
  by rewrite sum_ord mxE; apply: eq_bigr => i _; rewrite !mxE.
rewrite mH mg !sqnormE.
set y := col_of n x.
have -> : (T *m y + v)^T *m (T *m y + v) = y^T *m (T^T *m T) *m y + (T^T *m v)^T *m y + ((T^T *m v)^T *m y)^T + v^T *m v.
  rewrite [(_ + v)^T](raddfD (trmx_additive R k 1)) /= mulmxDl !mulmxDr !trmx_mul !trmxK !mulmxA -!addrA.
  by congr (_ + _); rewrite addrCA.
rewrite (tr1 ((T^T *m v)^T *m y)); move: (_ *m y) (_ *m y) (v^T *m v) => a b e; rewrite !mxE.
move: (a 0 0) (b 0 0) (e 0 0) => {}a {}b {}e.
have h2 : 2%:R != 0 :> R by rewrite pnatr_eq0.
by field.
Qed.

Section Redis.
Variables (rd : rdata R) (m K : nat) (d : pcontact) (tin : dm).
Hypothesis rdok : rd_sized rd m K.
Hypothesis K2 : (1 < K)%N.
Hypothesis dtin : dims tin m 1.
Local Notation c := (6 * K - 6)%N.
Local Notation tau_redis := (@tau_redis R rd m K tin).

Lemma RedisQPR_ok : exists q, [/\ RedisQPR rd tin = Some q, qp_wf q c,
  exists k0, forall x, qp_cost q x = 1 / 2%:R * tangential rd d K (tau_redis x) + k0 &
  forall x, qp_feasible q x <-> admissible_below rd d K (tau_redis x)].
Proof.
case: rdok => rm sK pl dlim [dJ dP _ dW0]; have dW := dW0 K2.
have [tot ccs] := tot_plane pl; rewrite sK in tot ccs.
rewrite /RedisQPR rm tot ccs.
set tl := if r_lset rd then (2 * m)%N else 0%N.
set nrow := (10 * K + tl)%N.
have [C [W [-> FI]]] := floop_ok (FInv0 K d) pl sK.
rewrite cat0s in FI; have [dC dWr _ _] := FI.
have [WC [-> dWC mWC]] := dmul_mx dWr dC.
have [JR [-> dJR mJR]] := rightCols_mx dJ.
have [WCJ [-> dWCJ mWCJ]] := dmul_mx dWC dJR.
have [Ht [-> dHt mHt]] := dmul_mx dWCJ dW.
have [H [-> dH mH]] := dmul_mx (dtr_dims dHt) dHt.
have [Jt [-> dJt mJt]] := dmul_mx dJR dtin.
have [f0 [-> df0 mf0]] := dsub_mx dJt dP.
have [v0 [-> dv0 mv0]] := dmul_mx dWC df0.
have [gT [-> dgT mgT]] := dmul_mx (dtr_dims dv0) dHt.
have [A0 [ub0 [lb0 [-> dA0 dU0 sL0 [lim0 lim1]]]]] : exists A0 ub0 lb0,
  [/\ (if r_lset rd then limit_rows_R m c (r_NwJw rd) (r_lim rd) tin (dzero R nrow c) (dzero R nrow 1) (lzero R nrow)
       else Some (dzero R nrow c, dzero R nrow 1, lzero R nrow)) = Some (A0, ub0, lb0),
      dims A0 nrow c, dims ub0 nrow 1, lsize lb0 = nrow &
   [/\ r_lset rd -> forall i (x : nat -> R) (li : (i < m)%N),
        rowdot A0 i x = - (mx_of m c (r_NwJw rd) *m col_of c x) (Ordinal li) 0 /\
        ent ub0 i 0 = ent (r_lim rd) i 0 + ent tin i 0 &
       r_lset rd -> (forall i x, (m <= i < 2 * m)%N -> rowdot A0 i x = 0 /\ ent ub0 i 0 = 0) /\
        (forall i, (i < 2 * m)%N -> lent lb0 i = None)]].
  rewrite /nrow /tl /limit_rows_R; case ls : (r_lset rd); last by do 3 eexists; split.
  have [rWJ cWJ] := dW.
  have [A1 e1] : exists A1, blockw (dzero R (10 * K + 2 * m) c) 0 0 m c (r_NwJw rd) = Some A1.
    by apply: blockw_some => //=; lia.
  rewrite e1; case/blockwP: e1 => _ [r1 c1 E1].
  have [u [-> [ru cu] mu]] := dsub_mx (dlim ls) dtin.
  have [ub1 e3] : exists ub1, blockw (dzero R (10 * K + 2 * m) 1) 0 0 m 1 u = Some ub1 by apply: blockw_some => //=; lia.
  rewrite /segw e3; case/blockwP: e3 => _ [r3 c3 E3].
  have [A2 e4] : exists A2, blockw A1 0 0 m c (dopp (r_NwJw rd)) = Some A2.
    by apply: blockw_some => //=; rewrite ?r1 ?c1 /=; lia.
  rewrite e4; case/blockwP: e4 => _ [r4 c4 E4].
  have [v [-> [rv cv] mv]] := dadd_mx (dlim ls) dtin.
  have [ub2 e6] : exists ub2, blockw ub1 0 0 m 1 v = Some ub2.
    by apply: blockw_some => //=; rewrite ?r3 ?c3 /=; lia.
  rewrite e6; case/blockwP: e6 => _ [r6 c6 E6].
  have [lb1 [-> sL1 EL1]] := @lsetinf_some R (lzero R (10 * K + 2 * m)) 0 (2 * m) (leq_addl _ _).
  do 3 eexists; split; first by [].
  - by rewrite /dims r4 c4 r1 c1.
  - by rewrite /dims r6 c6 r3 c3.
  - by rewrite sL1.
  split=> [_ i x li|_]; split.
  - have -> : - (mx_of m c (r_NwJw rd) *m col_of c x) (Ordinal li) 0 =
        (mx_of m c (dopp (r_NwJw rd)) *m col_of c x) (Ordinal li) 0.
      by rewrite dopp_mx mulNmx [RHS]mxE.
    rewrite -rowdot_mx //= /rowdot c4 c1 /= cWJ; apply: sum_nat_eq => b hb.
    by rewrite E4 /= add0n li add0n hb !subn0.
  - rewrite E6 /= add0n li subn0; have := congr1 (fun M : 'cV_m => M (Ordinal li) 0) mv; by rewrite !mxE.
  - move=> i x hi; have f : (0 <= i < 0 + m)%N = false by lia.
    by split; [rewrite /rowdot sum_nat0 // => b _; rewrite E4 E1 f /= mul0r|rewrite E6 E3 f].
  - by move=> i hi; rewrite EL1 add0n hi.
have [Ac [Ar [e2 dAc dAr cone]]] := loop_cone d pl; rewrite sK in e2 dAc dAr cone.
rewrite e2.
have [AR [-> dAR mAR]] := dmul_mx dAc dAr.
have [At [-> dAt mAt]] := dmul_mx dAR dJR.
have [RP [-> dRP mRP]] := dmul_mx dAr dP.
have [CRP [-> dCRP mCRP]] := dmul_mx dAc dRP.
have [AT [-> dAT mAT]] := dmul_mx dAt dtin.
have [bb [-> dbb mbb]] := dsub_mx dCRP dAT.
have [AW [-> dAW mAW]] := dmul_mx (dopp_dims dAt) dW.
have [rA0 cA0] := dA0.
have [A1 e3] : exists A1, blockw A0 tl 0 (10 * K) c AW = Some A1.
  by apply: blockw_some; rewrite ?rA0 ?cA0 ?(proj1 dAW) ?(proj2 dAW) // /nrow addnC.
rewrite e3; case/blockwP: e3 => _ [r3 c3 E3].
have [lb1 [-> sL1 EL1]] : exists lb', [/\ lsetinf lb0 tl (10 * K) = Some lb', lsize lb' = lsize lb0 &
    forall k, lent lb' k = if (tl <= k < tl + 10 * K)%N then None else lent lb0 k].
  by apply: lsetinf_some; rewrite sL0 /nrow addnC.
have [rU0 cU0] := dU0; have dnb := dopp_dims dbb.
have [ub1 e5] : exists ub1, blockw ub0 tl 0 (10 * K) 1 (dopp bb) = Some ub1.
  by apply: blockw_some; rewrite ?rU0 ?cU0 ?(proj1 dnb) ?(proj2 dnb) // /nrow addnC.
rewrite /segw e5; case/blockwP: e5 => _ [r5 c5 E5].
eexists; split; first by [].
- split=> //=; [by case: dgT|by rewrite c3|by rewrite sL1 sL0 r3 rA0|].
  by rewrite r3 rA0 /dims r5 c5 rU0 cU0.
- exists (- (1 / 2%:R * sqnorm (mx_of (6 * K) 1 v0))) => x.
  have mg : mx_of c 1 (dtr gT) = (mx_of (6 * K) c Ht)^T *m mx_of (6 * K) 1 v0.
    by rewrite dtr_mx mgT trmx_mul dtr_mx trmxK.
  rewrite dtr_mx in mH; have -> := @cost_sq c (6 * K) (QP H (dtr gT) A1 lb1 ub1) _ _ x dH (dtr_dims dgT) mH mg.
  congr (_ * _ - _); rewrite /tangential -(frame_norm _ FI sK); congr (sqnorm _).
  set F := col_of (6 * K) _.
  have -> : F = mx_of (6 * K) (6 + m) (r_JcT rd) *m col_mx 0 (tau_redis x) - mx_of (6 * K) 1 (r_PC rd).
    by apply/matrixP => i j; rewrite mxE /contact_force ord1 -[0%N]/(val (0 : 'I_1)) of_mxE.
  rewrite -[mx_of _ (6 + m) _ in RHS]hsubmxK mul_row_col mulmx0 add0r -mJR /QP_Proofs.tau_redis.
  rewrite mHt mWCJ mv0 mf0 mJt mWC -!mulmxA -!mulmxDr; congr (_ *m (_ *m _)).
  by rewrite mulmxDr addrA [X in X - _]addrC.
move=> x; rewrite /qp_feasible /= r3 rA0.
set cq := col_of c x.
have tauE : tau_redis x = mx_of m 1 tin + mx_of m c (r_NwJw rd) *m cq by [].
have tE (j : 'I_m) : tau_redis x j 0 = ent tin j 0 + (mx_of m c (r_NwJw rd) *m cq) j 0 by rewrite tauE mxE mxE.
have rowC i (li : (i < 10 * K)%N) : rowdot A1 (tl + i) x = (mx_of (10 * K) c AW *m cq) (Ordinal li) 0.
  rewrite -rowdot_mx ?(proj2 dAW) // /rowdot c3 cA0 (proj2 dAW); apply: sum_nat_eq => b hb; rewrite E3.
  have -> : (tl <= tl + i < tl + 10 * K)%N by lia.
  by rewrite /= hb addKn subn0.
have ubC i (li : (i < 10 * K)%N) : ent ub1 (tl + i) 0 = mx_of (10 * K) 1 (dopp bb) (Ordinal li) 0.
  rewrite E5; have -> : (tl <= tl + i < tl + 10 * K)%N by lia.
  by rewrite /= addKn mxE.
have out i : (i < tl)%N ->
   [/\ rowdot A1 i x = rowdot A0 i x, ent ub1 i 0 = ent ub0 i 0 & lent lb1 i = lent lb0 i].
  move=> li; have hf : (tl <= i < tl + 10 * K)%N = false by lia.
  by rewrite E5 EL1 hf; split=> //; rewrite /rowdot c3; apply: sum_nat_eq => b _; rewrite E3 hf.
pose F : 'cV[R]_(6 * K) := mx_of (6 * K) (6 + m) (r_JcT rd) *m col_mx 0 (tau_redis x) - mx_of (6 * K) 1 (r_PC rd).
have FE : mx_of (10 * K) (6 * K) Ac *m mx_of (6 * K) (6 * K) Ar *m F =
   mx_of (10 * K) 1 (dopp bb) - mx_of (10 * K) c AW *m cq.
  rewrite /F -[mx_of _ (6 + m) _ in LHS]hsubmxK mul_row_col mulmx0 add0r -mJR tauE.
  rewrite dopp_mx mbb mCRP mRP mAT mAW dopp_mx mAt mAR !mulNmx mulmxBr !mulmxDr !mulmxA.
  by rewrite opprB opprK addrAC.
have coneF := cone F.
have nolow i l : (i < nrow)%N -> lent lb1 i <> Some l.
  move=> li; rewrite EL1; case: ifP => // hi.
  have hi' : (i < tl)%N by move: li; rewrite /nrow; lia.
  move: (hi'); rewrite /tl; case: ifP => ls hi2 //.
  by have [_ ->] := lim1 ls.
have lowE (j : 'I_m) y : (- y <= ent (r_lim rd) j 0 + ent tin j 0) = (- ent (r_lim rd) j 0 <= ent tin j 0 + y).
  by rewrite ler_oppl opprD ler_subl_addl.
split.
  move=> feas; split.
    move=> ls i; have tlE : tl = (2 * m)%N by rewrite /tl ls.
    have li := ltn_ord i.
    have [_] := feas i ltac:(rewrite /nrow tlE; lia).
    have [-> -> _] := out i ltac:(rewrite tlE; lia).
    have [-> ->] := lim0 ls i x li.
    have -> : Ordinal li = i by apply: val_inj.
    by rewrite -/cq lowE tE.
  apply/coneF => -[i li]; rewrite FE mxE [(- (mx_of _ _ AW *m _)) _ _]mxE subr_ge0 -ubC -rowC.
  by apply: (proj2 (feas _ _)); rewrite /nrow; lia.
move=> [hlim hcone] i li.
have /coneF hF : forall k, (k < K)%N -> _ := hcone.
split=> [l /nolow|]; first by case.
case: (ltnP i tl) => hi; last first.
  have hi' : (i - tl < 10 * K)%N by move: li; rewrite /nrow; lia.
  have := rowC _ hi'; have := ubC _ hi'; rewrite subnKC // => -> ->.
  by have := hF (Ordinal hi'); rewrite FE mxE [(- (mx_of _ _ AW *m _)) _ _]mxE subr_ge0.
have [-> -> _] := out i hi.
move: (hi); rewrite /tl; case: ifP => ls hi2 //.
case: (ltnP i m) => him; last by have [-> ->] := (proj1 (lim1 ls)) i x ltac:(lia).
have [-> ->] := lim0 ls i x him.
by have := lowE (Ordinal him); rewrite /= => ->; have := hlim ls (Ordinal him); rewrite tE.
Qed.
End Redis.
End RedRProofs.
