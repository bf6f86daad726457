(* Proofs about the acceleration-level QP for the non-contact joints. *)
From mathcomp Require Import all_ssreflect all_algebra.
From mathcomp Require Import zify.
From mathcomp.algebra_tactics Require Import ring.
From Verif Require Import DMat DMatL Geo_Model Geo_Spec Geo_Proofs Cone_Model Cone_Spec QP_Model QP_Proofs Jacc_Model Jacc_Spec Jacc_Proofs Jacc_Thm.
Set Implicit Arguments.
Unset Strict Implicit.
Unset Printing Implicit Defensive.
Import Order.TTheory GRing.Theory Num.Theory.
Local Open Scope ring_scope.

Section NC.
Variable R : realFieldType.
Local Notation dm := (dm R).
Local Notation jrobot := (jrobot R).
Local Notation jtask := (jtask R).

Lemma lower_upper (v : dm) : dims v 6 1 -> mx_of (3 + 3) 1 v = col_mx (upper v) (lower v).
Proof.
move=> _; apply/matrixP => i j; rewrite -(splitK i) ord1 !mxE; case: (split i) => k /=.
  by rewrite (unsplitK (inl k)) mxE add0n.
by rewrite (unsplitK (inr k)) mxE.
Qed.

(* the reference of the task rows *)
Definition lin_ref (s : jtask) (pa : dm) (r : 'cV[R]_3) : 'cV[R]_3 :=
  upper (j_f s) - upper pa + crossp r (lower (j_f s) - lower pa).
Definition ang_ref (s : jtask) (pa : dm) : 'cV[R]_3 := lower (j_f s) - lower pa.

Lemma ref_ok (s : jtask) (pa base df fl : dm) r n : dims (j_f s) 6 1 -> dims pa n 1 -> (6 <= n)%N ->
  seg pa 0 6 = Some base -> dsub (j_f s) base = Some df -> dmul (of_mx (jJa r)) df = Some fl ->
  [/\ dims fl 6 1, upper fl = lin_ref s pa r & lower fl = ang_ref s pa].
Proof.
move=> df6 [rp cp] le e1 e2 e3.
have db : dims base 6 1.
  by move: e1; rewrite /seg /dblock rp cp le => -[<-].
have be i : ent base i 0 = ent pa i 0.
  by move: e1; rewrite /seg /dblock; case: ifP => // _ [<-].
have [df' [ed ddf mdf]] := dsub_mx df6 db; move: ed; rewrite e2 => -[ed]; rewrite -ed in ddf mdf.
have [fl' [ef dfl mfl]] := dmul_mx (dims_of (jJa r)) ddf; move: ef; rewrite e3 => -[ef]; rewrite -ef in dfl mfl.
have ub : upper base = upper pa by apply/matrixP => i j; rewrite !mxE be.
have lb : lower base = lower pa by apply/matrixP => i j; rewrite !mxE be.
have mdf' : mx_of (3 + 3) 1 df = mx_of (3 + 3) 1 (j_f s) - mx_of (3 + 3) 1 base by exact: mdf.
have mfl' : mx_of (3 + 3) 1 fl = jJa r *m mx_of (3 + 3) 1 df by rewrite -{1}(mx_of_mx (jJa r)); exact: mfl.
move: mfl'; rewrite mdf' !lower_upper //.
rewrite ub lb opp_col_mx add_col_mx /jJa mul_block_col !mul1mx mul0mx add0r skew_cross.
by case/eq_col_mx => -> ->; split.
Qed.

Lemma problemNC_ok (rb : jrobot) s pa a nv (y y0 : 'cV[R]_3) : nc_ok rb s pa a nv y y0 ->
  exists q, [/\ problemNC rb s pa = Some q,
    forall x, bqp_feasible q x <->
      [/\ nc_motion rb a x, nc_momentum rb pa a x,
          nc_part s nv a x 0 = lin_ref s pa (y - y0) + blk3 (nc_tdev a x) 0 &
          nc_part s nv a x 3 = ang_ref s pa + blk3 (nc_tdev a x) 3] &
    forall x, bqp_cost q x =
      1 / 2%:R * (\sum_(0 <= r < 6) nc_gdev a x r ^+ 2 + 5%:R * \sum_(0 <= r < 6) nc_tdev a x r ^+ 2)].
Proof.
case=> -[naE vcE le6] [[rG cG] [[p [rM cM]] [rI cI]]] dpa [dofE [df [rJ cJ]]] [id lE [yE y0E]].
have [rp cp] := dpa.
rewrite /problemNC lE yE y0E naE dofE; cbv zeta.
have [base eb] : exists base, seg pa 0 6 = Some base by rewrite /seg /dblock rp cp le6; eexists.
have [gacc eg] : exists gacc, (if (6 <= nr pa)%N then seg pa (nr pa - 6) 6 else None) = Some gacc.
  by rewrite rp le6 /seg /dblock rp cp subnK // leqnn; eexists.
have [rg cg ge] : [/\ nr gacc = 6%N, nc gacc = 1%N & forall i, ent gacc i 0 = ent pa (nr pa - 6 + i) 0].
  by move: eg; case: ifP => // _; rewrite /seg /dblock; case: ifP => // _ [<-].
have db : dims base 6 1 by move: eb; rewrite /seg /dblock rp cp le6 => -[<-].
have [dd [ed ddd _]] := dsub_mx df db.
have [fl [ef _ _]] := dmul_mx (dims_of (jJa (y - y0))) ddd.
have [[rf cf] upE loE] := ref_ok df dpa le6 eb ed ef.
rewrite eb eg ed ef.
set n := (a + a + 6 + 6)%N; set eq := (a + 6 + 6)%N.
have [H1 eH1] : exists H1, blockw (dzero R n n) (a + a) (a + a) 6 6 (dident R 6) = Some H1.
  by apply: blockw_some => //=; rewrite /n; lia.
have [_ [rH1 cH1 _]] := blockwP eH1.
have [H eH] : exists H, blockw H1 (a + a + 6) (a + a + 6) 6 6 (dscal 6 5%:R) = Some H.
  by apply: blockw_some => //=; rewrite ?rH1 ?cH1.
have [_ [rH cH _]] := blockwP eH.
rewrite eH1 eH.
have -> : ((a <= nr (jr_ANC rb)) && (a <= nc (jr_ANC rb)))%N by rewrite rM cM leq_addl.
have [M eM] : exists M, dblock (jr_ANC rb) (nr (jr_ANC rb) - a) (nc (jr_ANC rb) - a) a a = Some M.
  by rewrite /dblock rM cM addnK leqnn; eexists.
have [rMM cMM Me] : [/\ nr M = a, nc M = a & forall i j, ent M i j = ent (jr_ANC rb) (nr (jr_ANC rb) - a + i) (nc (jr_ANC rb) - a + j)].
  by move: eM; rewrite /dblock; case: ifP => // _ [<-].
have [A1 e1] : exists A1, blockw (dzero R eq n) 0 0 a a M = Some A1.
  by apply: blockw_some => //=; rewrite /eq /n; lia.
have [_ [rA1 cA1 _]] := blockwP e1; rewrite /= in rA1 cA1.
have [A2 e2] : exists A2, blockw A1 0 a a a (dopp (dident R a)) = Some A2.
  by apply: blockw_some => //=; rewrite ?rA1 ?cA1 /eq /n; lia.
have [_ [rA2 cA2 _]] := blockwP e2; rewrite rA1 in rA2; rewrite cA1 in cA2.
have [G eG] : exists G, seg (jr_G rb) (jr_vc rb) a = Some G by rewrite /seg /dblock rG cG vcE leqnn; eexists.
have [rGG cGG Ge] : [/\ nr G = a, nc G = 1%N & forall i, ent G i 0 = ent (jr_G rb) (jr_vc rb + i) 0].
  by move: eG; rewrite /seg /dblock; case: ifP => // _ [<-].
have [l1 el1] : exists l1, segw (dzero R eq 1) 0 a (dopp G) = Some l1 by apply: segw_some => //=; rewrite /eq; lia.
have [_ _ rl1 cl1 l1e] := segwP el1; rewrite /= in rl1 cl1.
have [A3 e3] : exists A3, blockw A2 a 0 6 a (jr_JI rb) = Some A3.
  by apply: blockw_some => //=; rewrite ?rA2 ?cA2 /eq /n; lia.
have [_ [rA3 cA3 _]] := blockwP e3; rewrite rA2 in rA3; rewrite cA2 in cA3.
have [A4 e4] : exists A4, blockw A3 a (a + a) 6 6 (dopp (dident R 6)) = Some A4.
  by apply: blockw_some => //=; rewrite ?rA3 ?cA3 /eq /n; lia.
have [_ [rA4 cA4 _]] := blockwP e4; rewrite rA3 in rA4; rewrite cA3 in cA4.
have [l2 el2] : exists l2, segw l1 a 6 gacc = Some l2 by apply: segw_some => //=; rewrite rl1 /eq; lia.
have [_ _ rl2 cl2 l2e] := segwP el2; rewrite rl1 in rl2; rewrite cl1 in cl2.
have lea : (a <= nc (j_J s))%N by rewrite cJ -vcE leq_addl.
rewrite lea.
have [Jn eJ] : exists Jn, dblock (j_J s) 0 (nc (j_J s) - a) (nr (j_J s)) a = Some Jn.
  by rewrite /dblock subnK // !leqnn; eexists.
have [rJn cJn Je] : [/\ nr Jn = 6%N, nc Jn = a & forall i j, ent Jn i j = ent (j_J s) i (nv - a + j)].
  by move: eJ; rewrite /dblock rJ cJ; case: ifP => // _ [<-].
have [A5 e5] : exists A5, blockw A4 (a + 6) 0 6 a Jn = Some A5.
  by apply: blockw_some => //=; rewrite ?rA4 ?cA4 /eq /n; lia.
have [_ [rA5 cA5 _]] := blockwP e5; rewrite rA4 in rA5; rewrite cA4 in cA5.
have [A6 e6] : exists A6, blockw A5 (a + 6) (a + a + 6) 6 6 (dopp (dident R 6)) = Some A6.
  by apply: blockw_some => //=; rewrite ?rA5 ?cA5 /eq /n; lia.
have [_ [rA6 cA6 _]] := blockwP e6; rewrite rA5 in rA6; rewrite cA5 in cA6.
have [l3 el3] : exists l3, segw l2 (a + 6) 6 fl = Some l3 by apply: segw_some => //=; rewrite rl2 /eq; lia.
have [_ _ rl3 cl3 l3e] := segwP el3; rewrite rl2 in rl3; rewrite cl2 in cl3.
rewrite eM e1 e2 eG el1 e3 e4 el2 eJ e5 e6 el3 lput_some //=.
eexists; split; first by [].
  move=> x; rewrite /bqp_feasible /= rA6 cA6.
  have neg_id k i z : (i < k)%N -> rowdot (dopp (dident R k)) i z = - z i.
    move=> li; rewrite /rowdot /= (@sum_window _ i 1); [|lia|].
      by rewrite big_nat1 addn0 eqxx mulN1r.
    by move=> j lj hj; rewrite (_ : (i == j) = false) ?oppr0 ?mul0r //; lia.
  have b2 : blank A1 0 a a a by apply: (blank_blockw e1) => //; lia.
  have bA2 h w i j : (a <= i)%N -> blank A2 i j h w.
    by move=> li; apply: (blank_blockw e2); last lia; apply: (blank_blockw e1) => //; lia.
  have b4 : blank A3 a (a + a) 6 6 by apply: (blank_blockw e3); [apply: bA2|lia].
  have bA4 h w i j : (a + 6 <= i)%N -> blank A4 i j h w.
    move=> li; apply: (blank_blockw e4); last lia; apply: (blank_blockw e3); last lia; apply: bA2; lia.
  have b6 : blank A5 (a + 6) (a + a + 6) 6 6 by apply: (blank_blockw e5); [apply: bA4|lia].
  have z2 i : (a <= i)%N -> rowdot A2 i x = 0.
    move=> li; rewrite /rowdot; apply: sum_nat0 => j lj.
    by rewrite (@bA2 1%N (nc A2) i 0%N) ?mul0r //; lia.
  have z4 i : (a + 6 <= i)%N -> rowdot A4 i x = 0.
    move=> li; rewrite /rowdot; apply: sum_nat0 => j lj.
    by rewrite (@bA4 1%N (nc A4) i 0%N) ?mul0r //; lia.
  have row1 i : (i < a)%N -> rowdot A6 i x = rowdot M i x - nc_trq a x i.
    move=> li; rewrite (blockw_row_other _ e6) ?(blockw_row_other _ e5) ?(blockw_row_other _ e4) ?(blockw_row_other _ e3); try lia.
    rewrite (blockw_row e2) // (blockw_row e1) // row_zero add0r /= add0n li subn0.
    by rewrite neg_id.
  have row2 r : (r < 6)%N -> rowdot A6 (a + r)%N x = jaccel a (jr_JI rb) x r - nc_gdev a x r.
    move=> lr; rewrite (blockw_row_other _ e6) ?(blockw_row_other _ e5); try lia.
    rewrite (blockw_row e4) // (blockw_row e3); last by apply: bA2.
    rewrite z2; last exact: leq_addr.
    rewrite leq_addr ltn_add2l lr addKn add0r neg_id //.
    by rewrite (rowdot_nc _ _ cI).
  have row3 r : (r < 6)%N -> rowdot A6 (a + 6 + r)%N x = rowdot Jn r x - nc_tdev a x r.
    move=> lr; rewrite (blockw_row e6) // (blockw_row e5); last by apply: bA4.
    rewrite z4; last exact: leq_addr.
    by rewrite leq_addr ltn_add2l lr addKn add0r neg_id.
  have l1' i : (i < a)%N -> ent l3 i 0 = - ent (jr_G rb) (jr_vc rb + i) 0.
    move=> li; rewrite l3e l2e l1e /= Ge; case: ifP => [h|_]; first by lia.
    case: ifP => [h|_]; first by lia.
    by rewrite add0n li subn0.
  have l2' r : (r < 6)%N -> ent l3 (a + r)%N 0 = ent pa (nr pa - 6 + r) 0.
    move=> lr; rewrite l3e l2e; case: ifP => [h|_]; first by lia.
    by rewrite leq_addr ltn_add2l lr addKn ge.
  have l3' r : (r < 6)%N -> ent l3 (a + 6 + r)%N 0 = ent fl r 0.
    by move=> lr; rewrite l3e leq_addr ltn_add2l lr addKn.
  have JE r : rowdot Jn r x = \sum_(0 <= j < a) ent (j_J s) r (nv - a + j) * x j.
    by rewrite /rowdot cJn; apply: eq_bigr => j _; rewrite Je.
  have ME i : rowdot M i x = \sum_(0 <= j < a) ent (jr_ANC rb) (nr (jr_ANC rb) - a + i) (nc (jr_ANC rb) - a + j) * x j.
    by rewrite /rowdot cMM; apply: eq_bigr => j _; rewrite Me.
  have eqs : (forall i, (i < eq)%N -> rowdot A6 i x = ent l3 i 0) <->
     [/\ nc_motion rb a x, nc_momentum rb pa a x & forall r, (r < 6)%N -> rowdot Jn r x = ent fl r 0 + nc_tdev a x r].
    split=> [h|[h1 h2 h3] i li].
      split=> [i li|r lr|r lr].
      - have := h i; rewrite row1 // l1' // ME => /(_ ltac:(rewrite /eq; lia)) e.
        by apply/eqP; rewrite -subr_eq0 addrAC e addNr.
      - have := h (a + r)%N; rewrite row2 // l2' // => /(_ ltac:(rewrite /eq; lia)) <-.
        by rewrite subrK.
      - have := h (a + 6 + r)%N; rewrite row3 // l3' // => /(_ ltac:(rewrite /eq; lia)) <-.
        by rewrite subrK.
    case: (ltnP i a) => ha.
      rewrite row1 // l1' // -h1 // ME; ring.
    case: (ltnP i (a + 6)) => hb.
      have := row2 (i - a)%N; have := l2' (i - a)%N; rewrite !subnKC // => -> //; last lia.
      move=> -> //; last lia.
      rewrite h2 ?addrK //; lia.
    have := row3 (i - (a + 6))%N; have := l3' (i - (a + 6))%N; rewrite !subnKC // => ->; last by rewrite /eq in li; lia.
    move=> -> ; last by rewrite /eq in li; lia.
    rewrite h3 ?addrK //; rewrite /eq in li; lia.
  have fin : (forall r, (r < 6)%N -> rowdot Jn r x = ent fl r 0 + nc_tdev a x r) <->
     nc_part s nv a x 0 = lin_ref s pa (y - y0) + blk3 (nc_tdev a x) 0 /\
     nc_part s nv a x 3 = ang_ref s pa + blk3 (nc_tdev a x) 3.
    rewrite -upE -loE; split=> [h|[/matrixP h1 /matrixP h2] r lr].
      split; apply/matrixP => i j; rewrite !mxE ?add0n -JE h //; have := ltn_ord i; lia.
    rewrite JE; case: (ltnP r 3) => h3.
      by have := h1 (Ordinal h3) 0; rewrite !mxE /= add0n => ->.
    have h3' : (r - 3 < 3)%N by lia.
    by have := h2 (Ordinal h3') 0; rewrite !mxE /= subnKC.
  split.
    case=> h _; have /eqs[q1 q2 /fin[q3 q4]] : forall i, (i < eq)%N -> rowdot A6 i x = ent l3 i 0; last by [].
    move=> i li; have [h1 h2] := h i li; apply/eqP; rewrite eq_le h2 /=; apply: h1.
    by rewrite add0n li subn0.
  case=> q1 q2 q3 q4; have h : forall i, (i < eq)%N -> rowdot A6 i x = ent l3 i 0.
    by apply/eqs; split=> //; apply/fin.
  split=> [i li|i li]; last by split.
  by rewrite h //; split=> // l; rewrite add0n li subn0 => -[<-].
move=> x; rewrite /bqp_cost /= [X in _ + X](_ : _ = 0) ?addr0; last by apply: sum_nat0 => i _; rewrite mul0r.
congr (_ * _); rewrite rH cH rH1 cH1 /=.
pose u := (a + a)%N.
have row i : \sum_(0 <= j < n) x i * ent H i j * x j =
   (if (u <= i < u + 6)%N then x i ^+ 2 else 0) + (if (u + 6 <= i < u + 6 + 6)%N then 5%:R * x i ^+ 2 else 0).
  have -> : \sum_(0 <= j < n) x i * ent H i j * x j = x i * rowdot H i x.
    by rewrite /rowdot cH cH1 mulr_sumr; apply: sum_nat_eq => j _; rewrite mulrA.
  rewrite (blockw_row eH); last by apply: (blank_blockw eH1) => //; lia.
  rewrite (blockw_row eH1) // row_zero add0r mulrDr -/u; congr (_ + _).
    case: ifP => h; last by rewrite mulr0.
    have -> : rowdot (dident R 6) (i - u) (fun k => x (u + k)%N) = x i; last by rewrite expr2.
    rewrite /rowdot /= (@sum_window _ (i - u) 1); [|lia|].
      by rewrite big_nat1 addn0 eqxx mul1r subnKC //; lia.
    by move=> j lj hj; rewrite (_ : (i - u == j)%N = false) ?mul0r //; lia.
  case: ifP => h; last by rewrite mulr0.
  have -> : rowdot (dscal 6 5%:R) (i - (u + 6)) (fun k => x (u + 6 + k)%N) = 5%:R * x i; last by rewrite mulrCA expr2.
  rewrite /rowdot /= (@sum_window _ (i - (u + 6)) 1); [|lia|].
    by rewrite big_nat1 addn0 eqxx subnKC //; lia.
  by move=> j lj hj; rewrite (_ : (i - (u + 6) == j)%N = false) ?mul0r //; lia.
rewrite (@sum_nat_eq _ n _ (fun i => (if (u <= i < u + 6)%N then x i ^+ 2 else 0) + (if (u + 6 <= i < u + 6 + 6)%N then 5%:R * x i ^+ 2 else 0)));
  last by move=> i _; apply: row.
rewrite big_split /=; congr (_ + _).
  rewrite (@sum_window _ u 6); [|by rewrite /n /u; lia|by move=> j _ /negbTE ->].
  by apply: sum_nat_eq => r lr; rewrite leq_addr ltn_add2l lr.
rewrite (@sum_window _ (u + 6) 6); [|by rewrite /n /u; lia|by move=> j _ /negbTE ->].
by rewrite mulr_sumr; apply: sum_nat_eq => r lr; rewrite leq_addr ltn_add2l lr.
Qed.
End NC.
