From mathcomp Require Import all_ssreflect zify.
From Verif Require Import Red_Model Red_Spec.
Set Implicit Arguments.
Unset Strict Implicit.
Unset Printing Implicit Defensive.

Lemma at_nth (A : Type) (d : A) v i : i < size v -> at_ v i = Some (nth d v i).
Proof. by move=> h; rewrite /at_ (drop_nth d h). Qed.

Section P.
Variables (x : red_in) (m : nat).
Hypothesis W : red_wf x m.
Local Notation n := (ri_link_num x).
Local Notation p := (nth 0 (ri_parent x)).
Local Notation jid := (nth 0 (ri_jid x)).

Fixpoint ch f i := if i == 0 then [::] else if f is f'.+1 then i :: ch f' (p i) else [::].
Local Notation chain i := (ch n i).

Lemma p_le i : i < n -> p i <= i.
Proof. case: (posnP i) => [->|h hi]; first by rewrite (rw_root W). by apply: ltnW; apply: (rw_par W); rewrite h. Qed.
Lemma p_lt i : 0 < i < n -> p i < i. Proof. exact: rw_par W _. Qed.

Lemma carries_step k i : 0 < i -> carries x k i <-> k = i \/ carries x k (p i).
Proof.
move=> i0; split.
- case=> k0 [[|t] /= h]; first by left.
  by right; split=> //; exists t; rewrite -iterSr.
case=> [->|[k0 [t h]]]; first by split; [lia|exists 0].
by split=> //; exists t.+1; rewrite iterSr.
Qed.
Lemma carries0 k : ~ carries x k 0.
Proof.
case=> k0 [t h]; move: k0; rewrite -h => /negP; apply.
by elim: t {h} => //= t /eqP ->; rewrite (rw_root W).
Qed.
Lemma chP f i k : i <= f -> i < n -> k \in ch f i <-> carries x k i.
Proof.
elim: f i => [|f IH] i hf hi; case: (posnP i) => [->|i0]; try by split=> // /carries0.
  by lia.
have e : i == 0 = false by lia.
rewrite [ch _ _]/= e inE carries_step //.
have h1 := @p_lt i; have h2 := IH (p i); split.
- by case/predU1P=> [->|/h2 h]; [left|right; apply: h; lia].
by case=> [->|h]; [rewrite eqxx|apply/orP; right; apply/h2 => //; lia].
Qed.
Lemma ch_uniq f i : i < n -> uniq (ch f i) /\ all (fun k => 0 < k <= i) (ch f i).
Proof.
elim: f i => [|f IH] i hi /=; case: eqP => // e.
have i0 : 0 < i by lia.
have h := @p_lt i; have [|u a] := IH (p i); first by lia.
rewrite [uniq _]/= [all _ _]/= u andbT; split.
- by apply/negP => /(allP a); lia.
by rewrite i0 leqnn /=; apply/allP => k /(allP a); lia.
Qed.

Lemma co_climbE f i acc : i <= f -> i < n ->
  co_climb f x i acc = Some (acc.1 ++ ch f i, acc.2 ++ map jid (ch f i)).
Proof.
elim: f i acc => [|f IH] i acc hf hi /=; case: eqP => e; try by rewrite !cats0; case: acc.
  by lia.
rewrite (at_nth 0 (v := ri_jid x)) ?(rw_size W) //= (at_nth 0) ?(rw_num W) //= IH /=; last first.
- by have := @p_lt i; lia.
- by have := @p_lt i; lia.
by rewrite -!cats1 -!catA.
Qed.
Lemma co_loopE cc acc : (forall c l, (c, l) \in cc -> l < n) ->
  co_loop x cc acc = Some (acc.1 ++ flatten [seq chain l | l <- [seq c.2 | c <- cc & c.1]],
    acc.2 ++ map jid (flatten [seq chain l | l <- [seq c.2 | c <- cc & c.1]])).
Proof.
elim: cc acc => [|[[] l] cc IH] acc h /=; try by rewrite !cats0; case: acc.
- have hl : l < n by apply: (h true); rewrite inE eqxx.
  rewrite (rw_num W) co_climbE //=; last by lia.
  rewrite IH /= ?map_cat ?catA // => c k hk; apply: (h c); rewrite inE hk orbT //.
by rewrite IH // => c k hk; apply: (h c); rewrite inE hk orbT.
Qed.

Section NC.
Variable nc : seq nat.
Hypothesis nc_n : forall i, i \in nc -> 0 < i < n.
Fixpoint seg f i := if i == 0 then [::] else if f is f'.+1 then i :: (if p i \in nc then [::] else seg f' (p i)) else [::].

Lemma nc_climbP f i acc : i <= f -> i < n -> uniq acc ->
  exists acc', [/\ nc_climb f x nc i acc = Some acc', uniq acc' & acc' =i acc ++ map jid (seg f i)].
Proof.
elim: f i acc => [|f IH] i acc hf hi u /=; case: eqP => e; try by exists acc; rewrite cats0.
  by lia.
rewrite (at_nth 0 (v := ri_jid x)) ?(rw_size W) //= (at_nth 0) ?(rw_num W) //=.
set acc1 := if jid i \in acc then _ else _.
have u1 : uniq acc1 by rewrite /acc1; case: ifP => // h; rewrite rcons_uniq h.
have m1 : acc1 =i rcons acc (jid i).
  by move=> k; rewrite /acc1; case: ifP => // h; rewrite mem_rcons inE; case: eqP => [->|].
case: ifP => hp.
  by exists acc1; split=> // k; rewrite m1 mem_rcons mem_cat !inE orbC.
have [||acc' [h1 h2 h3]] := IH (p i) acc1 _ _ u1.
- by have := @p_lt i; lia.
- by have := @p_lt i; lia.
by exists acc'; split=> // k; rewrite h3 !mem_cat m1 mem_rcons !inE /= orbCA orbA.
Qed.
Lemma nc_loopP todo acc : (forall i, i \in todo -> i < n) -> uniq acc ->
  exists acc', [/\ nc_loop x nc todo acc = Some acc', uniq acc' & acc' =i acc ++ map jid (flatten [seq seg n i | i <- todo])].
Proof.
elim: todo acc => [|i todo IH] acc h u /=; first by exists acc; rewrite cats0.
rewrite (rw_num W).
have hi : i < n by apply: h; rewrite inE eqxx.
have [|acc1 [-> u1 m1]] := @nc_climbP n i acc _ hi u; first by lia.
have [k hk|acc' [h1 h2 h3]] := IH acc1 _ u1; first by apply: h; rewrite inE hk orbT.
exists acc'; split=> // k; rewrite h3 !mem_cat m1 map_cat !mem_cat orbA //.
Qed.

Lemma seg_sub f i k : i <= f -> i < n -> k \in seg f i -> carries x k i.
Proof.
elim: f i => [|f IH] i hf hi /=; case: eqP => // e; rewrite inE => /predU1P h.
apply/carries_step; first by lia.
case: h => [->|]; [by left|case: ifP => // _ h; right; apply: IH h].
- by have := @p_lt i; lia.
by have := @p_lt i; lia.
Qed.
(* a carried link is reached from a nc link nearer to it *)
Lemma seg_cover f i k : i <= f -> i < n -> carries x k i ->
  (k \in seg f i) \/ exists2 j, j < i & j \in nc /\ carries x k j.
Proof.
elim: f i => [|f IH] i hf hi /=.
  by case: (posnP i) => [-> /carries0|]; lia.
case: eqP => [-> /carries0 //|e hc].
have i0 : 0 < i by lia.
have hl := @p_lt i; rewrite inE.
case/(carries_step k i0): hc => [->|hc]; first by rewrite eqxx; left.
case: ifP => hp.
  by right; exists (p i); [lia|].
have [||h|[j j1 j2]] := IH (p i) _ _ hc; try lia.
  by left; rewrite h orbT.
by right; exists j; [lia|].
Qed.
Lemma seg_union k : (exists2 i, i \in nc & k \in seg n i) <-> (exists2 i, i \in nc & carries x k i).
Proof.
split=> [[i hi h]|[i]].
  by exists i => //; apply: seg_sub h; have := nc_n hi; lia.
elim/ltn_ind: i => i IH hi hc.
have h := nc_n hi.
have [||?|[j j1 [j2 j3]]] := @seg_cover n i k _ _ hc; try lia; first by exists i.
exact: IH j1 j2 j3.
Qed.
End NC.

Local Notation co := (flatten [seq chain l | l <- active x]).

Lemma active_lt l : l \in active x -> l < n.
Proof. by case/mapP=> -[c k]; rewrite mem_filter => /andP [_ /(rw_cc W)] h ->. Qed.
Lemma in_contactP k : reflect (in_contact x k) (k \in co).
Proof.
apply: (iffP flattenP) => [[s /mapP [l hl ->]]|[l hl hc]].
  by move=> /chP h; exists l => //; apply: h; have := active_lt hl; lia.
by exists (chain l); [apply: map_f|apply/chP => //; have := active_lt hl; lia].
Qed.
Lemma co_range k : k \in co -> 0 < k < n.
Proof.
case/flattenP=> s /mapP [l hl ->].
have [|_ /allP h] := @ch_uniq n l; first exact: active_lt.
by move/h; have := active_lt hl; lia.
Qed.

Definition nc_of : seq nat := [seq i <- iota 1 n.-1 | i \notin co].
Definition up_of : seq nat := [seq i <- iota 1 n.-1 | has (fun j => i \in chain j) nc_of].
Lemma nc_n i : i \in nc_of -> 0 < i < n.
Proof. by rewrite mem_filter mem_iota => /andP [_]; have := rw_pos W; lia. Qed.
Lemma ncP i : reflect (0 < i < n /\ ~ in_contact x i) (i \in nc_of).
Proof.
rewrite mem_filter mem_iota; apply: (iffP andP) => -[h1 h2].
  by split; [have := rw_pos W; lia|move/in_contactP; apply/negP].
by split; [apply/in_contactP|have := rw_pos W; lia].
Qed.
Lemma upP k : reflect (exists2 i, i \in nc_of & carries x k i) (k \in up_of).
Proof.
apply: (iffP idP).
  by rewrite mem_filter => /andP [/hasP [i hi /chP h] _]; exists i => //; apply: h; have := nc_n hi; lia.
case=> i hi hc; have hn := nc_n hi.
have hk : k \in chain i by apply/chP => //; lia.
rewrite mem_filter mem_iota; apply/andP; split; first by apply/hasP; exists i.
have [|_ /allP /(_ _ hk)] := @ch_uniq n i; first by lia.
by lia.
Qed.
Lemma nc_up i : i \in nc_of -> i \in up_of.
Proof. by move=> h; apply/upP; exists i => //; split; [have := nc_n h; lia|exists 0]. Qed.

Lemma jid_inj : {in [pred i | 0 < i < n] &, injective jid}.
Proof.
move=> i j; rewrite !inE => hi hj e.
have u : uniq (behead (ri_jid x)) by rewrite (perm_uniq (rw_jid W)) iota_uniq.
have s := rw_size W.
have := nth_uniq 0 (s := behead (ri_jid x)) (i := i.-1) (j := j.-1); rewrite size_behead s !nth_behead !prednK; try lia.
by move=> /(_ _ _ u); rewrite e eqxx; lia.
Qed.
Lemma jid_all : map jid (iota 1 n.-1) = behead (ri_jid x).
Proof.
apply: (@eq_from_nth _ 0); first by rewrite size_map size_iota size_behead (rw_size W).
by move=> i; rewrite size_map size_iota => h; rewrite (nth_map 0) ?size_iota // nth_iota // nth_behead add1n.
Qed.

(* what the function computes *)
Lemma ReducedIndexE : exists o, [/\ ReducedIndex x = Some o,
  perm_eq (ro_co_joint o) (map jid co), perm_eq (ro_nc_joint o) (map jid up_of),
  ro_nc_link o = nc_of &
  [/\ ro_vc_joint o = iota 0 6 ++ ro_co_joint o, ro_nc_dof o = size (ro_nc_joint o), ro_co_dof o = size (ro_co_joint o),
      ro_vc_dof o = ro_co_dof o + 6 & ro_model_dof o = ro_co_dof o + 6 /\ ro_system_dof o = ro_co_dof o + 12]] /\
  [/\ sorted leq (ro_co_joint o), sorted leq (ro_nc_joint o), perm_eq (ro_co_link o) (0 :: co) & sorted leq (ro_co_link o)].
Proof.
rewrite /ReducedIndex co_loopE /=; last exact: rw_cc W.
set cl := sort leq (0 :: _).
have clE k : (k \in cl) = (k == 0) || (k \in co) by rewrite mem_sort inE.
have ncE : [seq i <- iota 0 n | i \notin cl] = nc_of.
  have -> : iota 0 n = 0 :: iota 1 n.-1 by have := rw_pos W; case: (n).
  rewrite /= clE eqxx /=; apply: eq_in_filter => k; rewrite mem_iota clE => hk.
  by rewrite (_ : k == 0 = false) //; lia.
rewrite ncE.
have -> : all (fun i => i < size (ri_parent x)) nc_of by apply/allP => i /nc_n; rewrite (rw_num W); lia.
have [i /nc_n|//|nj [-> un mn]] := @nc_loopP nc_of nc_of [::]; first by lia.
eexists; split; first split; first by [].
- by rewrite /= perm_sort.
- rewrite /= perm_sort; apply: uniq_perm => //.
    rewrite map_inj_in_uniq ?filter_uniq ?iota_uniq // => i j; rewrite !mem_filter !mem_iota => /andP [_ hi] /andP [_ hj].
    by apply: jid_inj; rewrite inE; lia.
  move=> k; rewrite mn /=; apply/mapP/mapP => -[i hi ->]; exists i => //.
    case/flattenP: hi => s /mapP [j hj ->] hi; apply/upP.
    by apply/(seg_union nc_n); exists j.
  case/upP: hi => j hj hi.
  have [|j' hj' hi'] := (seg_union nc_n i).2; first by exists j.
  by apply/flattenP; exists (seg nc_of n j') => //; apply: map_f.
- by [].
- by split=> //=; split=> //; lia.
split; rewrite /= ?sort_sorted //; try exact: leq_total.
by rewrite /cl perm_sort.
Qed.

Lemma flat_uniq : uniq co <-> chains_disjoint x.
Proof.
rewrite /chains_disjoint; have := active_lt; elim: (active x) => [|l ls IH] hl /=.
  by split.
have hl0 : l < n by apply: hl; rewrite inE eqxx.
have hls k : k \in ls -> k < n by move=> h; apply: hl; rewrite inE h orbT.
have [ul al] := @ch_uniq n l hl0.
rewrite cat_uniq ul /=; split.
- case/andP=> /hasPn nh /(IH hls).1 [u1 d1].
  have nd l2 k : l2 \in ls -> carries x k l -> ~ carries x k l2.
    move=> h2 /chP c1 /chP c2.
    have hk : k \in flatten [seq chain i | i <- ls].
      by apply/flattenP; exists (chain l2); [apply: map_f|apply: c2 => //; have := hls _ h2; lia].
    by have := nh _ hk => /negP; apply; apply: c1; lia.
  split.
    case: ifP => //= l0; rewrite u1 andbT mem_filter l0 /=; apply/negP => hin.
    by apply: (nd l l hin); split=> //; exists 0.
  move=> l1 l2 k; rewrite !inE => /predU1P [->|h1] /predU1P [->|h2] // c1 c2.
  - by case: (nd l2 k h2 c1).
  - by case: (nd l1 k h1 c2).
  exact: d1 h1 h2 c1 c2.
case=> u d; apply/andP; split.
- apply/hasPn => k /flattenP [s /mapP [l2 h2 ->]] /chP c2; apply/negP => /chP c1.
  have n2 := hls _ h2.
  have {}c2 : carries x k l2 by apply: c2; lia.
  have {}c1 : carries x k l by apply: c1; lia.
  have e : l = l2 by apply: d c1 c2; rewrite !inE ?eqxx ?h2 ?orbT.
  have l0 : l != 0 by apply/negP => /eqP e0; move: c1; rewrite e0 => /carries0.
  by move: u; rewrite l0 /= => /andP []; rewrite mem_filter l0 /= e h2.
apply/(IH hls).2; split; first by move: u; case: ifP => //= _ /andP [].
by move=> l1 l2 k h1 h2; apply: d; rewrite inE ?h1 ?h2 orbT.
Qed.
Lemma disj_end : ~~ has (mem co) up_of <-> chains_end x.
Proof.
split.
- move/hasPn=> h i k hi ni hc /in_contactP; apply/negP; apply: h.
  apply/upP; exists i => //; apply/ncP; split=> //.
  by case: (posnP i) hc => [-> /carries0|i0 _] //; rewrite hi.
move=> h; apply/hasPn => k /upP [i /ncP [hi ni] hc]; apply/negP => /in_contactP.
by apply: h ni hc; lia.
Qed.
End P.
