(* Proofs about deleting links. *)
From Coq Require Import String.
From mathcomp Require Import all_ssreflect all_algebra zify.
From Verif Require Import Tree_Model Tree_Spec.
Set Implicit Arguments.
Unset Strict Implicit.
Unset Printing Implicit Defensive.
Import GRing.Theory.

Section Get.
Variable A : Type.
Implicit Types s : seq A.
Lemma getE (d : A) s i : get s i = if (i < size s) then Some (nth d s i) else None.
Proof.
rewrite /get; elim: s i => [|x s IH] [|i] //=; rewrite ?ltnS //.
Qed.
Lemma get_some s i x : get s i = Some x -> i < size s.
Proof. by rewrite (getE x); case: ifP. Qed.
Lemma get_lt s i : i < size s -> exists x, get s i = Some x.
Proof. by case: s => // x s h; exists (nth x (x :: s) i); rewrite (getE x) h. Qed.
Lemma get_none s i : size s <= i -> get s i = None.
Proof. by case: s => [|x s] h; [case: i h|rewrite (getE x) ltnNge h]. Qed.
Lemma get_map (C : Type) (f : A -> C) s i : get (map f s) i = omap f (get s i).
Proof. by rewrite /get -map_drop; case: (drop i s). Qed.
Lemma get_cut s i k : get (take i s ++ drop i.+1 s) k = get s (bump i k).
Proof.
case: s => [|d s]; first by case: i k => [|i] [|k].
case: (ltnP i (size (d :: s))) => hi; last first.
  rewrite take_oversize // drop_oversize ?cats0; last exact: leq_trans hi _.
  rewrite /bump; case: (leqP i k) => h; rewrite ?add0n // !get_none //; lia.
rewrite !(getE d) size_cat size_take size_drop hi nth_cat size_take hi /bump.
case: (leqP i k) => h.
- rewrite nth_drop (_ : i.+1 + (k - i) = 1 + k); last by lia.
  by rewrite (_ : (k < i + (size (d :: s) - i.+1)) = (1 + k < size (d :: s))) //; lia.
- by rewrite nth_take // add0n (_ : (k < i + (size (d :: s) - i.+1)) = true) ?(ltn_trans h hi) //; lia.
Qed.
Lemma erase_some s i s' : erase s i = Some s' -> i < size s /\ s' = take i s ++ drop i.+1 s.
Proof. by rewrite /erase; case: ifP => // h [<-]. Qed.
Lemma erase_lt s i : i < size s -> erase s i = Some (take i s ++ drop i.+1 s).
Proof. by rewrite /erase => ->. Qed.
Lemma size_cut s i : i < size s -> size (take i s ++ drop i.+1 s) = (size s).-1.
Proof. by move=> h; rewrite size_cat size_take size_drop h; lia. Qed.
Lemma get_set d s p x k : p < size s -> get (set_nth d s p x) k = if k == p then Some x else get s k.
Proof.
move=> h; rewrite !(getE d) size_set_nth (maxn_idPr h) nth_set_nth /=.
by case: eqP => [->|]; rewrite ?h.
Qed.
Lemma eq_get s t : (forall k, get s k = get t k) -> s = t.
Proof.
elim: s t => [|x s IH] [|y t] // h; [by have := h 0|by have := h 0|].
have [->] : Some x = Some y := h 0.
by congr cons; apply: IH => k; exact: (h k.+1).
Qed.
End Get.
Lemma get_zip (A : Type) (s : seq A) k : get (zip (iota 0 (size s)) s) k = omap (fun x => (k, x)) (get s k).
Proof.
case: s => [|d s]; first by case: k.
rewrite (getE (0, d)) (getE d) size_zip size_iota minnn; case: ifP => // h.
by rewrite nth_zip ?size_iota // nth_iota.
Qed.

Lemma decE i x : dec i x = unbump i x.
Proof. by rewrite /dec /unbump; case: ltnP => h; rewrite ?subn1 ?subn0. Qed.
Lemma dec_bump i k : dec i (bump i k) = k.
Proof. by rewrite decE bumpK. Qed.
Lemma bump_dec i k : k != i -> bump i (dec i k) = k.
Proof. by move=> h; rewrite decE unbumpK // inE. Qed.
Lemma bump_mono i j k : j < k -> bump i j < bump i k.
Proof. by rewrite /bump; lia. Qed.
Lemma bump_add o i k : bump (o + i) (o + k) = o + bump i k.
Proof. by rewrite /bump; lia. Qed.
Lemma dec_add o i k : dec (o + i) (o + k) = o + dec i k.
Proof. by rewrite /dec ltn_add2l; case: ltnP; lia. Qed.
Lemma dec_le o i k : k <= o -> dec (o + i) k = k.
Proof. by rewrite /dec; case: ltnP; lia. Qed.
Lemma bump_neq i k : bump i k != i.
Proof. by rewrite eq_sym neq_bump. Qed.

Lemma iota_cut i n : 0 < i < n -> [seq x <- iota 1 n.-1 | x != i] = [seq bump i x | x <- iota 1 n.-2].
Proof.
case/andP => i0 iN.
have [a [b [-> ->]]] : exists a b, i = a.+1 /\ n = (a + b).+2 by exists i.-1, (n - i).-1; lia.
have -> : (a + b).+2.-2 = (a + b)%N by lia.
have -> : (a + b).+2.-1 = (a + b.+1)%N by lia.
rewrite !iotaD filter_cat map_cat /= add1n eqxx /=.
congr (_ ++ _).
- rewrite (@eq_in_filter _ _ predT) ?filter_predT; last by move=> x; rewrite mem_iota /=; lia.
  by rewrite -[LHS]map_id; apply/eq_in_map => x; rewrite mem_iota /bump; lia.
- rewrite (@eq_in_filter _ _ predT) ?filter_predT; last by move=> x; rewrite mem_iota /=; lia.
  rewrite -[a.+2]add1n iotaDl; apply/eq_in_map => x; rewrite mem_iota /bump; lia.
Qed.

Lemma lookup_dec m name i n : ~~ String.eqb n name ->
  lookup [seq (kv.1, dec i kv.2) | kv <- [seq kv <- m | ~~ String.eqb kv.1 name]] n = omap (dec i) (lookup m n).
Proof.
move=> h; elim: m => //= -[k v] m IH /=.
case: (boolP (String.eqb k name)) => hk /=; last by case: ifP.
rewrite IH; case: ifP => // /String.eqb_eq e; move/String.eqb_eq: hk => e2.
by move: h; rewrite -e e2 String.eqb_refl.
Qed.

Lemma rem_map (A C : eqType) (f : A -> C) x (t : seq A) : injective f -> rem (f x) (map f t) = map f (rem x t).
Proof. by move=> hf; elim: t => //= y t IH; rewrite (inj_eq hf); case: eqP => //= _; rewrite IH. Qed.

Definition cut (A : Type) (i : nat) (s : seq A) : seq A := take i s ++ drop i.+1 s.

Section Step.
Variable R : zmodType.
Variables (B T : Type) (bmass : B -> R).
Local Notation state := (state R B T).
Variables (off : nat) (s : state).
Hypothesis W : wf bmass off s.
Variables (i : nat) (li : mlink B).
Hypothesis hi : get (st_links s) i = Some li.
Hypothesis i0 : 0 < i.
Hypothesis leaf : l_child li = [::].
Let L := st_links s.
Let n := size L.
Let m := st_model s.
Let id := off + i.
Let p := l_parent li.
Let iN : i < n. Proof. exact: get_some hi. Qed.
Let pi : p < i. Proof. by have [_ _ + _] := wf_link W hi; rewrite i0. Qed.
Let sizes : [/\ size (r_bodies m) = off + n, size (r_frames m) = off + n, size (r_lambda m) = off + n,
  size (r_mu m) = off + n & size (r_dofs m) = off + n] := wf_sizes W (erefl _).

Lemma not_parent k l : get L k = Some l -> 0 < k -> l_parent l != i.
Proof.
move=> hk k0; apply/eqP => e; have [_ _ _ hc] := wf_link W hi; move: leaf; rewrite hc => hc0.
have : k \in [seq x <- iota 1 (size (st_links s)).-1 | par s x == i].
  have kn : k < size (st_links s) := get_some hk.
  by rewrite mem_filter mem_iota /par hk e eqxx /= k0; lia.
by rewrite hc0.
Qed.

Lemma not_parent' k l : get L k = Some l -> l_parent l != i.
Proof.
move=> hk; case: (posnP k) => [k0|]; last exact: not_parent hk.
by have [_ _ + _] := wf_link W hk; rewrite k0 /= => /eqP ->; rewrite neq_ltn i0.
Qed.

Definition m' : rbdl B T :=
  Rbdl (cut id (r_bodies m)) (cut id (r_frames m)) (cut id [seq dec id x | x <- r_lambda m])
    (cut id [seq [seq dec id x | x <- c] | c <- set_nth [::] (r_mu m) (off + p) (rem id (nth [::] (r_mu m) (off + p)))])
    (cut id (r_dofs m))
    (cut id [seq if nth 0 (r_q_index m) id < q then q - nth 0 (r_dofs m) id else q | q <- r_q_index m])
    [seq (kv.1, dec id kv.2) | kv <- [seq kv <- r_names m | ~~ String.eqb kv.1 (l_name li)]]
    (r_dof_count m - nth 0 (r_dofs m) id) (r_disc m) (r_nfixed m).

Lemma idN : id < off + n. Proof. by rewrite /id ltn_add2l iN. Qed.

Lemma dof_le : nth 0 (r_dofs m) id <= r_dof_count m.
Proof.
rewrite (wf_dof_count W) -/m; have [_ _ _ _ sd] := sizes.
have h : id < size (r_dofs m) by rewrite sd; exact: idN.
by rewrite -[X in sumn X](cat_take_drop id) (drop_nth 0 h) sumn_cat /=; lia.
Qed.

Lemma delete_bodyE : delete_body m (l_name li) = Some m'.
Proof.
have [sb sf sl sm sd] := sizes; have sq : size (r_q_index m) = off + n by rewrite /m (wf_q_index W) size_mkseq.
have hI := idN; have hP : off + p < off + n by rewrite ltn_add2l (ltn_trans pi).
rewrite /delete_body (wf_names W hi : lookup (r_names m) _ = _) /= -/id.
rewrite (getE 0 (r_dofs m)) sd hI /= ltnNge dof_le /=.
rewrite (wf_lambda W hi i0 : get (r_lambda m) _ = _) /= -/p (getE [::]) sm hP /=.
rewrite (erase_lt (s := r_bodies m)) ?sb //= (erase_lt (s := r_frames m)) ?sf //=.
rewrite (erase_lt (s := map _ (set_nth _ _ _ _))) ?size_map ?size_set_nth ?sm ?(maxn_idPr hP) //=.
rewrite (erase_lt (s := map _ (r_lambda m))) ?size_map ?sl //=.
rewrite (getE 0) sq hI /= (erase_lt (s := map _ (r_q_index m))) ?size_map ?sq //=.
by rewrite (erase_lt (s := r_dofs m)) ?sd.
Qed.

Definition links' : seq (mlink B) :=
  let links2 := [seq MLink (l_name l) (dec (l_body li) (l_body l)) (dec i (l_parent l)) (l_child l)
                          (dec i (l_id l)) (l_orig l) (l_bd l) | l <- cut i L] in
  [seq MLink (l_name kl.2) (l_body kl.2) (l_parent kl.2)
       [seq dec i c | c <- if kl.1 == p then rem i (l_child kl.2) else l_child kl.2]
       (l_id kl.2) (l_orig kl.2) (l_bd kl.2) | kl <- zip (iota 0 (size links2)) links2].

Lemma size_links' : size links' = n.-1.
Proof. by rewrite size_map size_zip size_iota minnn size_map /cut size_cut. Qed.

Definition link' (l : mlink B) : mlink B :=
  MLink (l_name l) (dec id (l_body l)) (dec i (l_parent l)) [seq dec i c | c <- rem i (l_child l)]
        (dec i (l_id l)) (l_orig l) (l_bd l).

Lemma child_mem k l c : get L k = Some l -> (c \in l_child l) = [&& 0 < c, c < n & par s c == k].
Proof.
move=> hk; have [_ _ _ ->] := wf_link W hk; rewrite mem_filter mem_iota andbC; move: (get_some hk) iN.
by rewrite /n /L; case: eqP => _; rewrite ?andbF ?andbT //; lia.
Qed.

Lemma par_i : par s i = p. Proof. by rewrite /par hi. Qed.

Lemma get_links' k : get links' k = omap link' (get L (bump i k)).
Proof.
rewrite /links' get_map get_zip get_map /cut get_cut; case e: (get L (bump i k)) => [l|] //=.
have [_ -> _ _] := wf_link W hi; rewrite /link' -/id; congr (Some (MLink _ _ _ (map _ _) _ _ _)).
case: eqP => [//|kp]; rewrite rem_id // (child_mem _ e) par_i i0 iN /=.
apply/eqP => e2; apply: kp; move: pi e2; rewrite /bump; lia.
Qed.

(* the link at its new place *)
Lemma new_link k l' : get links' k = Some l' -> exists l,
  [/\ get L (bump i k) = Some l, l' = link' l, l_id l' = k, l_body l' = off + k & bump i (l_parent l') = l_parent l].
Proof.
rewrite get_links'; case e: (get L (bump i k)) => [l|] //= [<-]; exists l; split=> //=.
- by have [-> _ _ _] := wf_link W e; rewrite dec_bump.
- by have [_ -> _ _] := wf_link W e; rewrite -bump_add dec_bump.
- by rewrite bump_dec //; exact: not_parent' e.
Qed.

Variable s' : state.
Hypothesis hs' : mod_delete bmass s m' i = Some s'.
Lemma s'E : [/\ st_links s' = links', st_joints s' = cut i (st_joints s),
  st_total_mass s' = (st_total_mass s - bmass (l_bd li))%R, st_com_mass s' = Some (st_total_mass s') /\
  st_model s' = m' & exists tq, delete_tasks i (st_tasks s) (st_qp s) = Some tq /\
   [/\ st_tasks s' = tq.1, st_qp s' = tq.2, st_contacts s' = st_contacts s,
       st_system_dof s' = r_dof_count m' & st_model_dof s' = r_dof_count m' - 6] /\
   [/\ st_limit s' = nseq (st_model_dof s') 0%R, st_limit_set s' = st_limit_set s & st_link_num s' = st_link_num s]].
Proof.
move: hs'; rewrite /mod_delete hi (erase_lt iN) erase_lt ?(wf_joints W) //=; case: (r_dof_count m' < 6) => //=.
case: (delete_tasks i (st_tasks s) (st_qp s)) => //= tq [<-] /=; split=> //.
by exists tq.
Qed.

Lemma par' k : k < n.-1 -> bump i (par s' k) = par s (bump i k).
Proof.
have [e _ _ _ _] := s'E; move=> h; rewrite /par e.
have [|l' hl'] := @get_lt _ links' k; first by rewrite size_links'.
by have [l [h1 _ _ _ h2]] := new_link hl'; rewrite hl' h1.
Qed.

Lemma mass' : st_total_mass s' = (\sum_(l <- st_links s') bmass (l_bd l))%R.
Proof.
have [-> _ -> _ _] := s'E; rewrite (wf_mass W) -/L.
have e : [seq bmass (l_bd l) | l <- links'] = [seq bmass (l_bd l) | l <- cut i L].
  by apply: eq_get => k; rewrite get_map [RHS]get_map get_links' /cut get_cut; case: (get L (bump i k)).
have -> : (\sum_(l <- links') bmass (l_bd l) = \sum_(l <- cut i L) bmass (l_bd l))%R.
  by rewrite -[LHS](big_map (fun l : mlink B => bmass (l_bd l)) xpredT ssrfun.id) e big_map.
rewrite -{1}(cat_take_drop i L) /cut !big_cat /=.
have -> : drop i L = li :: drop i.+1 L.
  have h : i < size L by exact: get_some hi.
  by rewrite (drop_nth li h); congr cons; move: hi; rewrite (getE li) h => -[].
by rewrite big_cons GRing.addrCA GRing.addrAC GRing.subrr GRing.add0r.
Qed.

Lemma child' k l : get L (bump i k) = Some l ->
  [seq dec i c | c <- rem i (l_child l)] = [seq x <- iota 1 n.-2 | par s' x == k].
Proof.
move=> e; have [_ _ _ ->] := wf_link W e.
rewrite rem_filter ?filter_uniq ?iota_uniq // -filter_predI.
have -> : [seq x <- iota 1 (size (st_links s)).-1 | predI (predC1 i) (fun x => par s x == bump i k) x] =
          [seq x <- [seq x <- iota 1 n.-1 | x != i] | par s x == bump i k].
  by rewrite -filter_predI; apply: eq_filter => x /=; rewrite andbC.
rewrite iota_cut ?i0 ?iN // filter_map -map_comp (eq_map (f2 := ssrfun.id)) ?map_id; last first.
  by move=> x /=; rewrite dec_bump.
apply/eq_in_filter => x; rewrite mem_iota => /andP [_ h] /=.
rewrite -par'; last by lia.
by rewrite (inj_eq (can_inj (bumpK i))).
Qed.

Lemma take_cut b (t : seq nat) : b <= id -> take b (cut id t) = take b t.
Proof.
move=> h; case: (ltnP id (size t)) => hs.
- rewrite /cut take_cat size_take hs; case: (ltnP b id) => h2; first by rewrite take_take // ltnW.
  have -> : b = id by apply/eqP; rewrite eqn_leq h.
  by rewrite subnn take0 cats0.
- by rewrite /cut (drop_oversize (leq_trans hs (leqnSn _))) cats0 (take_oversize hs).
Qed.
Lemma take_cut_ge b (t : seq nat) : id <= b -> id < size t -> sumn (take b.+1 t) = sumn (take b (cut id t)) + nth 0 t id.
Proof.
move=> h hs; rewrite /cut take_cat size_take hs ltnNge h /= sumn_cat.
rewrite -{1}(cat_take_drop id t) take_cat size_take hs ltnNge (leq_trans h (leqnSn _)) /=.
by rewrite sumn_cat (drop_nth 0 hs) subSn //=; lia.
Qed.
Lemma sumn_take_le (t : seq nat) a b : a <= b -> sumn (take a t) <= sumn (take b t).
Proof.
by move=> h; rewrite -(cat_take_drop a (take b t)) take_take // sumn_cat leq_addr.
Qed.

Lemma q_index' : r_q_index m' = mkseq (fun b => sumn (take b (r_dofs m'))) (off + n.-1).
Proof.
have [_ _ _ _ sd] := sizes; apply: eq_get => b; rewrite /= /cut get_cut get_map /m (wf_q_index W) -/m -/L -/n.
have hn := iN; have hI := idN.
rewrite (getE 0) [RHS](getE 0) !size_mkseq.
have -> : (b < off + n.-1) = (bump id b < off + n) by rewrite /bump; move: hI; rewrite /id; lia.
case: ifP => // hb /=; rewrite !nth_mkseq //; last by move: hb hI; rewrite /bump /id; lia.
have dpos : 0 < nth 0 (r_dofs m) id.
  by apply: (wf_dof W i0); rewrite -/m (getE 0) sd hI.
rewrite /bump; case: (leqP id b) => h.
- rewrite add1n take_cut_ge ?sd //.
  have h2 : sumn (take id (r_dofs m)) <= sumn (take b (cut id (r_dofs m))).
    by rewrite -{1}(take_cut (r_dofs m) (leqnn id)) sumn_take_le.
  by rewrite (_ : _ < _ = true) ?addnK //; lia.
- rewrite add0n -/(cut id (r_dofs m)) (take_cut _ (ltnW h)).
  by rewrite ltnNge (sumn_take_le _ (ltnW h)).
Qed.

Lemma size_cut' (A : Type) (t : seq A) : size t = off + n -> size (cut id t) = off + n.-1.
Proof. by move=> h; rewrite /cut size_cut h ?idN //; move: iN; lia. Qed.

Lemma mu'_get b : b < off + n.-1 ->
  get (r_mu m') b = omap (fun c => [seq dec id x | x <- rem id c]) (get (r_mu m) (bump id b)).
Proof.
move=> hb; have [_ _ _ sm _] := sizes; have hP : off + p < size (r_mu m).
  by rewrite sm ltn_add2l (ltn_trans pi).
rewrite /= /cut get_cut get_map get_set //; case: eqP => [e|ne]; first by rewrite e (getE [::]) hP.
case e: (get (r_mu m) (bump id b)) => [c|] //=; rewrite rem_id //.
apply/negP => hc; case: (ltnP b off) => h.
- have e' : bump id b = b by rewrite /bump /id; lia.
  move: e; rewrite e' => e; have /allP /(_ _ hc) := wf_base_mu W h e.
  by rewrite /id; lia.
- have [x xe] : exists x, b = off + x by exists (b - off); lia.
  move: e ne; rewrite xe bump_add => e ne.
  have [|l hl] := @get_lt _ L (bump i x); first by move: hb; rewrite xe -/n /bump; lia.
  move: e; rewrite (wf_mu W hl) => -[ec]; move: hc; rewrite -ec (mem_map (@addnI off)) (child_mem _ hl) par_i i0 iN /=.
  by move/eqP => e2; apply: ne; rewrite e2.
Qed.

Lemma wf' : wf bmass off s'.
Proof.
have [eL eJ _ [_ eM] _] := s'E; have [sb sf sl sm sd] := sizes.
have sz : size (st_links s') = n.-1 by rewrite eL size_links'.
split.
- move=> k l'; rewrite eL => h; have [l [hl -> e1 e2 e3]] := new_link h; split=> //.
  + have [_ _ + _] := wf_link W hl; move: (not_parent' hl) => np; rewrite /link' /=.
    have bk : (0 < bump i k) = (0 < k) by rewrite /bump; lia.
    rewrite bk; case: (posnP k) => [_|k0]; first by move=> /eqP ->.
    by rewrite /bump /dec => h2; case: (ltnP i (l_parent l)); move: np h2; lia.
  + by rewrite /= (child' hl) size_links'.
- by rewrite eJ sz /cut size_cut (wf_joints W) // -/L -/n; exact: get_some hi.
- exact: mass'.
- move=> k l'; rewrite eL eM => h; have [l [hl -> _ _ _]] := new_link h.
  rewrite /= lookup_dec; last first.
    apply/negP => /String.eqb_eq e; have := wf_names W hl; rewrite e (wf_names W hi) => -[] /addnI e2.
    by have := bump_neq i k; rewrite -e2 eqxx.
  by rewrite (wf_names W hl) /= -bump_add dec_bump.
- move=> k l'; rewrite eL eM => h; have [l [hl -> _ _ _]] := new_link h.
  by rewrite /= /cut get_cut bump_add (wf_bodies W hl).
- move=> k l'; rewrite eL eM => h k0; have [l [hl -> _ _ _]] := new_link h.
  by rewrite /= /cut get_cut bump_add get_map (wf_lambda W hl) /= ?dec_add // /bump; lia.
- move=> k l'; rewrite eL eM => h; have [l [hl -> _ _ _]] := new_link h.
  rewrite mu'_get ?ltn_add2l; last by rewrite -size_links'; exact: get_some h.
  rewrite bump_add (wf_mu W hl) /= (rem_map _ _ (@addnI off)) -!map_comp; congr Some.
  by apply: eq_map => x /=; rewrite dec_add.
- have hP : off + p < off + n by rewrite ltn_add2l (ltn_trans pi).
  by move=> N ->; rewrite eM sz; split; apply: size_cut'; rewrite ?size_map ?size_set_nth ?sm ?(maxn_idPr hP).
- move=> b hb x; rewrite eM /= /cut get_cut get_map.
  have -> : bump id b = b by rewrite /bump /id; lia.
  case e: (get (r_lambda m) b) => [y|] //= [<-]; have hy := wf_base W hb e.
  by rewrite dec_le.
- move=> b hb c; rewrite eM mu'_get; last by lia.
  have -> : bump id b = b by rewrite /bump /id; lia.
  case e: (get (r_mu m) b) => [y|] //= [<-]; have /allP hy := wf_base_mu W hb e.
  by apply/allP => z /mapP [t /mem_rem /hy h ->]; rewrite dec_le.
- by rewrite eM sz q_index'.
- rewrite eM /= (wf_dof_count W) -/m.
  have h : id < size (r_dofs m) by rewrite sd; exact: idN.
  by rewrite -{1}(cat_take_drop id (r_dofs m)) (drop_nth 0 h) /cut !sumn_cat /=; lia.
- by rewrite eM /= take_cut ?(wf_base_dof W) // /id; lia.
- move=> k d k0; rewrite eM /= /cut get_cut bump_add; apply: (wf_dof W).
  by rewrite /bump; lia.
Qed.

Lemma rel' : [/\ size (st_links s') = n.-1,
  forall k, k < n.-1 -> get (st_joints s') k = get (st_joints s) (bump i k) &
  forall k l', get (st_links s') k = Some l' -> exists l, get (st_links s) (bump i k) = Some l /\
        [/\ l_name l' = l_name l, l_bd l' = l_bd l, l_orig l' = l_orig l, bump i (l_parent l') = l_parent l &
            forall c, (c < n.-1)%N -> (c \in l_child l') = (bump i c \in l_child l)]].
Proof.
have [eL eJ _ _ _] := s'E; split.
- by rewrite eL size_links'.
- by move=> k _; rewrite eJ /cut get_cut.
- move=> k l'; rewrite eL => h; have [l [hl e1 _ _ e3]] := new_link h; exists l; split=> //.
  split=> //; rewrite ?e1 // => c hc; rewrite /= (child' hl) (child_mem _ hl) mem_filter mem_iota -par' //.
  by rewrite (inj_eq (can_inj (bumpK i))) andbC; case: eqP => _; rewrite ?andbF ?andbT // /bump; lia.
Qed.
End Step.
