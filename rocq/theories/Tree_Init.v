(* InitModelData establishes the invariant; deleting the root or the COM entry. *)
From Coq Require Import String.
From mathcomp Require Import all_ssreflect all_algebra zify.
From Verif Require Import Tree_Model Tree_Spec Tree_Proofs Tree_Thm.
Set Implicit Arguments.
Unset Strict Implicit.
Unset Printing Implicit Defensive.

Section Init.
Variable R : zmodType.
Variables (B T : Type) (bmass : B -> R).
Local Notation state := (state R B T).
Variables (off : nat) (m : rbdl B T) (nm : nat -> string).
Hypothesis H : rbdl_tree bmass off m nm.
Let N := size (r_bodies m).
Let n := (N - off)%N.
Let oN : off <= N := rt_off H.

Lemma massiveE : massive bmass m = iota off n.
Proof.
rewrite /massive -/N; have -> : N = (off + n)%N by rewrite /n subnKC.
rewrite iotaD filter_cat (@eq_in_filter _ _ pred0) ?filter_pred0 /=; last first.
  move=> i; rewrite mem_iota /= => hi; case e: (get _ i) => [b|] //.
  by rewrite (rt_mass H e); lia.
rewrite (@eq_in_filter _ _ predT) ?filter_predT // => i; rewrite mem_iota => hi.
have [|b e] := @get_lt _ (r_bodies m) i; first by rewrite -/N /n in hi *; lia.
by rewrite e (rt_mass H e); case/andP: hi => ->.
Qed.

Lemma index_iota a k : index k (iota off a) = if (off <= k < off + a)%N then (k - off)%N else a.
Proof.
case: ifP => h.
- have -> : k = nth 0 (iota off a) (k - off) by rewrite nth_iota; lia.
  rewrite index_uniq ?iota_uniq ?size_iota ?nth_iota; lia.
- by rewrite memNindex ?size_iota // mem_iota h.
Qed.

Lemma lambda_get b : b < N -> get (r_lambda m) b = Some (nth 0 (r_lambda m) b).
Proof. by move=> h; have [_ sl _ _] := rt_sizes H; rewrite (getE 0) sl h. Qed.

Lemma parent_linkE k : k < n -> parent_link bmass m k =
  if 0 < k then (nth 0 (r_lambda m) (off + k) - off)%N else n.
Proof.
move=> hk; rewrite /parent_link massiveE nth_iota // index_iota.
have hN : off + k < N by move: hk oN; rewrite /n; lia.
have := rt_lambda H (lambda_get hN); have b0 := rt_base H.
case: (posnP k) => k0; first by rewrite k0 addn0 ltnn; case: ifP; lia.
by rewrite (_ : off < off + k); [case: ifP|]; lia.
Qed.

Lemma get_pmap (A : Type) (f : nat -> option A) a k :
  (forall i, i < a -> exists x, f i = Some x) -> get (pmap f (iota 0 a)) k = if k < a then f k else None.
Proof.
move=> h; suff [e1 e2] : size (pmap f (iota 0 a)) = a /\ forall k, k < a -> get (pmap f (iota 0 a)) k = f k.
  by case: ifP => hk; [rewrite e2|rewrite get_none // e1 leqNgt hk].
elim: a h {k} => [|a IH] h; first by split.
have [|s1 s2] := IH; first by move=> i hi; apply: h; exact: ltnW.
have [x hx] := h a (ltnSn a).
rewrite -addn1 iotaD /= add0n pmap_cat /= hx /= cats1 size_rcons s1 addn1; split=> // k; rewrite ltnS => hk.
rewrite (getE x) size_rcons s1 ltnS hk nth_rcons s1; case: (ltngtP k a) hk => // [hk|->] _; last by rewrite hx.
by rewrite -s2 // (getE x) s1 hk.
Qed.

Lemma pmap_map (A C D : Type) (f : C -> option D) (g : A -> C) t : pmap f (map g t) = pmap (f \o g) t.
Proof. by elim: t => //= x t ->. Qed.

Lemma size_pmap_iota (A : Type) (f : nat -> option A) a :
  (forall i, i < a -> exists x, f i = Some x) -> size (pmap f (iota 0 a)) = a.
Proof.
move=> h; have g := get_pmap _ h; apply/eqP; rewrite eqn_leq; apply/andP; split.
- by rewrite leqNgt; apply/negP => /get_lt [x]; rewrite g ltnn.
- rewrite leqNgt; apply/negP => lt; have [x hx] := h _ lt; have := g (size (pmap f (iota 0 a))).
  by rewrite lt hx get_none.
Qed.

Theorem InitModelData_wf (s0 : state) : st_joints s0 = [::] ->
  exists s, [/\ InitModelData bmass s0 true m nm = Some s, wf bmass off s, size (st_links s) = n,
   (forall k l j, get (st_links s) k = Some l -> get (st_joints s) k = Some j -> j_id j = sumn (take (off + k) (r_dofs m))) &
   st_link_num s = n /\ st_system_dof s = st_model_dof s + 6].
Proof.
move=> j0; have [sf sl sm sd] := rt_sizes H; rewrite /InitModelData.
rewrite sf sl !eqxx (rt_q_index H) size_mkseq eqxx /=.
have h6 : 6 <= r_dof_count m.
  apply: leq_trans (rt_base_dof H) _; rewrite (rt_dof_count H) -{2}(cat_take_drop off.+1 (r_dofs m)) sumn_cat.
  exact: leq_addr.
rewrite ltnNge h6 /=.
set link := fun k => omap _ _; set joint := fun k => omap _ _.
have nids : size (massive bmass m) = n by rewrite massiveE size_iota.
have bk k : k < n -> off + k < N by move=> hk; move: hk oN; rewrite /n; lia.
have nthk k : k < n -> nth 0 (massive bmass m) k = off + k by move=> hk; rewrite massiveE nth_iota.
have linkS k : k < n -> exists2 b, get (r_bodies m) (off + k) = Some b & link k = Some (MLink (nm (off + k)) (off + k)
    (if parent_link bmass m k < n then parent_link bmass m k else 0)
    [seq i <- iota 0 n | parent_link bmass m i == k] k k b).
  by move=> hk; case/get_lt: (bk k hk) => b hb; exists b; rewrite // /link nthk // hb /= nids.
have jointS k : k < n -> exists2 f, get (r_frames m) (off + k) = Some f & joint k = Some (MJoint f None (sumn (take (off + k) (r_dofs m)))).
  move=> hk; have h := bk k hk; have [|f hf] := @get_lt _ (r_frames m) (off + k); first by rewrite sf.
  by exists f; rewrite // /joint nthk // hf /= nth_mkseq.
have linkS' k : k < n -> exists x, link k = Some x by case/linkS => b _ ->; eexists.
have jointS' k : k < n -> exists x, joint k = Some x by case/jointS => b _ ->; eexists.
eexists; split; [reflexivity| | | |by rewrite /= nids subnK] => /=; rewrite ?nids ?j0 /=; last first.
- move=> k l j; rewrite !get_pmap //; case: ifP => // hk _.
  by have [f _ ->] := jointS k hk => -[<-].
- exact: size_pmap_iota.
have gl k l : get (pmap link (iota 0 n)) k = Some l -> k < n /\ link k = Some l.
  by rewrite get_pmap //; case: ifP.
have parE k l : link k = Some l -> k < n -> l_parent l = (if 0 < k then nth 0 (r_lambda m) (off + k) - off else 0).
  move=> + hk; have [b _ ->] := linkS k hk => -[<-] /=; rewrite parent_linkE //.
  case: (posnP k) => [_|k0]; first by rewrite ltnn.
  by have := rt_lambda H (lambda_get (bk k hk)); rewrite (_ : off < off + k); [move=> h; rewrite (_ : _ < n)|]; lia.
set s := St _ _ _ _ _ _ _ _ _ _ _ _ _.
have parS k : k < n -> par s k = if 0 < k then nth 0 (r_lambda m) (off + k) - off else 0.
  by move=> hk; rewrite /par /s /= get_pmap // hk; have [x hx] := linkS' k hk; rewrite hx; exact: parE hx hk.
have sz : size (st_links s) = n by exact: size_pmap_iota.
have childE k l : link k = Some l -> k < n -> l_child l = [seq i <- iota 1 n.-1 | par s i == k].
  move=> + hk; have [b _ ->] := linkS k hk => -[<-] /=.
  have -> : iota 0 n = 0 :: iota 1 n.-1 by case: (n) hk.
  have np : 0 < n by lia.
  rewrite /= parent_linkE // ltnn (_ : n == k = false); last by lia.
  apply/eq_in_filter => i; rewrite mem_iota => hi; rewrite parent_linkE ?parS; [|lia..].
  by rewrite (_ : 0 < i) //; lia.
have lam k : 0 < k < n -> off <= nth 0 (r_lambda m) (off + k) < off + k.
  by move=> hk; have := rt_lambda H (lambda_get (bk k _)); rewrite (_ : off < off + k); [apply|]; lia.
split; rewrite ?sz.
- move=> k l /gl [hk e]; have [b _ e2] := linkS k hk; move: (e); rewrite e2 => -[el]; split; rewrite -?el //.
  + have := parE _ _ e hk; rewrite -el /= => ->; case: (posnP k) => // k0.
    by have := lam k; rewrite k0 hk => /(_ isT); lia.
  + by have := childE _ _ e hk; rewrite -el.
- by rewrite /s /= size_pmap_iota.
- rewrite /s /= massiveE.
  rewrite -(big_map (fun l : mlink B => l_bd l) xpredT bmass); congr (bigop _ _ _); apply: eq_get => k.
  rewrite get_map get_pmap //; case: ifP => hk.
    have [b hb ->] := linkS k hk; rewrite /= -{1}[off]addn0 iotaDl pmap_map get_pmap ?hk //=; last by move=> i /bk /get_lt.
  rewrite -{1}[off]addn0 iotaDl pmap_map get_pmap ?hk //=; by move=> i /bk /get_lt.
- move=> k l /gl [hk e]; have [b _ e2] := linkS k hk; move: e; rewrite e2 => -[<-] /=.
  by rewrite (rt_names H) // bk // andbT; lia.
- by move=> k l /gl [hk e]; have [b hb e2] := linkS k hk; move: e; rewrite e2 => -[<-] /=.
- move=> k l /gl [hk e] k0; rewrite (parE _ _ e hk) k0 lambda_get ?bk //; congr Some.
  by have := lam k; rewrite k0 hk => /(_ isT); lia.
- move=> k l /gl [hk e]; rewrite (childE _ _ e hk).
  have hb := bk k hk; have [|c hc] := @get_lt _ (r_mu m) (off + k); first by rewrite sm.
  rewrite hc (rt_mu H hc) -/N; congr Some.
  have -> : N.-1 = off + n.-1 by move: hk oN; rewrite /n; lia.
  rewrite iotaD filter_cat (@eq_in_filter _ _ pred0) ?filter_pred0 /=; last first.
    move=> j; rewrite mem_iota => hj; have hjN : j < N by move: hk oN; rewrite /n; lia.
    have := rt_lambda H (lambda_get hjN); rewrite (_ : off < j = false); lia.
  rewrite (addnC 1) iotaDl filter_map; congr map; apply/eq_in_filter => i; rewrite mem_iota => hi /=.
  have hin : 0 < i < n by lia.
  by have := lam i hin; rewrite parS; [case/andP: hin => -> _|]; lia.
- by move=> a ->; have -> : off + n = N by rewrite /n subnKC.
- move=> b hb x /(rt_lambda H); case: ifP; first by lia.
  by move=> _; lia.
- move=> b hb c hc; rewrite (rt_mu H hc) -/N; apply/allP => j; rewrite mem_filter mem_iota => /andP [/eqP e hj].
  have hjN : j < N by lia.
  by have := rt_lambda H (lambda_get hjN); rewrite e; case: ltnP; lia.
- by rewrite /s /= (rt_q_index H) -/N (_ : off + n = N) // /n subnKC.
- exact: rt_dof_count H.
- exact: rt_base_dof H.
- by move=> k d k0; apply: (rt_dof H); lia.
Qed.
End Init.
