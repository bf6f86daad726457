(* Deleting a whole subtree. *)
From Coq Require Import String.
From mathcomp Require Import all_ssreflect all_algebra zify.
From Verif Require Import Tree_Model Tree_Spec Tree_Proofs.
Set Implicit Arguments.
Unset Strict Implicit.
Unset Printing Implicit Defensive.

Section Thm.
Variable R : zmodType.
Variables (B T : Type) (bmass : B -> R).
Local Notation state := (state R B T).
Implicit Types s : state.

Lemma par_le off s k : wf bmass off s -> par s k <= k.
Proof.
move=> W; rewrite /par; case e: (get _ k) => [l|] //.
by have [_ _ + _] := wf_link W e; case: (posnP k) => [_|_]; [move/eqP ->|exact: ltnW].
Qed.
Lemma par_lt off s k : wf bmass off s -> 0 < k -> par s k < k.
Proof.
move=> W k0; rewrite /par; case e: (get _ k) => [l|] //.
by have [_ _ + _] := wf_link W e; rewrite k0.
Qed.
Lemma iter_par_le off s k j : wf bmass off s -> iter j (par s) k <= k.
Proof. by move=> W; elim: j => //= j IH; exact: leq_trans (par_le _ W) IH. Qed.
Lemma below_ge off s a x : wf bmass off s -> below s a x -> a <= x.
Proof. by move=> W [j <-]; exact: iter_par_le W. Qed.
Lemma below_refl s a : below s a a. Proof. by exists 0. Qed.
Lemma below_par s a c x : par s c = a -> below s c x -> below s a x.
Proof. by move=> e [j h]; exists j.+1; rewrite iterS h. Qed.
Lemma below_leaf off s a l x : wf bmass off s -> get (st_links s) a = Some l -> 0 < a -> l_child l = [::] ->
  x < size (st_links s) -> below s a x -> x = a.
Proof.
move=> W ha a0 hc hx [[|j] //= h]; set y := iter j (par s) x in h.
have yx : y <= x := iter_par_le x j W.
case: (posnP y) => y0; first by move: h (par_le y W); rewrite y0 => ->; rewrite leqn0 => /eqP e; rewrite e in a0.
have : y \in l_child l.
  have [_ _ _ ->] := wf_link W ha; rewrite mem_filter mem_iota h eqxx /=; lia.
by rewrite hc.
Qed.

Lemma mono_ge (phi : nat -> nat) : (forall j k, j < k -> phi j < phi k) -> forall k, k <= phi k.
Proof. by move=> h; elim=> // k IH; exact: leq_ltn_trans IH (h _ _ (ltnSn k)). Qed.
Lemma mono_lt (phi : nat -> nat) : (forall j k, j < k -> phi j < phi k) -> forall j k, (phi j < phi k) = (j < k).
Proof.
move=> h j k; case: ltngtP (h j k) (h k j) => [jk|kj|->] h1 h2; [exact: h1| |by rewrite ltnn].
by apply/negbTE; rewrite -leqNgt ltnW // h2.
Qed.
Lemma mono_inj (phi : nat -> nat) : (forall j k, j < k -> phi j < phi k) -> injective phi.
Proof. by move=> h j k e; move: (mono_lt h j k) (mono_lt h k j); rewrite e !ltnn; case: ltngtP. Qed.

Section Pruned.
Variables (off : nat) (s s1 : state) (c : nat) (phi : nat -> nat).
Hypothesis W : wf bmass off s.
Hypothesis W1 : wf bmass off s1.
Hypothesis mono : forall j k, j < k -> phi j < phi k.
Hypothesis surv : forall i, i < size (st_links s) -> ~ below s c i <-> exists2 k, k < size (st_links s1) & phi k = i.
Hypothesis rel : forall k l', get (st_links s1) k = Some l' -> exists l, get (st_links s) (phi k) = Some l /\
        [/\ l_name l' = l_name l, l_bd l' = l_bd l, l_orig l' = l_orig l, phi (l_parent l') = l_parent l &
            forall c, (c < size (st_links s1))%N -> (c \in l_child l') = (phi c \in l_child l)].

Lemma phi_fix x : x < c -> x < size (st_links s) -> phi x = x /\ x < size (st_links s1).
Proof.
elim/ltn_ind: x => x IH xc xs.
have [k hk e] : exists2 k, k < size (st_links s1) & phi k = x.
  by apply/(surv xs) => /(below_ge W); rewrite leqNgt xc.
have kx : k <= x by rewrite -e; exact: mono_ge.
case: (ltngtP k x) kx => // [h|h] _; last by rewrite -h in e *; rewrite e.
by have [e2 _] := IH k h (ltn_trans h xc) (ltn_trans h xs); move: h; rewrite -e e2 ltnn.
Qed.
Lemma phi_par k : k < size (st_links s1) -> phi (par s1 k) = par s (phi k).
Proof.
case/get_lt => l' h; have [l [hl [_ _ _ e _]]] := rel h.
by rewrite /par h hl.
Qed.
Lemma phi_iter k j : k < size (st_links s1) -> phi (iter j (par s1) k) = iter j (par s) (phi k).
Proof.
move=> hk; elim: j => //= j IH; rewrite phi_par ?IH //.
exact: leq_ltn_trans (iter_par_le k j W1) hk.
Qed.
Lemma phi_below a k : k < size (st_links s1) -> below s1 a k <-> below s (phi a) (phi k).
Proof.
move=> hk; split=> -[j h]; exists j; first by rewrite -phi_iter // h.
by apply: (mono_inj mono); rewrite phi_iter.
Qed.
End Pruned.

Lemma pruned_trans off s s1 s2 a c : wf bmass off s -> wf bmass off s1 -> a < c -> a < size (st_links s) -> par s c = a ->
  pruned s s1 c -> pruned s1 s2 a -> pruned s s2 a.
Proof.
move=> W W1 ac an pc [f [mf sf jf rf]] [g [mg sg jg rg]].
have [fa a1] := phi_fix W mf sf ac an.
exists (f \o g); split.
- by move=> j k h /=; apply/mf/mg.
- move=> x hx; split.
  + move=> nb; have [k hk e] : exists2 k, k < size (st_links s1) & f k = x.
      by apply/(sf _ hx) => b; apply: nb; exact: below_par b.
    have [k2 hk2 e2] : exists2 k2, k2 < size (st_links s2) & g k2 = k.
      by apply/(sg _ hk) => /(phi_below W1 mf rf a hk); rewrite fa e.
    by exists k2; rewrite //= e2.
  + case=> k hk /= e; have [gk _] := jg _ hk; have ng : ~ below s1 a (g k) by apply/(sg _ gk); exists k.
    by move=> b; apply: ng; apply/(phi_below W1 mf rf a gk); rewrite fa e.
- by move=> k /jg [h1 ->]; have [h2 ->] := jf _ h1.
- move=> k l2 /rg [l1 [/rf [l [hl [e1 e2 e3 e4 e5]]] [g1 g2 g3 g4 g5]]]; exists l; split=> //; split=> /=.
  + by rewrite g1.
  + by rewrite g2.
  + by rewrite g3.
  + by rewrite g4.
  + by move=> x hx; rewrite g5 // e5 //; have [] := jg _ hx.
Qed.

Lemma child_facts off s a l c : wf bmass off s -> get (st_links s) a = Some l -> c \in l_child l ->
  [/\ 0 < c, c < size (st_links s), par s c = a & a < c].
Proof.
move=> W ha hc; have := hc; have [_ _ _ e] := wf_link W ha; rewrite e mem_filter mem_iota => /andP [/eqP pc h].
have c0 : 0 < c by lia.
by split=> //; [lia|rewrite -pc; exact: par_lt W c0].
Qed.

Theorem DeleteLink_correct off : forall fuel s a s', wf bmass off s -> 0 < a ->
  DeleteLink bmass fuel s a = Some s' ->
  [/\ a < size (st_links s), wf bmass off s', pruned s s' a & st_com_mass s' = Some (st_total_mass s')].
Proof.
elim=> // fuel IH s a s' W a0 /=; case ha: (get (st_links s) a) => [l|] //=.
have an := get_some ha.
case hc: (l_child l) => [|c cs].
- rewrite (delete_bodyE W ha a0) /= => hs.
  have W' := wf' W ha a0 hc hs; have [e1 e2 e3] := rel' W ha a0 hc hs.
  have [_ _ _ [ec _] _] := s'E W ha hs.
  split=> //; exists (bump a); split.
  + by move=> j k; exact: bump_mono.
  + move=> x hx; rewrite e1; split.
    * move=> nb; have xa : x != a by apply/eqP => e; apply: nb; rewrite e; exact: below_refl.
      by exists (dec a x); rewrite ?bump_dec // /dec; case: (ltnP a x); lia.
    * by case=> k hk <- /(below_leaf W ha a0 hc) h; have := bump_neq a k; rewrite h ?eqxx // /bump; lia.
  + by rewrite e1 => k hk; rewrite e2 //; split=> //; rewrite /bump; lia.
  + by rewrite e1.
- case h1: (DeleteLink bmass fuel s c) => [s1|] //= h2.
  have [c0 cn pc ac] : [/\ 0 < c, c < size (st_links s), par s c = a & a < c].
    by apply: (child_facts W ha); rewrite hc mem_head.
  have [_ W1 P1 _] := IH _ _ _ W c0 h1; have [_ W2 P2 e2] := IH _ _ _ W1 a0 h2.
  by split=> //; exact: (pruned_trans W W1 ac an pc P1 P2).
Qed.

(* what is kept or reset whatever the tree *)
Lemma DeleteLink_frame : forall fuel s a s', DeleteLink bmass fuel s a = Some s' ->
  [/\ st_contacts s' = st_contacts s, st_limit_set s' = st_limit_set s, st_link_num s' = st_link_num s,
      st_limit s' = nseq (st_model_dof s') 0%R & (st_system_dof s' = r_dof_count (st_model s') /\
      st_system_dof s' = st_model_dof s' + 6)].
Proof.
elim=> // fuel IH s a s' /=; case: (get (st_links s) a) => [l|] //=.
case hc: (l_child l) => [|c cs].
- case: (delete_body _ _) => //= m; rewrite /mod_delete; case: (get _ a) => //= d.
  case: ltnP => // h6; case: (erase (st_links s) a) => //= ?; case: (erase (st_joints s) a) => //= ?.
  by case: (delete_tasks _ _ _) => //= tq [<-] /=; rewrite subnK.
- case h1: (DeleteLink bmass fuel s c) => [s1|] //= h2.
  by have [e1 e2 e3 e4 e5] := IH _ _ _ h1; have [g1 g2 g3 g4 g5] := IH _ _ _ h2; split=> //; rewrite ?g1 ?g2 ?g3.
Qed.

Lemma scan_none d ts i dt : (forall t, List.In t ts -> d \notin t_links t) ->
  scan_tasks d i None ts dt = Some (ts, dt).
Proof.
elim: ts i dt => //= t ts IH i dt h; rewrite drop0 (negPf (h t (or_introl erefl))) IH //.
by move=> u hu; apply: h; right.
Qed.

Theorem DeleteLink_total off : forall fuel s a, wf bmass off s -> 0 < a -> a < size (st_links s) ->
  size (st_links s) <= a + fuel -> (forall t, List.In t (st_tasks s) -> all (fun x => x < a) (t_links t)) ->
  exists s', DeleteLink bmass fuel s a = Some s' /\ st_tasks s' = st_tasks s /\ st_qp s' = st_qp s.
Proof.
elim=> [|fuel IH] s a W a0 an hf ht; first by move: hf; rewrite addn0 leqNgt an.
rewrite [DeleteLink _ _ _ _]/=; case/get_lt: (an) => l ha; rewrite ha [obind _ _]/=.
case hc: (l_child l) => [|c cs].
- rewrite (delete_bodyE W ha a0) [obind _ _]/= /mod_delete ha [obind _ _]/=.
  have -> : (r_dof_count (m' off s a l) < 6) = false.
    apply/negbTE; rewrite -leqNgt /= (wf_dof_count W).
    apply: leq_trans (wf_base_dof W) _.
    have [_ _ _ _ sd] := wf_sizes W (erefl _).
    have h : off + a < size (r_dofs (st_model s)) by rewrite sd ltn_add2l.
    rewrite -[X in sumn X - _](cat_take_drop (off + a)) (drop_nth 0 h) sumn_cat /=.
    have : sumn (take off.+1 (r_dofs (st_model s))) <= sumn (take (off + a) (r_dofs (st_model s))).
      by apply: sumn_take_le; lia.
    lia.
  rewrite (erase_lt an) [obind _ _]/= erase_lt ?(wf_joints W) // [obind _ _]/=.
  rewrite /delete_tasks scan_none /=; last first.
    by move=> t /ht /allP h; apply/negP => /h; rewrite ltnn.
  by eexists; split; [reflexivity|].
- have [c0 cn pc ac] : [/\ 0 < c, c < size (st_links s), par s c = a & a < c].
    by apply: (child_facts W ha); rewrite hc mem_head.
  have [||s1 [h1 [t1 q1]]] := IH s c W c0 cn; first by lia.
    by move=> t /ht; apply: sub_all => x /ltn_trans; apply.
  rewrite h1 [obind _ _]/=; have [_ W1 [f [mf sf jf rf]] _] := DeleteLink_correct W c0 h1.
  have [fa a1] := phi_fix W mf sf ac an.
  have hs : size (st_links s1) < size (st_links s).
    case: (posnP (size (st_links s1))) => [->|p1]; first by lia.
    have hk : (size (st_links s1)).-1 < size (st_links s1) by lia.
    have [h _] := jf _ hk; rewrite ltnNge; apply/negP => h2.
    have hall x : x < size (st_links s1) -> f x = x.
      (* f is monotone into [0, size s) <= [0, size s1), hence the identity *)
      move=> hx; apply/eqP; rewrite eqn_leq (mono_ge mf) andbT.
      have up y : y < size (st_links s1) -> f y + ((size (st_links s1)).-1 - y) <= f (size (st_links s1)).-1.
        elim/ltn_ind: {y}((size (st_links s1)).-1 - y) {-2}y (erefl ((size (st_links s1)).-1 - y)) => d ID y e hy.
        case: (posnP d) => [d0|dp]; first by rewrite (_ : y = (size (st_links s1)).-1) ?subnn ?addn0; lia.
        have := ID d.-1 _ y.+1 _ _; have := mf y y.+1 (ltnSn y); lia.
      have := up x hx; lia.
    have : ~ below s c (f c) by apply/(sf _ _); [rewrite hall //; lia|exists c => //; lia].
    by rewrite hall; [apply; exact: below_refl|lia].
  have [||s2 [h2' [t2 q2]]] := IH s1 a W1 a0 a1; first by lia.
    by rewrite t1.
  by exists s2; rewrite h2' t2 q2.
Qed.
End Thm.
