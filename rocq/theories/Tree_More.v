(* The base and the COM entry, AddLink, ChangeLinkToFixedJoint. *)
From Coq Require Import String.
From mathcomp Require Import all_ssreflect all_algebra zify.
From Verif Require Con_Model.
From Verif Require Import Tree_Model Tree_Spec Tree_Proofs Tree_Thm.
Set Implicit Arguments.
Unset Strict Implicit.
Unset Printing Implicit Defensive.

Section More.
Variable R : zmodType.
Variables (B T : Type) (bmass : B -> R) (join : B -> B -> T -> B).
Local Notation state := (state R B T).
Implicit Types s : state.
Variable off : nat.

Lemma DeleteLink_dofs : forall fuel s a s', wf bmass off s -> 0 < a -> DeleteLink bmass fuel s a = Some s' ->
  take off (r_dofs (st_model s')) = take off (r_dofs (st_model s)).
Proof.
elim=> // fuel IH s a s' W a0 /=; case ha: (get (st_links s) a) => [l|] //=.
case hc: (l_child l) => [|c cs].
- rewrite (delete_bodyE W ha a0) /= => hs; have [_ _ _ [_ ->] _] := s'E W ha hs.
  by rewrite /= take_cut // leq_addr.
- case h1: (DeleteLink bmass fuel s c) => [s1|] //= h2.
  have [c0 cn pc ac] : [/\ 0 < c, c < size (st_links s), par s c = a & a < c].
    by apply: (child_facts W ha); rewrite hc mem_head.
  have [_ W1 _ _] := DeleteLink_correct W c0 h1.
  by rewrite (IH _ _ _ W1 a0 h2) (IH _ _ _ W c0 h1).
Qed.

(* deleting the base never succeeds: fewer than six coordinates would be left *)
Theorem delete_root_none : forall fuel s, wf bmass off s -> sumn (take off (r_dofs (st_model s))) < 6 ->
  DeleteLink bmass fuel s 0 = None.
Proof.
elim=> // fuel IH s W h6 /=; case ha: (get (st_links s) 0) => [l|] //=.
case hc: (l_child l) => [|c cs]; last first.
  have [c0 cn pc ac] : [/\ 0 < c, c < size (st_links s), par s c = 0 & 0 < c].
    by apply: (child_facts W ha); rewrite hc mem_head.
  case h1: (DeleteLink bmass fuel s c) => [s1|] //=.
  have [_ W1 _ _] := DeleteLink_correct W c0 h1; apply: (IH _ W1).
  by rewrite (DeleteLink_dofs W c0 h1).
have n1 : size (st_links s) = 1.
  have := get_some ha; case: (ltngtP (size (st_links s)) 1) => // n1 _.
  have : 1 \in l_child l.
    have [_ _ _ ->] := wf_link W ha; rewrite mem_filter mem_iota.
    by have := par_lt W (ltn0Sn 0); rewrite ltnS leqn0 => ->; lia.
  by rewrite hc.
case hd: (delete_body _ _) => [m|] //=.
rewrite /mod_delete ha /=; suff -> : r_dof_count m < 6 by [].
move: hd; rewrite /delete_body (wf_names W ha) addn0 /=.
have [_ _ _ _ sd] := wf_sizes W (erefl _); rewrite n1 in sd.
rewrite (getE 0 (r_dofs _)) sd addn1 ltnSn /=; case: ifP => // _.
case: (get (r_lambda _) off) => [x|] //=; case: (get (r_mu _) x) => [y|] //=.
case: (erase (r_bodies _) off) => [?|] //=; case: (erase (r_frames _) off) => [?|] //=.
case: (erase (map _ (set_nth _ _ _ _)) off) => [?|] //=; case: (erase (map _ (r_lambda _)) off) => [?|] //=.
case: (get (r_q_index _) off) => [?|] //=; case: (erase (map _ (r_q_index _)) off) => [?|] //=.
case: (erase (r_dofs _) off) => [?|] //=; move=> [<-] /=.
rewrite (wf_dof_count W) -[X in sumn X](cat_take_drop off) (drop_nth 0) ?sd ?addn1 //.
rewrite (drop_oversize (n := off.+1)) ?sd ?addn1 // sumn_cat /=; lia.
Qed.

(* find_link returns the first case-insensitive match *)
Lemma find_link_fromP i names name k : Con_Model.find_link_from i names name = Some k ->
  i <= k /\ exists2 x, get names (k - i) = Some x & Con_Model.strcaseeq x name.
Proof.
elim: names i => //= x names IH i; case: ifP => h; first by move=> [<-]; rewrite subnn; split=> //; exists x.
move=> /IH [ik [y gy hy]]; split; first exact: ltnW.
by exists y => //; move: gy; rewrite -[k - i]subSS subSn.
Qed.
Lemma find_link_miss i names name : (forall x, List.In x names -> Con_Model.strcaseeq x name = false) ->
  Con_Model.find_link_from i names name = None.
Proof. by elim: names i => //= x names IH i h; rewrite h ?IH //; [move=> y hy; apply: h; right|left]. Qed.
Lemma find_link_app i names x name : (forall x, List.In x names -> Con_Model.strcaseeq x name = false) ->
  Con_Model.strcaseeq x name -> Con_Model.find_link_from i (names ++ [:: x]) name = Some (i + size names).
Proof.
move=> + hx; elim: names i => [|y names IH] i h /=; first by rewrite hx addn0.
by rewrite h ?IH ?addSnnS //; [move=> z hz; apply: h; right|left].
Qed.

Theorem delete_com_none s : (forall x, List.In x [seq l_name l | l <- st_links s] -> Con_Model.strcaseeq x "COM" = false) ->
  DeleteLinkByName bmass s "COM" = None.
Proof.
move=> h; rewrite /DeleteLinkByName /link_names /Con_Model.find_link find_link_app // add0n size_map /=.
by rewrite get_none.
Qed.

(* AddLink with a revolute joint *)
Definition repaired s (j : mjoint T) (b : B) : state :=
  St (st_links s) (rcons (st_joints s) j) (st_tasks s) (st_qp s) (st_contacts s) (st_total_mass s + bmass b)%R
     (st_com_mass s) (st_link_num s) (st_system_dof s) (st_model_dof s) (st_limit s) (st_limit_set s) (st_model s).

Lemma get_rcons (A : Type) (t : seq A) x k : get (rcons t x) k = if k == size t then Some x else get t k.
Proof.
rewrite !(getE x) size_rcons nth_rcons ltnS; case: (ltngtP k (size t)) => //.
Qed.

Lemma get_set' (A : Type) (d : A) t p x k : p < size t -> get (set_nth d t p x) k = if k == p then Some x else get t k.
Proof. exact: get_set. Qed.

Lemma lookup_rcons t (k n : string) v : lookup t n = None ->
  lookup (rcons t (n, v)) k = if String.eqb n k then Some v else lookup t k.
Proof.
elim: t => //= -[k' v'] t IH; case: ifP => // h /IH ->.
case: ifP => // h2; case: ifP => // h3; move/String.eqb_eq: h2 => h2; move/String.eqb_eq: h3 => h3.
by move: h; rewrite h2 h3 String.eqb_refl.
Qed.

Lemma iota_rcons k : 0 < k -> iota 1 k = rcons (iota 1 k.-1) k.
Proof. by case: k => // k _; have := iotaD 1 k 1; rewrite addn1 /= add1n cats1. Qed.

Section Add.
Variables (s : state) (p : nat) (lp : mlink B) (name : string) (f : T) (b : B) (j : mjoint T).
Hypothesis W : wf bmass off s.
Hypothesis hp : get (st_links s) p = Some lp.
Hypothesis fresh : lookup (r_names (st_model s)) name = None.
Let n := size (st_links s).
Let m := st_model s.
Let pn : p < n := get_some hp.
Let sizes : [/\ size (r_bodies m) = off + n, size (r_frames m) = off + n, size (r_lambda m) = off + n,
  size (r_mu m) = off + n & size (r_dofs m) = off + n] := wf_sizes W (erefl _).

Lemma dof6 : 6 <= r_dof_count m.
Proof.
apply: leq_trans (wf_base_dof W) _; rewrite (wf_dof_count W) -{2}(cat_take_drop off.+1 (r_dofs _)) sumn_cat.
exact: leq_addr.
Qed.

Theorem add_revolute : exists s', [/\ AddLinkTo join s p name JRevolute f b = Some s',
   wf bmass off (repaired s' j b), st_joints s' = st_joints s, st_total_mass s' = st_total_mass s &
   st_link_num s' = st_link_num s] /\ size (st_links s') = n.+1 /\ par s' n = p /\
   forall k, k < n -> par s' k = par s k /\ omap (@l_name B) (get (st_links s') k) = omap (@l_name B) (get (st_links s) k).
Proof.
have [sb sf sl sm sd] := sizes.
have [e1 e2 _ e3] := wf_link W hp.
have hmu : off + p < size (r_mu m) by rewrite sm ltn_add2l.
rewrite /AddLinkTo hp /= e2 /add_body_revolute fresh -/m (wf_mu W hp : get (r_mu m) _ = _) /=.
rewrite ltnNge (leq_trans dof6 (leqnSn _)) /=.
set lp' := MLink _ _ _ (rcons _ _) _ _ _; set nw := MLink _ _ _ [::] _ _ _.
set s' := St _ _ _ _ _ _ _ _ _ _ _ _ _; exists s'.
have szs : size (set_nth lp (st_links s) p lp') = n by rewrite size_set_nth (maxn_idPr pn).
have gl k : get (st_links s') k = if k == n then Some nw else if k == p then Some lp' else get (st_links s) k.
  by rewrite /s' /= get_rcons szs get_set.
have parN : par s' n = p by rewrite /par gl eqxx.
have parE k : k < n -> par s' k = par s k.
  by move=> hk; rewrite /par gl (_ : k == n = false); [case: eqP => // ->; rewrite hp|lia].
have sz' : size (st_links s') = n.+1 by rewrite /s' /= size_rcons szs.
split; last first.
  split=> //; split=> // k hk; split; first exact: parE.
  by rewrite gl (_ : k == n = false); [case: eqP => // ->; rewrite hp|lia].
have parR k : par (repaired s' j b) k = par s' k by [].
have iotaE : iota 1 n = rcons (iota 1 n.-1) n.
  exact: iota_rcons (leq_ltn_trans (leq0n p) pn).
have childs k : k < n -> [seq i <- iota 1 n | par s' i == k] =
    if k == p then rcons [seq i <- iota 1 n.-1 | par s i == k] n else [seq i <- iota 1 n.-1 | par s i == k].
  move=> hk; rewrite iotaE filter_rcons parN (eq_sym p k).
  by rewrite (@eq_in_filter _ _ (fun i => par s i == k)) // => i; rewrite mem_iota => hi; rewrite parE //; lia.
split=> //; split.
- move=> k l; rewrite [st_links _]/= -/(st_links s') gl sz' /=.
  case: (eqVneq k n) => [-> [<-]|kn].
    split=> //; rewrite /= ?sb //; first by rewrite (leq_ltn_trans (leq0n p) pn).
    apply/esym/eqP; rewrite -(negbK (_ == _)) -has_filter -all_predC; apply/allP => i; rewrite mem_iota /= => hi.
    rewrite parR; case: (ltngtP i n) hi => [hi _|hi hi'|-> _]; [|lia|by rewrite parN; move: pn; lia].
    by rewrite parE //; have := par_le i W; lia.
  case: (eqVneq k p) => [-> [<-]|kp hk].
    have [_ _ h _] := wf_link W hp; split=> //; by rewrite (childs _ pn) eqxx /= e3.
  have kn' : k < n := get_some hk; have [h1 h2 h3 h4] := wf_link W hk; split=> //.
  by rewrite (childs _ kn') (negPf kp).
- by rewrite sz' /= size_rcons (wf_joints W).
- rewrite /= (wf_mass W) -cats1 big_cat /= big_cons big_nil GRing.addr0; congr (_ + _)%R.
  rewrite -(big_map (fun l : mlink B => bmass (l_bd l)) xpredT ssrfun.id) -[RHS](big_map (fun l : mlink B => bmass (l_bd l)) xpredT ssrfun.id).
  congr (bigop _ _ _); apply: eq_get => k; rewrite !get_map get_set //; case: eqP => // ->; by rewrite hp.
- move=> k l; rewrite [st_links _]/= -/(st_links s') gl /= lookup_rcons //.
  case: (eqVneq k n) => [-> [<-]|kn]; first by rewrite /= String.eqb_refl -sb.
  case: (eqVneq k p) => [-> [<-]|kp hk] /=.
    rewrite (wf_names W hp); case: ifP => // /String.eqb_eq e; by move: fresh; rewrite e (wf_names W hp).
  rewrite (wf_names W hk); case: ifP => // /String.eqb_eq e; by move: fresh; rewrite e (wf_names W hk).
- move=> k l; rewrite [st_links _]/= -/(st_links s') gl /= get_rcons sb eqn_add2l.
  case: (eqVneq k n) => [e [<-] //|kn]; case: (eqVneq k p) => [-> [<-]|kp hk] /=; last exact: (wf_bodies W hk).
  exact: (wf_bodies W hp).
- move=> k l; rewrite [st_links _]/= -/(st_links s') gl /= get_rcons sl eqn_add2l.
  case: (eqVneq k n) => [e [<-] //|kn]; case: (eqVneq k p) => [-> [<-]|kp hk] k0 /=; last exact: (wf_lambda W hk).
  exact: (wf_lambda W hp).
- move=> k l; rewrite [st_links _]/= -/(st_links s') gl /= get_rcons size_set_nth (maxn_idPr hmu) sm eqn_add2l.
  case: (eqVneq k n) => [e [<-] //|kn]; rewrite get_set // eqn_add2l; case: (eqVneq k p) => [_ [<-]|kp hk] /=; last exact: (wf_mu W hk).
  by rewrite map_rcons sb.
- move=> N ->; rewrite [st_links _]/= -/(st_links s') sz' /= !size_rcons size_set_nth (maxn_idPr hmu) sb sf sl sm sd addnS.
  by [].
- move=> x hx y; rewrite /= get_rcons sl; case: eqP => [e|_]; last exact: (wf_base W hx).
  by move: hx; rewrite e; move: pn; lia.
- move=> x hx y; rewrite /= get_rcons size_set_nth (maxn_idPr hmu) sm; case: eqP => [e|_].
    by move: hx; rewrite e; lia.
  rewrite get_set //; case: eqP => [e|_]; last exact: (wf_base_mu W hx).
  by move: hx; rewrite e; lia.
- rewrite [st_links _]/= -/(st_links s') sz' /= (wf_q_index W) -/n addnS; apply: eq_get => k.
  rewrite get_rcons size_mkseq !(getE 0) !size_mkseq ltnS; case: (ltngtP k (off + n)) => [hk||->] //.
    by rewrite !nth_mkseq //; [rewrite -cats1 take_cat sd hk|exact: ltnW].
  rewrite nth_mkseq // -cats1 take_cat sd ltnn subnn take0 cats0.
  by rewrite (wf_dof_count W).
- by rewrite /= sumn_rcons (wf_dof_count W) addn1.
- rewrite /= -cats1 take_cat sd; case: (ltnP off.+1 (off + n)) => h; first exact: (wf_base_dof W).
  have := wf_base_dof W; rewrite (take_oversize (n := off.+1)) ?sd // => h2.
  by rewrite sumn_cat; apply: leq_trans h2 (leq_addr _ _).
- move=> k d k0; rewrite /= get_rcons sd; case: eqP => [_ [<-] //|_]; exact: (wf_dof W k0).
Qed.
End Add.

(* ChangeLinkToFixedJoint on a leaf *)
Section Fix.
Hypothesis join_mass : forall a b f, (bmass (join a b f) = bmass a + bmass b)%R.

Lemma big_set_nth (t : seq (mlink B)) d p x l : get t p = Some l ->
  (\sum_(y <- set_nth d t p x) bmass (l_bd y) = \sum_(y <- t) bmass (l_bd y) - bmass (l_bd l) + bmass (l_bd x))%R.
Proof.
elim: t p => [|y t IH] [|p] //=.
- by move=> [->]; rewrite !big_cons [in RHS](GRing.addrAC (bmass (l_bd l))) GRing.subrr GRing.add0r GRing.addrC.
- by move=> /IH e; rewrite !big_cons e !GRing.addrA.
Qed.

Theorem change_fixed s a l name s' : wf bmass off s -> 0 < a -> get (st_links s) a = Some l -> l_child l = [::] ->
  Con_Model.find_link (link_names s) name = Some a ->
  ChangeLinkToFixedJoint bmass join s name = Some s' ->
  [/\ (st_total_mass s' = st_total_mass s - bmass (l_bd l))%R,
      (\sum_(y <- st_links s') bmass (l_bd y) = \sum_(y <- st_links s) bmass (l_bd y))%R,
      size (st_links s') = (size (st_links s)).-1 &
      exists fr j, [/\ get (st_joints s) a = Some j, j_parent j = Some fr,
        (forall k lk, k != l_parent l -> get (st_links s) (bump a k) = Some lk -> omap (@l_bd B) (get (st_links s') k) = Some (l_bd lk)) &
        (forall lp, get (st_links s) (l_parent l) = Some lp -> omap (@l_bd B) (get (st_links s') (l_parent l)) = Some (join (l_bd lp) (l_bd l) fr))]].
Proof.
move=> W a0 ha hc hf; rewrite /ChangeLinkToFixedJoint hf /= ha /=.
case hj: (get (st_joints s) a) => [j|] //=; rewrite /DeleteLinkByName hf /= ha /= hc.
rewrite (delete_bodyE W ha a0) [obind _ (Some _)]/=; case hs: (mod_delete _ _ _ _) => [s1|] //=.
have W1 := wf' W ha a0 hc hs; have [z1 _ r1] := rel' W ha a0 hc hs; have [_ _ m1 _ _] := s'E W ha hs.
case hfr: (j_parent j) => [fr|] //=; rewrite /AddLinkTo.
case hp: (get (st_links s1) (l_parent l)) => [lp|] //=.
have [_ -> _ _] := wf_link W1 hp.
rewrite /add_body_fixed; case: (lookup _ _) => //; rewrite (wf_bodies W1 hp) /=.
have hb : off + l_parent l < size (r_bodies (st_model s1)) := get_some (wf_bodies W1 hp).
rewrite get_set // eqxx /=; case: ifP => // _ [<-] /=.
have pa : l_parent l < a by have [_ _ + _] := wf_link W ha; rewrite a0.
have bp : bump a (l_parent l) = l_parent l by rewrite /bump; lia.
split=> //.
- rewrite (big_set_nth _ _ hp) /= join_mass [(bmass _ + _)%R]GRing.addrC GRing.addrA.
  by rewrite -(wf_mass W1) m1 -(wf_mass W) (GRing.addrAC _ (- bmass (l_bd lp))%R) !GRing.subrK.
- by rewrite size_set_nth (maxn_idPr (get_some hp)) z1.
- exists fr, j; split=> //.
  + move=> k lk kp hk; rewrite get_set ?(get_some hp) // (negPf kp).
    have hk1 : k < size (st_links s1).
      by rewrite z1; have := get_some hk; have := get_some ha; rewrite /bump; lia.
    case/get_lt: hk1 => l1 h1; rewrite h1 /=; have [l2 [h2 [_ -> _ _ _]]] := r1 _ _ h1.
    by move: h2; rewrite hk => -[->].
  + move=> lq hq; rewrite get_set ?(get_some hp) // eqxx /=.
    by have [l2 [h2 [_ -> _ _ _]]] := r1 _ _ hp; move: h2; rewrite bp hq => -[->].
Qed.
End Fix.
End More.
