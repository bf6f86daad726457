From mathcomp Require Import all_ssreflect all_algebra.
From mathcomp.algebra_tactics Require Import ring.
From Verif Require Import Geo_Model Geo_Spec Geo_Proofs Inr_Model Inr_Spec Inr_Proofs.
Set Implicit Arguments.
Unset Strict Implicit.
Unset Printing Implicit Defensive.
Import Order.TTheory GRing.Theory Num.Theory.
Local Open Scope ring_scope.

Section Onth.
Variables (T : Type) (d : T).
Implicit Types s : seq T.
Lemma onth_nth s i x : onth s i = Some x -> (i < size s)%N /\ nth d s i = x.
Proof.
rewrite /onth -[in nth _ _ _](addn0 i) -nth_drop -subn_gt0 -size_drop.
by case: (drop i s) => //= y s' [->].
Qed.
Lemma nth_onth s i : (i < size s)%N -> onth s i = Some (nth d s i).
Proof.
rewrite /onth -[in nth _ _ _](addn0 i) -nth_drop -subn_gt0 -size_drop.
by case: (drop i s).
Qed.
Lemma onth_rcons s x i : onth (rcons s x) i = if (i < size s)%N then onth s i else if i == size s then Some x else None.
Proof.
case: ltnP => h.
  by rewrite (nth_onth (s := rcons s x)) ?size_rcons ?(ltn_trans h) // nth_rcons h nth_onth.
case: eqP => [->|/eqP ne]; first by rewrite (nth_onth (s := rcons s x)) ?size_rcons // nth_rcons ltnn eqxx.
by rewrite /onth drop_oversize // size_rcons ltn_neqAle eq_sym ne h.
Qed.
End Onth.

Section Tree.
Variable R : realFieldType.
Implicit Types (L links : seq (tlink R)) (b : body R).
Let d0 : tlink R := TLink (Body 0 0 0) None [::] 0 0.

Let onthr := @onth_rcons _ d0.
Lemma set_nth_linkE L p l : (p < size L)%N -> set_nth_link L p l = set_nth d0 L p l.
Proof.
move=> h; apply: (@eq_from_nth _ d0).
  by rewrite size_set_nth size_cat /= size_takel ?(ltnW h) // size_drop addnS -addSn subnKC // (maxn_idPr h).
move=> i _; rewrite nth_set_nth /= nth_cat size_takel ?(ltnW h) //.
case: ltngtP => [hi|hi|->].
- by rewrite nth_take.
- rewrite -[(i - p)%N]prednK ?subn_gt0 //= nth_drop; congr nth.
  by rewrite -subnS subnKC.
- by rewrite subnn.
Qed.

Lemma last_leaf_rcons k L l : child_id l = [::] -> last_leaf k (rcons L l) = Some (k + size L)%N.
Proof.
move=> h; elim: L k => [|l' L IH] k /=; first by rewrite h addn0.
by rewrite IH addSnnS.
Qed.

Lemma wf_parent links i l : well_formed links -> onth links i = Some l -> (0 < i)%N ->
  exists2 p, parent_id l = Some p & (p < i)%N.
Proof. by case=> h _; apply: h. Qed.

Lemma vstep fuel joints L l : (0 < size L)%N -> virtual_loop fuel.+1 joints (rcons L l) =
    match last_leaf 0 (rcons L l) with
      | None => VLoop _
      | Some i =>
          match onth (rcons L l) i, onth joints i with
          | Some li, Some (jr, jt) =>
              match parent_id li with
              | None => VUndefined _
              | Some p =>
                  match onth (rcons L l) p with
                  | None => VUndefined _
                  | Some lp =>
                      match AddLink (tbody lp) (tbody li) jr jt with
                      | None => VUndefined _
                      | Some b =>
                          let lp' := TLink b (parent_id lp) (rem i (child_id lp)) (jrot lp) (jtrans lp) in
                          let links' := set_nth_link (rcons L l) p lp' in
                          virtual_loop fuel joints (take i links' ++ drop i.+1 links')
                      end
                  end
              end
          | _, _ => VUndefined _
          end
      end.
Proof. by case: L => // l0 [|l1 L]. Qed.

Lemma loop_ok (V : zmodType) (f : nat -> body R -> V) joints : forall fuel links,
  (0 < size links)%N -> (size links <= fuel)%N -> well_formed links ->
  (forall i l, onth links i = Some l -> onth joints i = Some (jrot l, jtrans l)) ->
  (forall i l, onth links i = Some l -> 0 < mass (tbody l)) ->
  (forall i l p b1 b2 b, onth links i = Some l -> (0 < i)%N -> parent_id l = Some p ->
     AddLink b1 b2 (jrot l) (jtrans l) = Some b -> f p b = f p b1 + f i b2) ->
  exists b, [/\ virtual_loop fuel joints links = VResult b, 0 < mass b &
    f 0%N b = \sum_(i < size links) f i (tbody (nth d0 links i))].
Proof.
elim=> [|fuel IH] links; first by case: links.
case/lastP: links => // L l _; rewrite size_rcons ltnS => hs wf hj hm hf.
case: (posnP (size L)) => [/size0nil e|sL].
  move: hs wf hj hm hf; rewrite e => _ _ _ hm _; by exists (tbody l); split=> //; [exact: (hm 0%N l)|rewrite big_ord_recl big_ord0 addr0].
have ol : onth (rcons L l) (size L) = Some l by rewrite onthr ltnn eqxx.
have [p hp pL] := wf_parent wf ol sL.
have [_ [wfc wfu]] := wf.
have nochild : child_id l = [::].
  case e: (child_id l) => [//|c cs]; have : c \in child_id l by rewrite e mem_head.
  move/(wfc _ _ c ol) => -[lc [oc c0 pc]].
  have [q hq qc] := wf_parent wf oc c0; move: hq; rewrite pc => -[e']; rewrite -e' in qc.
  by move: oc; rewrite onthr ltnNge (ltnW qc) (gtn_eqF qc).
set lp := nth d0 L p.
have olp : onth L p = Some lp := nth_onth d0 pL.
have orp : onth (rcons L l) p = Some lp by rewrite onthr pL.
have mp : 0 < mass (tbody lp) := hm _ _ orp.
have ml : 0 < mass (tbody l) := hm _ _ ol.
case ea: (AddLink (tbody lp) (tbody l) (jrot l) (jtrans l)) => [b|]; last first.
  by move: ea; rewrite /AddLink; case: eqP => // h; move: (addr_gt0 mp ml); rewrite h ltxx.
have [mb _ _ _] := merge_inertia ea.
set lp' := TLink b (parent_id lp) (rem (size L) (child_id lp)) (jrot lp) (jtrans lp).
set L2 := set_nth d0 L p lp'.
have eloop : virtual_loop fuel.+1 joints (rcons L l) = virtual_loop fuel joints L2.
  rewrite (vstep _ _ _ sL).
  rewrite (last_leaf_rcons 0 L nochild) add0n ol (hj _ _ ol) hp orp ea; cbv zeta.
  rewrite set_nth_linkE ?size_rcons ?(leq_trans pL) // -/lp'.
  set X := set_nth _ _ _ _.
  have sX : size X = (size L).+1 by rewrite size_set_nth size_rcons (maxn_idPr (ltnW (pL : (p.+1 < (size L).+1)%N))).
  rewrite (drop_oversize (n := (size L).+1)) ?sX // cats0; congr virtual_loop.
  apply: (@eq_from_nth _ d0); first by rewrite size_takel ?sX // size_set_nth (maxn_idPr pL).
  move=> i; rewrite size_takel ?sX // => hi; rewrite nth_take // !nth_set_nth /=.
  by case: eqP => // _; rewrite nth_rcons hi.
have sL2 : size L2 = size L by rewrite size_set_nth (maxn_idPr pL).
have on2 i : onth L2 i = if i == p then Some lp' else onth L i.
  case: (ltnP i (size L)) => hi.
    by rewrite !(nth_onth d0) ?sL2 // nth_set_nth /=; case: eqP.
  rewrite /onth !drop_oversize ?sL2 //; case: eqP => // e; move: pL; rewrite -e.
  by rewrite ltnNge hi.
have back i li : onth L2 i = Some li -> exists li', [/\ onth (rcons L l) i = Some li', (i < size L)%N,
    parent_id li' = parent_id li, jrot li' = jrot li & jtrans li' = jtrans li].
  move=> h; have [hi _] := onth_nth d0 h; rewrite sL2 in hi; move: h; rewrite on2 onthr hi.
  by case: eqP => [-> [<-]|_ h]; [exists lp; rewrite olp|exists li].
have wf2 : well_formed L2.
  split; [|split].
  - move=> i li /back [li' [o _ e _ _]] i0; have [q hq qi] := wf_parent wf o i0.
    by exists q => //; rewrite -e.
  - move=> q lq c oq.
    have base lq0 : onth (rcons L l) q = Some lq0 -> (q < size L)%N ->
      (c \in child_id lq0 /\ c != size L) <-> exists lc, [/\ onth L2 c = Some lc, (0 < c)%N & parent_id lc = Some q].
      move=> oq0 hq; split.
        case=> /(wfc _ _ c oq0) [lc [oc c0 pc]] nc; move: oc; rewrite onthr.
        case: ltngtP => // [hc oc|e]; last by rewrite e eqxx in nc.
        rewrite on2; case: (c =P p) => [e|_]; last by exists lc.
        by exists lp'; split=> //=; move: oc; rewrite e olp => -[->].
      case=> lc [oc c0 pc]; have [lc' [oc' hc e _ _]] := back _ _ oc.
      split; last by rewrite neq_ltn hc.
      by apply/(wfc _ _ c oq0); exists lc'; rewrite e.
    have [lq' [oq' hq _ _ _]] := back _ _ oq.
    rewrite -(base _ oq' hq); move: oq; rewrite on2; case: (q =P p) => [e|ne].
      move=> [<-] /=; have -> : lq' = lp by move: oq'; rewrite e orp => -[].
      by rewrite mem_rem_uniq ?(wfu _ _ orp) // inE andbC; split=> [/andP[]|[h1 h2]] //; apply/andP; split.
    move=> oq; have -> : lq' = lq by move: oq'; rewrite onthr hq oq => -[].
    split=> [h|[]//]; split=> //; apply/eqP => ec.
    have oq'' : onth (rcons L l) q = Some lq by rewrite onthr hq.
    move/(wfc _ _ c oq''): h => [lc [oc _ pc]]; move: oc pc; rewrite ec ol => -[<-]; rewrite hp => -[].
    by move/esym.
  - move=> q lq oq; move: (oq); rewrite on2; case: (q =P p) => [_ [<-] /=|_ oq'].
      by apply: rem_uniq; exact: wfu orp.
    by apply: (wfu q); have [lq' [oq2 hq _ _ _]] := back _ _ oq; rewrite onthr hq.
have [] := IH L2.
- by rewrite sL2.
- by rewrite sL2.
- exact: wf2.
- by move=> i li /back [li' [o _ _ <- <-]]; apply: hj.
- move=> i li h; move: (h); rewrite on2; case: eqP => [_ [<-] /=|_ h'].
    by rewrite mb addr_gt0.
  have [li' [o hi _ _ _]] := back _ _ h; apply: (hm i); by rewrite onthr hi.
- move=> i li q b1 b2 b' h i0 hq; have [li' [o _ e <- <-]] := back _ _ h.
  by apply: hf; rewrite ?e.
move=> B [eB mB sB]; exists B; split=> //; first by rewrite eloop.
rewrite sB big_ord_recr /= nth_rcons ltnn eqxx sL2.
have fp : f p b = f p (tbody lp) + f (size L) (tbody l) by apply: (hf _ _ _ _ _ _ ol) ea.
pose P := Ordinal pL.
rewrite (bigD1 P) //= [in RHS](bigD1 P) //= nth_set_nth /= eqxx /= fp.
rewrite [in RHS]nth_rcons pL -/lp -!addrA; congr (_ + _); rewrite addrC; congr (_ + _).
by apply: eq_bigr => i hi; rewrite nth_set_nth /= nth_rcons ltn_ord; case: eqP => // e; case/eqP: hi; apply/val_inj.
Qed.

(* poses are orthogonal *)
Lemma poses_orth links Q x : well_formed links -> poses links Q x ->
  (forall i l, onth links i = Some l -> (jrot l)^T *m jrot l = 1%:M) ->
  forall i, (i < size links)%N -> (Q i)^T *m Q i = 1%:M.
Proof.
move=> wf [q0 [_ hq]] ho; elim/ltn_ind => i IH hi; case: (posnP i) => [->|i0]; first by rewrite q0 trmx1 mul1mx.
have o := nth_onth d0 hi; have [p hp pi] := wf_parent wf o i0.
have [-> _] := hq _ _ _ o i0 hp.
have IHp : (Q p)^T *m Q p = 1%:M by apply: IH => //; exact: ltn_trans hi.
by rewrite trmx_mul -mulmxA (mulmxA (Q p)^T) IHp mul1mx; apply: ho o.
Qed.

Lemma inertia_about_moved b Q x p : Q^T *m Q = 1%:M ->
  inertia_about (moved b Q x) p = Q *m inertia_about b (Q^T *m (p - x)) *m Q^T.
Proof.
move=> h; have h' := mulmx1C h; rewrite /inertia_about /moved /= mulmxDr mulmxDl -scalemxAr -scalemxAl; congr (_ + _ *: _).
have -> : Q *m com b + x - p = Q *m (com b - Q^T *m (p - x)) by rewrite mulmxBr mulmxA h' mul1mx opprB addrA addrAC.
move: (com b - _) => u; rewrite /point_inertia mulmxBr mulmxBl trmx_mul -!mulmxA (mulmxA Q^T) h mul1mx.
by rewrite -scalemxAl mul1mx -scalemxAr h' !mulmxA.
Qed.
Lemma moved_moved b J t Q x : moved (moved b J t) Q x = moved b (Q *m J) (Q *m t + x).
Proof. by rewrite /moved /= mulmxDr trmx_mul !mulmxA !addrA. Qed.
End Tree.
