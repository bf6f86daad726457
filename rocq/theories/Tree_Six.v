(* C170: AddLink with a floating (six degree of freedom) joint. *)
From Coq Require Import String.
From mathcomp Require Import all_ssreflect all_algebra zify.
From Verif Require Con_Model.
From Verif Require Import Tree_Model Tree_Spec Tree_Proofs Tree_Thm Tree_Init Tree_More Tree_Ex Tree_Props.
Set Implicit Arguments.
Unset Strict Implicit.
Unset Printing Implicit Defensive.
Local Open Scope string_scope.
Local Open Scope seq_scope.

Section Six.
Variable R : zmodType.
(* as in Tree_Model; null is RBDL's massless Body(0, 0, 0), idT the identity SpatialTransform() *)
Variables (B T : Type) (bmass : B -> R) (join : B -> B -> T -> B) (null : B) (idT : T).
Local Notation state := (state R B T).
Local Notation rbdl := (rbdl B T).

(* rbdl Model::AddBody (external) for an unnamed body on a one-degree-of-freedom joint *)
Definition add_body_unnamed (m : rbdl) (parent : nat) (frame : T) (b : B) : option rbdl :=
  obind (fun mup =>
    let id := size (r_bodies m) in
    Some (Rbdl (rcons (r_bodies m) b) (rcons (r_frames m) frame) (rcons (r_lambda m) parent)
               (rcons (set_nth [::] (r_mu m) parent (rcons mup id)) [::]) (rcons (r_dofs m) 1%N)
               (rcons (r_q_index m) (r_dof_count m)) (r_names m) (r_dof_count m).+1 (r_disc m) (r_nfixed m)))
  (get (r_mu m) parent).
(* rbdl Model::AddBody (external) for a joint built from several axes: one massless body per axis but the last, each on
   its own one-degree-of-freedom joint (only the first carries the joint frame), then the body itself.  k: massless
   bodies still to be added *)
Fixpoint add_body_axes (k : nat) (m : rbdl) (parent : nat) (frame : T) (b : B) (name : string) : option rbdl :=
  if k is k'.+1 then obind (fun m' => add_body_axes k' m' (size (r_bodies m)) idT b name) (add_body_unnamed m parent frame null)
  else add_body_revolute m parent frame b name.
(* src/dwbc.cpp:2125-2145 (the joint has six axes) with InitAfterModelMod 2152-2162, 2317-2358.  body_id_ is
   previously_added_body_id, the last body.  joint_, total_mass_ and link_num_ are not touched. *)
Definition AddLinkFloating (s : state) (parent : nat) (name : string) (frame : T) (b : B) : option state :=
  obind (fun lp =>
  obind (fun m =>
  if (r_dof_count m < 6)%N then None else
  let added := size (st_links s) in
  let lp' := MLink (l_name lp) (l_body lp) (l_parent lp) (rcons (l_child lp) added) (l_id lp) (l_orig lp) (l_bd lp) in
  let new := MLink name (size (r_bodies m)).-1 parent [::] added added b in
  Some (St (rcons (set_nth lp (st_links s) parent lp') new) (st_joints s) (st_tasks s) (st_qp s) (st_contacts s)
           (st_total_mass s) (st_com_mass s) (st_link_num s) (r_dof_count m) (r_dof_count m - 6)
           (nseq (r_dof_count m - 6) 0%R) (st_limit_set s) m))
  (add_body_axes 5 (st_model s) (l_body lp) frame b name))
  (get (st_links s) parent).

(* what the RBDL part should do: k massless bodies in a chain below parent, then the body; the rest unchanged *)
Definition chain_added (k : nat) (m m' : rbdl) (parent : nat) (b : B) (name : string) : Prop :=
  let n := size (r_bodies m) in
  [/\ r_bodies m' = r_bodies m ++ rcons (nseq k null) b,
      r_lambda m' = r_lambda m ++ parent :: iota n k,
      r_dofs m' = r_dofs m ++ nseq k.+1 1%N,
      r_dof_count m' = (r_dof_count m + k.+1)%N &
      [/\ r_names m' = rcons (r_names m) (name, (n + k)%N), size (r_mu m') = (size (r_mu m) + k.+1)%N,
          size (r_frames m') = (size (r_frames m) + k.+1)%N & r_q_index m' = r_q_index m ++ iota (r_dof_count m) k.+1]].

Lemma axes_ok k (m : rbdl) parent f b name : lookup (r_names m) name = None -> parent < size (r_mu m) ->
  size (r_mu m) = size (r_bodies m) ->
  exists2 m', add_body_axes k m parent f b name = Some m' & chain_added k m m' parent b name.
Proof.
elim: k m parent f => [|k IH] m parent f fr hp sz.
  rewrite /= /add_body_revolute fr (getE [::]) hp /=; eexists; first by [].
  split=> //=; rewrite ?cats1 ?addn1 ?addn0 //; last first.
  by split=> //; rewrite ?cats1 ?addn1 ?size_rcons ?size_set_nth ?(maxn_idPr hp).
rewrite /= /add_body_unnamed (getE [::]) hp /=; set m1 := Rbdl _ _ _ _ _ _ _ _ _ _.
have s1 : size (r_mu m1) = (size (r_mu m)).+1 by rewrite /= size_rcons size_set_nth (maxn_idPr hp).
have b1 : size (r_bodies m1) = (size (r_bodies m)).+1 by rewrite /= size_rcons.
have [|||m' e [h1 h2 h3 h4 [h5 h6 h7 h8]]] := IH m1 (size (r_bodies m)) idT.
- by [].
- by rewrite s1 sz.
- by rewrite s1 b1 sz.
exists m' => //; split.
- by rewrite h1 /= cat_rcons.
- by rewrite h2 b1 /= cat_rcons.
- by rewrite h3 /= cat_rcons.
- by rewrite h4 /= addSnnS.
split.
- by rewrite h5 b1 addSnnS.
- by rewrite h6 s1 addSnnS.
- by rewrite h7 /= size_rcons addSnnS.
by rewrite h8 /= cat_rcons.
Qed.

Lemma obindS (A C : Type) (g : A -> option C) a : obind g (Some a) = g a.
Proof. by []. Qed.

Lemma bindI (A C : Type) (g : A -> option C) o y : obind g o = Some y -> exists2 a, o = Some a & g a = Some y.
Proof. by case: o => //= a h; exists a. Qed.

Section Add.
Variables (off : nat) (s : state) (p : nat) (lp : mlink B) (name : string) (f : T) (b : B).
Hypothesis W : wf bmass off s.
Hypothesis hp : get (st_links s) p = Some lp.
Hypothesis fresh : lookup (r_names (st_model s)) name = None.
Let n := size (st_links s).

(* C170, what holds: the link is appended below its parent, with six more degrees of freedom; no other link changes
   but for the parent's list of children *)
Theorem C170_added_partial : exists s', [/\ AddLinkFloating s p name f b = Some s',
    chain_added 5 (st_model s) (st_model s') (l_body lp) b name,
    size (st_links s') = n.+1 /\ get (st_links s') n = Some (MLink name (off + n + 5) p [::] n n b),
    forall k l, get (st_links s) k = Some l -> get (st_links s') k = Some (MLink (l_name l) (l_body l) (l_parent l)
      (if k == p then rcons (l_child l) n else l_child l) (l_id l) (l_orig l) (l_bd l)) &
    [/\ st_system_dof s' = (r_dof_count (st_model s) + 6)%N, st_model_dof s' = r_dof_count (st_model s),
        st_joints s' = st_joints s, st_total_mass s' = st_total_mass s & st_tasks s' = st_tasks s /\ st_contacts s' = st_contacts s]].
Proof.
have pn : p < n := get_some hp.
have [sb sf sl sm sd] := wf_sizes W (erefl _).
have [e1 e2 _ e3] := wf_link W hp.
have hb : l_body lp < size (r_mu (st_model s)) by rewrite e2 sm ltn_add2l.
have [|m' e ch] := axes_ok 5 f b fresh hb; first by rewrite sm sb.
have [c1 c2 c3 c4 _] := ch.
rewrite /AddLinkFloating hp obindS e obindS c4 ltnNge leq_addl /=.
eexists; split; [by []|by []| | |by split=> //; rewrite /= ?addnK].
  rewrite /= size_rcons size_set_nth (maxn_idPr pn); split=> //.
  rewrite get_rcons size_set_nth (maxn_idPr pn) eqxx; congr (Some (MLink _ _ _ _ _ _ _)).
  by rewrite c1 size_cat size_rcons size_nseq sb -/n; lia.
move=> k l hk; rewrite /= get_rcons size_set_nth (maxn_idPr pn) (_ : k == n = false); last by have := get_some hk; rewrite -/n; lia.
rewrite get_set //; case: eqP => [kp|_]; last by rewrite hk; case: (l).
by move: hk; rewrite kp hp => -[->].
Qed.

(* C170 refuted: no joint, no mass, and deleting the link just added is undefined *)
Theorem C170_floating_refuted : exists s', [/\ AddLinkFloating s p name f b = Some s', ~ wf bmass off s',
    st_total_mass s' = st_total_mass s, forall fuel, DeleteLink bmass fuel s' n = None & forall x, record_frames s' x = None].
Proof.
have [s' [e ch [h1 h2] h3 [_ _ h4 h5 _]]] := C170_added_partial; exists s'; split=> //.
- by move=> W'; have := wf_joints W'; rewrite h4 h1 (wf_joints W) -/n; lia.
- case=> //= fuel; rewrite h2 /=; case: (delete_body _ _) => //= m1; rewrite /mod_delete h2 /=.
  case: ifP => // _; case: (erase (st_links s') n) => //= lk; by rewrite /erase h4 (wf_joints W) ltnn.
by move=> x; rewrite /record_frames h4 h1 (wf_joints W) ltnSn.
Qed.

(* even with the joint and the mass added, deleting the link takes one of the six degrees of freedom away and leaves the
   five massless bodies *)
Theorem C170_leftover_refuted s' j fuel s2 : AddLinkFloating s p name f b = Some s' ->
  DeleteLink bmass fuel (repaired bmass s' j b) n = Some s2 ->
  st_system_dof s2 = (r_dof_count (st_model s) + 5)%N /\ r_bodies (st_model s2) = r_bodies (st_model s) ++ nseq 5 null.
Proof.
have [s0 [e ch [h1 h2] h3 [_ _ h4 h5 _]]] := C170_added_partial; rewrite e => -[<-]; rewrite {s'}.
have [sb sf sl sm sd] := wf_sizes W (erefl _).
case: ch => c1 c2 c3 c4 [c5 c6 c7 c8].
case: fuel => //= fuel; rewrite h2 /= /delete_body c5 lookup_rcons // String.eqb_refl /= sb -/n.
have ed : get (r_dofs (st_model s) ++ nseq 6 1) (off + n + 5) = Some 1.
  by rewrite (getE 0) size_cat size_nseq sd -/n ltn_add2l /= nth_cat sd -/n ltnNge leq_addr /= addKn.
rewrite c3 ed obindS.
have eb : erase (r_bodies (st_model s) ++ rcons (nseq 5 null) b) (off + n + 5) = Some (r_bodies (st_model s) ++ nseq 5 null).
  rewrite /erase size_cat sb -/n ltn_add2l /= take_cat drop_cat sb -/n !ltnNge leq_addr ltnW /=; last by rewrite ltnS leq_addr.
  by rewrite addKn -addnS addKn /= cats0.
rewrite ltnNge c4 (leq_trans _ (leq_addl _ _)) // c1 eb.
move=> h; have [m2 hb hm] := bindI h; rewrite /= in hb.
have [pa _ h0] := bindI hb; have [mup _ h6] := bindI h0; have [fs _ h7] := bindI h6.
have [mu _ h8] := bindI h7; have [la _ h9] := bindI h8; have [q _ h10] := bindI h9; have [qs _ h11] := bindI h10.
have [ds _ [em]] := bindI h11.
move: hm; rewrite /mod_delete [st_links _]/= h2 obindS; case: ifP => // _ hm.
have [lk _ h12] := bindI hm; have [js _ h13] := bindI h12; have [tq _ [<-]] := bindI h13; rewrite -em /=; split=> //; lia.
Qed.
End Add.
End Six.

Example C170_ex : wf bm 2 s_plain /\ (exists lp, get (st_links s_plain) 3 = Some lp) /\
  lookup (r_names (st_model s_plain)) "ball" = None /\
  exists s' s2, AddLinkFloating 0%R tt s_plain 3 "ball" tt 7%:Z%R = Some s' /\
    DeleteLink bm 1 (repaired bm s' (MJoint tt None 0) 7%:Z%R) (size (st_links s_plain)) = Some s2 /\
    st_system_dof s2 = (st_system_dof s_plain + 5)%N.
Proof.
split; first by have [] := C49_ex.
by split; [eexists; vm_compute|split=> //; eexists; eexists; split; [vm_compute; reflexivity|split; [vm_compute; reflexivity|]]].
Qed.
Print Assumptions C170_added_partial.
Print Assumptions C170_floating_refuted.
Print Assumptions C170_leftover_refuted.
