(* C49 - C52, C75 - C79: modifying the link tree. *)
From Coq Require Import String.
From mathcomp Require Import all_ssreflect all_algebra zify.
From Verif Require Con_Model.
From Verif Require Import Tree_Model Tree_Spec Tree_Proofs Tree_Thm Tree_Init Tree_More Tree_Ex.
Set Implicit Arguments.
Unset Strict Implicit.
Unset Printing Implicit Defensive.
Local Open Scope string_scope.

Section Props.
Variable R : zmodType.
Variables (B T : Type) (bmass : B -> R) (join : B -> B -> T -> B).
Local Notation state := (state R B T).

(* C49.  Whenever DeleteLink returns, exactly the links a and below are gone, the rest is the old tree
   renumbered, link tree and RBDL model still agree (in particular total_mass_ is the sum of the remaining
   masses), and the COM entry carries the new total mass *)
Theorem C49_delete off fuel (s s' : state) a : wf bmass off s -> 0 < a ->
  DeleteLink bmass fuel s a = Some s' ->
  [/\ wf bmass off s', pruned s s' a & st_com_mass s' = Some (st_total_mass s')].
Proof. by move=> W a0 /(DeleteLink_correct W a0) []. Qed.

(* it does return when no task refers to the link or to a later one *)
Theorem C49_returns off (s : state) a : wf bmass off s -> 0 < a < size (st_links s) ->
  (forall t, List.In t (st_tasks s) -> all (fun x => x < a) (t_links t)) ->
  exists s', DeleteLink bmass (size (st_links s)).+1 s a = Some s'.
Proof.
move=> W /andP [a0 an] ht; have [|s' [h _]] := DeleteLink_total (fuel := (size (st_links s)).+1) W a0 an _ ht; first by lia.
by exists s'.
Qed.

(* by name: the first link whose name matches up to case; an unknown name changes nothing *)
Theorem C49_by_name (s : state) name :
  (forall x, List.In x (link_names s) -> Con_Model.strcaseeq x name = false) -> DeleteLinkByName bmass s name = Some s.
Proof. by move=> h; rewrite /DeleteLinkByName /Con_Model.find_link find_link_miss. Qed.
Theorem C49_name_found (s s' : state) name : DeleteLinkByName bmass s name = Some s' ->
  s' = s \/ exists a x, [/\ get (link_names s) a = Some x, Con_Model.strcaseeq x name &
    DeleteLink bmass (size (st_links s)).+1 s a = Some s'].
Proof.
rewrite /DeleteLinkByName; case e: (Con_Model.find_link _ _) => [a|] => [h|[->]]; last by left.
by have [_ [x + hx]] := find_link_fromP e; rewrite subn0 => hg; right; exists a, x.
Qed.

(* C50, the part that holds: contacts and tasks on links before the deleted one *)
Theorem C50_earlier_partial off (s : state) a : wf bmass off s -> 0 < a < size (st_links s) ->
  (forall t, List.In t (st_tasks s) -> all (fun x => x < a) (t_links t)) ->
  exists s', [/\ DeleteLink bmass (size (st_links s)).+1 s a = Some s', st_tasks s' = st_tasks s,
    st_contacts s' = st_contacts s &
    forall x l, x < a -> get (st_links s) x = Some l -> omap (@l_name B) (get (st_links s') x) = Some (l_name l)].
Proof.
move=> W /andP [a0 an] ht.
have [|s' [h [e1 e2]]] := DeleteLink_total (fuel := (size (st_links s)).+1) W a0 an _ ht; first by lia.
have [g1 _ _ _ _] := DeleteLink_frame h; have [_ W' [f [mf sf jf rf]] _] := DeleteLink_correct W a0 h.
exists s'; split=> // x l xa hx.
have [fx /get_lt [l' hl']] := phi_fix W mf sf xa (get_some hx).
have [l2 [h2 [e _ _ _ _]]] := rf _ _ hl'; rewrite fx hx in h2; rewrite hl' /= e.
by case: h2 => <-.
Qed.

(* C51: what every deletion does to the torque limit *)
Theorem C51_delete_zeroes_partial fuel (s s' : state) a : DeleteLink bmass fuel s a = Some s' ->
  st_limit_set s' = st_limit_set s /\ st_limit s' = nseq (st_model_dof s') 0%R.
Proof. by move=> /DeleteLink_frame []. Qed.

(* C52: for a leaf, the parent becomes the union with the link at the frame recorded by the last
   UpdateKinematics, all other links keep their bodies, the masses still add up - but total_mass_ does not *)
Theorem C52_bodies_partial off (s s' : state) a l name :
  (forall a b f, (bmass (join a b f) = bmass a + bmass b)%R) ->
  wf bmass off s -> 0 < a -> get (st_links s) a = Some l -> l_child l = [::] ->
  Con_Model.find_link (link_names s) name = Some a ->
  ChangeLinkToFixedJoint bmass join s name = Some s' ->
  [/\ (\sum_(y <- st_links s') bmass (l_bd y) = \sum_(y <- st_links s) bmass (l_bd y))%R,
      (st_total_mass s' = st_total_mass s - bmass (l_bd l))%R &
      exists fr j, [/\ get (st_joints s) a = Some j, j_parent j = Some fr,
        (forall k lk, k != l_parent l -> get (st_links s) (bump a k) = Some lk -> omap (@l_bd B) (get (st_links s') k) = Some (l_bd lk)) &
        (forall lp, get (st_links s) (l_parent l) = Some lp -> omap (@l_bd B) (get (st_links s') (l_parent l)) = Some (join (l_bd lp) (l_bd l) fr))]].
Proof. by move=> jm W a0 ha hc hf h; have [h1 h2 _ h3] := change_fixed jm W a0 ha hc hf h. Qed.

(* C75: the base cannot be deleted (a floating-base model is left with fewer than six coordinates) and the
   COM entry has no body: both runs end in undefined behaviour *)
Theorem C75_base_refuted off fuel (s : state) : wf bmass off s -> sumn (take off (r_dofs (st_model s))) < 6 ->
  DeleteLink bmass fuel s 0 = None.
Proof. exact: delete_root_none. Qed.
Theorem C75_com_refuted (s : state) :
  (forall x, List.In x [seq l_name l | l <- st_links s] -> Con_Model.strcaseeq x "COM" = false) ->
  DeleteLinkByName bmass s "COM" = None.
Proof. exact: delete_com_none. Qed.

(* C77: link_num_ is never updated *)
Theorem C77_link_num fuel (s s' : state) a : DeleteLink bmass fuel s a = Some s' -> st_link_num s' = st_link_num s.
Proof. by move=> /DeleteLink_frame []. Qed.

(* C78: AddLink with a revolute joint; with a joint and the mass added the result would be well formed *)
Theorem C78_add_revolute_partial off (s : state) p lp name f b j : wf bmass off s ->
  get (st_links s) p = Some lp -> lookup (r_names (st_model s)) name = None ->
  exists s', [/\ AddLinkTo join s p name JRevolute f b = Some s', wf bmass off (repaired bmass s' j b) &
    size (st_links s') = (size (st_links s)).+1 /\ par s' (size (st_links s)) = p].
Proof.
by move=> W hp fr; have [s' [[h1 h2 _ _ _] [h3 [h4 _]]]] := @add_revolute _ _ _ bmass join off s p lp name f b j W hp fr; exists s'.
Qed.
(* ... but it has neither, and deleting the link just added is undefined *)
Theorem C78_add_revolute_refuted off (s : state) p lp name f b : wf bmass off s ->
  get (st_links s) p = Some lp -> lookup (r_names (st_model s)) name = None ->
  exists s', [/\ AddLinkTo join s p name JRevolute f b = Some s', ~ wf bmass off s', st_total_mass s' = st_total_mass s &
    forall fuel, DeleteLink bmass fuel s' (size (st_links s)) = None].
Proof.
move=> W hp fr.
have [s' [[h1 h2 h3 h4 _] [h5 [h6 _]]]] := @add_revolute _ _ _ bmass join off s p lp name f b (MJoint f None 0) W hp fr.
exists s'; split=> //.
- by move=> W'; have := wf_joints W'; rewrite h3 h5 (wf_joints W); lia.
case=> // fuel /=; have [|l hl] := @get_lt _ (st_links s') (size (st_links s)); first by rewrite h5.
rewrite hl /=.
have hc : l_child l = [::].
  have [_ _ _ ->] := @wf_link _ _ _ _ _ _ h2 _ _ hl; rewrite /= h5 /=.
  apply/eqP; rewrite -(negbK (_ == _)) -has_filter -all_predC; apply/allP => i; rewrite mem_iota /= => hi.
  have := par_le i h2; have := par_lt (k := i) h2; rewrite -[par (repaired _ _ _ _) i]/(par s' i); lia.
rewrite hc; case: (delete_body _ _) => //= m; rewrite /mod_delete hl /=.
case: ifP => // _; rewrite (erase_lt (s := st_links s')) ?h5 //= /erase h3 (wf_joints W) ltnn.
by [].
Qed.

(* C79: the first load of a model whose bodies past the base all carry mass *)
Theorem C79_init_partial off (s0 : state) m nm : rbdl_tree bmass off m nm -> st_joints s0 = [::] ->
  exists s, [/\ InitModelData bmass s0 true m nm = Some s, wf bmass off s, size (st_links s) = (size (r_bodies m) - off)%N,
   (forall k l j, get (st_links s) k = Some l -> get (st_joints s) k = Some j -> j_id j = sumn (take (off + k) (r_dofs m))) &
   st_link_num s = size (st_links s) /\ st_system_dof s = st_model_dof s + 6].
Proof. by move=> H h; have [s [h1 h2 h3 h4 [h5 h6]]] := InitModelData_wf H h; exists s; rewrite h3 h5. Qed.
End Props.

(* Witnesses *)
Definition run (o : option (state ZM int unit)) : state ZM int unit := odflt empty o.
Lemma runP o : isSome o -> o = Some (run o).
Proof. by case: o. Qed.
Definition s_plain := ex_state None [::] [::] [::] [::] false.
Example C49_ex : wf bm 2 s_plain /\ 0 < 1 < size (st_links s_plain) /\
  omap (fun s => [seq (l_name l, l_id l, l_parent l, l_child l, l_body l) | l <- st_links s]) (DeleteLinkByName bm s_plain "x")
  = Some [:: ("base", 0, 0, [:: 1], 2); ("y", 1, 0, [::], 3)].
Proof. by split; [exact: ex_wf|]. Qed.

(* C50 refuted: a contact on y designates c2 after c1 is deleted *)
Definition name_at (s : state ZM int unit) (i : nat) : option string := get (link_names s) i.
Theorem C50_contact_refuted : exists (s s' : state ZM int unit) c, [/\ wf bm 2 s, st_contacts s = [:: c], DeleteLinkByName bm s "c1" = Some s',
  st_contacts s' = [:: c] & name_at s c = Some "y" /\ name_at s' c = Some "c2"].
Proof.
exists (ex_state None [::] [::] [:: 3] [::] false), (run (DeleteLinkByName bm (ex_state None [::] [::] [:: 3] [::] false) "c1")), 3.
by split; [exact: ex_wf| |apply: runP; vm_compute; reflexivity|vm_compute; reflexivity|split; vm_compute; reflexivity].
Qed.
(* a task on y does too *)
Theorem C50_task_refuted : exists (s s' : state ZM int unit) t, [/\ wf bm 2 s, st_tasks s = [:: MTask 0 [:: t]], DeleteLinkByName bm s "c1" = Some s',
  st_tasks s' = [:: MTask 0 [:: t]] & name_at s t = Some "y" /\ name_at s' t = Some "c2"].
Proof.
exists (ex_state None [:: MTask 0 [:: 3]] [:: 0] [::] [::] false), (run (DeleteLinkByName bm (ex_state None [:: MTask 0 [:: 3]] [:: 0] [::] [::] false) "c1")), 3.
by split; [exact: ex_wf| |apply: runP; vm_compute; reflexivity|vm_compute; reflexivity|split; vm_compute; reflexivity].
Qed.
(* deleting X, the task on y is removed although y stays *)
Theorem C50_unrelated_task_refuted : exists s s' : state ZM int unit, [/\ wf bm 2 s, st_tasks s = [:: MTask 0 [:: 3]; MTask 1 [:: 0]],
  DeleteLinkByName bm s "X" = Some s', st_tasks s' = [:: MTask 0 [:: 0]] & name_at s 3 = Some "y" /\ name_at s' 1 = Some "y"].
Proof.
exists (ex_state None [:: MTask 0 [:: 3]; MTask 1 [:: 0]] [:: 0; 1] [::] [::] false), (run (DeleteLinkByName bm (ex_state None [:: MTask 0 [:: 3]; MTask 1 [:: 0]] [:: 0; 1] [::] [::] false) "X")).
by split; [exact: ex_wf| |apply: runP; vm_compute; reflexivity|vm_compute; reflexivity|split; vm_compute; reflexivity].
Qed.
(* when the lowest-priority task is on the deleted link, the run is undefined *)
Theorem C50_last_task_refuted : exists s : state ZM int unit, [/\ wf bm 2 s, st_tasks s = [:: MTask 0 [:: 4]] & DeleteLinkByName bm s "c2" = None].
Proof.
exists (ex_state None [:: MTask 0 [:: 4]] [:: 0] [::] [::] false).
by split; [exact: ex_wf| |vm_compute].
Qed.
Example C50_ex : wf bm 2 (ex_state None [:: MTask 0 [:: 1; 2]] [:: 0] [:: 2] [::] false) /\ 0 < 3 < 5.
Proof. by split; [exact: ex_wf|]. Qed.

(* C51 refuted: the user's limit 5 for the remaining joints has become 0, and is still in force *)
Theorem C51_refuted : exists s s' : state ZM int unit, [/\ wf bm 2 s, st_limit s = nseq 4 (5 : ZM)%R, st_limit_set s,
  DeleteLinkByName bm s "c2" = Some s' & st_limit_set s' /\ st_limit s' = nseq 3 (0 : ZM)%R].
Proof.
exists (ex_state None [::] [::] [::] (nseq 4 (5 : ZM)%R) true), (run (DeleteLinkByName bm (ex_state None [::] [::] [::] (nseq 4 (5 : ZM)%R) true) "c2")).
by split; [exact: ex_wf| | |apply: runP; vm_compute; reflexivity|split; vm_compute; reflexivity].
Qed.
(* the same for reloading a model *)
Theorem C51_reload_refuted : exists s s' : state ZM int unit, [/\ st_limit s = nseq 4 (5 : ZM)%R, st_limit_set s,
  InitModelData bm s true ex_m ex_nm = Some s' & st_limit_set s' /\ st_limit s' = nseq 4 (0 : ZM)%R].
Proof.
exists (SetTorqueLimit empty (nseq 4 (5 : ZM)%R)), (run (InitModelData bm (SetTorqueLimit empty (nseq 4 (5 : ZM)%R)) true ex_m ex_nm)).
by split; [| |apply: runP; vm_compute; reflexivity|split; vm_compute; reflexivity].
Qed.

(* C52 refuted: the total mass loses the mass of the link *)
Theorem C52_total_mass_refuted : exists s s' : state ZM int unit, [/\ wf bm 2 s, ChangeLinkToFixedJoint bm jn s "c2" = Some s',
  st_total_mass s = (20 : ZM)%R, st_total_mass s' = (16 : ZM)%R &
  (\sum_(l <- st_links s') bm (l_bd l) = (20 : ZM))%R].
Proof.
exists (ex_state (Some tt) [::] [::] [::] [::] false), (run (ChangeLinkToFixedJoint bm jn (ex_state (Some tt) [::] [::] [::] [::] false) "c2")).
split; [exact: ex_wf|apply: runP; vm_compute; reflexivity|vm_compute; reflexivity|vm_compute; reflexivity|].
rewrite -(big_map (@l_bd int) xpredT bm).
have -> : [seq l_bd l | l <- st_links (run (ChangeLinkToFixedJoint bm jn (ex_state (Some tt) [::] [::] [::] [::] false) "c2"))] = [:: 10; 5; 2; 3]%R by vm_compute; reflexivity.
by rewrite !big_cons big_nil.
Qed.
(* called before UpdateKinematics it uses a frame that was never assigned *)
Theorem C52_unset_frame_refuted : exists s : state ZM int unit, wf bm 2 s /\ ChangeLinkToFixedJoint bm jn s "c2" = None.
Proof. by exists s_plain; split; [exact: ex_wf|vm_compute]. Qed.
Example C52_ex : (forall a b f, (bm (jn a b f) = bm a + bm b)%R) /\
  Con_Model.find_link (link_names (ex_state (Some tt) [::] [::] [::] [::] false)) "C2" = Some 4.
Proof. by []. Qed.

Example C75_ex : wf bm 2 s_plain /\ sumn (take 2 (r_dofs (st_model s_plain))) < 6.
Proof. by split; [exact: ex_wf|]. Qed.

(* C76: the name of a body attached by a fixed joint leads to another id after any deletion *)
Theorem C76_fixed_names_refuted : exists s s' : state ZM int unit, [/\ wf bm 2 s, lookup (r_names (st_model s)) "tip" = Some (r_disc (st_model s)),
  lookup (r_names (st_model s)) "cam" = Some (r_disc (st_model s) + 1)%N, DeleteLinkByName bm s "c2" = Some s' &
  r_disc (st_model s') = r_disc (st_model s) /\ lookup (r_names (st_model s')) "tip" = Some (r_disc (st_model s')).-1 /\
  lookup (r_names (st_model s')) "cam" = Some (r_disc (st_model s'))].
Proof.
exists s_plain, (run (DeleteLinkByName bm s_plain "c2")).
by split; [exact: ex_wf| | |apply: runP; vm_compute; reflexivity|split; [|split]; vm_compute; reflexivity].
Qed.
(* movable bodies keep theirs *)
Theorem C76_link_names_partial (R : zmodType) (B T : Type) (bmass : B -> R) off fuel (s s' : state R B T) a k l :
  wf bmass off s -> 0 < a -> DeleteLink bmass fuel s a = Some s' -> get (st_links s') k = Some l ->
  lookup (r_names (st_model s')) (l_name l) = Some (l_body l) /\ get (r_bodies (st_model s')) (l_body l) = Some (l_bd l).
Proof.
move=> W a0 /(DeleteLink_correct W a0) [_ W' _ _] h; have [_ -> _ _] := wf_link W' h.
by rewrite (wf_names W' h) (wf_bodies W' h).
Qed.

(* C77: joint_id_ of the links after the deleted one no longer is their coordinate *)
Theorem C77_joint_id_refuted : exists s s' : state ZM int unit, [/\ wf bm 2 s, DeleteLinkByName bm s "c1" = Some s',
  name_at s' 2 = Some "y", omap (@j_id unit) (get (st_joints s') 2) = Some 8 & nth 0 (r_q_index (st_model s')) 4 = 7 /\
  st_link_num s' = 5 /\ size (st_links s') = 4].
Proof.
exists s_plain, (run (DeleteLinkByName bm s_plain "c1")).
by split; [exact: ex_wf|apply: runP; vm_compute; reflexivity|vm_compute; reflexivity|vm_compute; reflexivity|split; [|split]; vm_compute; reflexivity].
Qed.

Example C78_ex : wf bm 2 s_plain /\ get (st_links s_plain) 3 <> None /\ lookup (r_names (st_model s_plain)) "hand" = None.
Proof. by split; [exact: ex_wf|]. Qed.

Example C79_ex : rbdl_tree bm 2 ex_m ex_nm /\ st_joints empty = [::].
Proof. by split; [exact: ex_rt|]. Qed.
(* loading a second model keeps the joints of the first in front *)
Theorem C79_reload_refuted : exists s s' : state ZM int unit, [/\ rbdl_tree bm 2 ex_m ex_nm, InitModelData bm empty true ex_m ex_nm = Some s,
  InitModelData bm s true ex_m ex_nm = Some s', size (st_links s') = 5 & size (st_joints s') = 10].
Proof.
exists (run (InitModelData bm empty true ex_m ex_nm)), (run (InitModelData bm (run (InitModelData bm empty true ex_m ex_nm)) true ex_m ex_nm)).
by split; [exact: ex_rt|apply: runP; vm_compute; reflexivity|apply: runP; vm_compute; reflexivity|vm_compute; reflexivity|vm_compute; reflexivity].
Qed.
(* a massless body between two links: the outer link hangs on the base and survives the deletion of the inner *)
Definition gap_m : rbdl int unit :=
  Rbdl [:: 0; 0; 10; 1; 0; 2]%R (nseq 6 tt) [:: 0; 0; 1; 2; 3; 4] [:: [:: 1]; [:: 2]; [:: 3]; [:: 4]; [:: 5]; [::]]
    [:: 0; 3; 3; 1; 1; 1] [:: 0; 0; 3; 6; 7; 8] [:: ("base", 2); ("arm", 3); ("axis", 4); ("hand", 5)] 9 100 0.
Definition gap_nm (i : nat) : string := nth "" [:: "world"; "t"; "base"; "arm"; "axis"; "hand"] i.
Theorem C79_massless_refuted : exists s s' : state ZM int unit, [/\ InitModelData bm empty true gap_m gap_nm = Some s, DeleteLinkByName bm s "arm" = Some s',
  link_names s = [:: "base"; "arm"; "hand"; "COM"], par s 2 = 0 & link_names s' = [:: "base"; "hand"; "COM"]].
Proof.
exists (run (InitModelData bm empty true gap_m gap_nm)), (run (DeleteLinkByName bm (run (InitModelData bm empty true gap_m gap_nm)) "arm")).
by split; [apply: runP; vm_compute; reflexivity|apply: runP; vm_compute; reflexivity|vm_compute; reflexivity|vm_compute; reflexivity|vm_compute; reflexivity].
Qed.

Print Assumptions C49_delete.
Print Assumptions C49_returns.
Print Assumptions C49_by_name.
Print Assumptions C49_name_found.
Print Assumptions C50_earlier_partial.
Print Assumptions C50_contact_refuted.
Print Assumptions C50_task_refuted.
Print Assumptions C50_unrelated_task_refuted.
Print Assumptions C50_last_task_refuted.
Print Assumptions C51_delete_zeroes_partial.
Print Assumptions C51_refuted.
Print Assumptions C51_reload_refuted.
Print Assumptions C52_bodies_partial.
Print Assumptions C52_total_mass_refuted.
Print Assumptions C52_unset_frame_refuted.
Print Assumptions C75_base_refuted.
Print Assumptions C75_com_refuted.
Print Assumptions C76_fixed_names_refuted.
Print Assumptions C76_link_names_partial.
Print Assumptions C77_link_num.
Print Assumptions C77_joint_id_refuted.
Print Assumptions C78_add_revolute_partial.
Print Assumptions C78_add_revolute_refuted.
Print Assumptions C79_init_partial.
Print Assumptions C79_reload_refuted.
Print Assumptions C79_massless_refuted.
