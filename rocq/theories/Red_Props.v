(* C53, C80: the index lists of the reduced model and the classification of tasks *)
From mathcomp Require Import all_ssreflect zify.
From Verif Require Import Red_Model Red_Spec Red_Proofs.
Set Implicit Arguments.
Unset Strict Implicit.
Unset Printing Implicit Defensive.

(* C53.  The lists partition the coordinates exactly when no link but the base carries two contacts and nothing
   without contact hangs below a link that carries one *)
Theorem C53_partition_iff_partial x m : red_wf x m -> exists o, ReducedIndex x = Some o /\
  (perm_eq (ro_vc_joint o ++ ro_nc_joint o) (iota 0 (6 + m)) <-> chains_disjoint x /\ chains_end x).
Proof.
move=> W; have [o [[h1 h2 h3 h4 [h5 _ _ _ _]] _]] := ReducedIndexE W.
exists o; split=> //; set co := flatten _ in h2; set up := up_of x in h3.
have rng i : i \in co ++ up -> 0 < i < ri_link_num x.
  rewrite mem_cat => /orP [/(co_range W) //|]; rewrite mem_filter mem_iota => /andP [_]; have := rw_pos W; lia.
have cov : co ++ up =i iota 1 (ri_link_num x).-1.
  move=> i; have p0 := rw_pos W; apply/idP/idP => [/rng|]; rewrite mem_iota => hi; first by lia.
  rewrite mem_cat; case hc: (i \in co) => //=; apply: (nc_up W).
  by rewrite mem_filter -/co hc mem_iota.
have U : uniq (map (nth 0 (ri_jid x)) (co ++ up)) = uniq (co ++ up).
  by apply: map_inj_in_uniq => i j /rng hi /rng hj; apply: (jid_inj W).
have -> : perm_eq (ro_vc_joint o ++ ro_nc_joint o) (iota 0 (6 + m)) = uniq (co ++ up).
  rewrite h5 iotaD -catA perm_cat2l add0n (permPl (perm_cat h2 h3)) -map_cat -(permPr (rw_jid W)) -(jid_all W) -U.
  apply/idP/idP => [/perm_uniq ->|u].
    rewrite map_inj_in_uniq ?iota_uniq // => i j; rewrite !mem_iota => hi hj; apply: (jid_inj W); rewrite inE;
    have := rw_pos W; lia.
  apply: perm_map; apply: uniq_perm; rewrite ?iota_uniq //; by rewrite -U.
have uu : uniq up by rewrite filter_uniq ?iota_uniq.
rewrite cat_uniq uu andbT; split.
  by case/andP=> /(flat_uniq W) h /(disj_end W).
by case=> /(flat_uniq W) -> /(disj_end W) ->.
Qed.

(* the dimensions the code records are those of the lists; on a partition they add up *)
Theorem C53_dimensions_partial x m : red_wf x m -> chains_disjoint x -> chains_end x -> exists o, [/\ ReducedIndex x = Some o,
  ro_co_dof o + ro_nc_dof o = m, ro_vc_dof o = ro_co_dof o + 6, ro_model_dof o = ro_co_dof o + 6 & ro_system_dof o = ro_co_dof o + 12] /\
  (forall i, i \in ro_nc_link o <-> 0 < i < ri_link_num x /\ ~ in_contact x i).
Proof.
move=> W d e; have [o [[h1 h2 h3 h4 [h5 h6 h7 h8 [h9 h10]]] _]] := ReducedIndexE W.
have [o' [h1' /(fun h => h.2 (conj d e)) /perm_size]] := C53_partition_iff_partial W.
have <- : o = o' by move: h1'; rewrite h1 => -[].
rewrite h5 !size_cat !size_iota -h6 -h7 => hs.
exists o; split; first by split=> //; lia.
by move=> i; rewrite h4; split=> [/(ncP W)|/(ncP W)].
Qed.

(* two legs with two joints each and a torso *)
Definition biped := RedIn [:: 0; 0; 1; 0; 3; 0] [:: 0; 6; 7; 8; 9; 10] 6 [:: (true, 2); (true, 4); (false, 5)].
Lemma biped_wf : red_wf biped 5.
Proof.
by split=> //; [case=> [|[|[|[|[|[|i]]]]]]|move=> c l; rewrite !inE => /or3P [] /eqP [] _ ->].
Qed.
Example C53_ex : red_wf biped 5 /\ chains_disjoint biped /\ chains_end biped.
Proof.
split; first exact: biped_wf.
have [o [e h]] := C53_partition_iff_partial biped_wf; apply/h.
by vm_compute in e; case: e => <-.
Qed.

(* two contacts on links of one branch: the shared joint is listed twice *)
Definition two_hands := RedIn [:: 0; 0; 1; 1] [:: 0; 6; 7; 8] 4 [:: (true, 2); (true, 3)].
Theorem C53_shared_joint_refuted : exists x o, [/\ red_wf x 3, ReducedIndex x = Some o,
  ro_vc_joint o = [:: 0; 1; 2; 3; 4; 5; 6; 6; 7; 8], ro_nc_joint o = [::] & ro_vc_dof o + ro_nc_dof o = 10 /\ 6 + 3 = 9].
Proof.
exists two_hands; eexists; split; [|vm_compute; reflexivity|by []|by []|by []].
by split=> //; [case=> [|[|[|[|i]]]]|move=> c l; rewrite !inE => /orP [] /eqP [] _ ->].
Qed.
(* a toe below a foot in contact: the joints of the leg are also listed as non-contact joints *)
Definition toe := RedIn [:: 0; 0; 1] [:: 0; 6; 7] 3 [:: (true, 1)].
Theorem C53_below_contact_refuted : exists x o, [/\ red_wf x 2, ReducedIndex x = Some o,
  ro_vc_joint o = [:: 0; 1; 2; 3; 4; 5; 6] & ro_nc_joint o = [:: 6; 7]].
Proof.
exists toe; eexists; split; [|vm_compute; reflexivity|by []|by []].
by split=> //; [case=> [|[|[|i]]]|move=> c l; rewrite !inE => /eqP [] _ ->].
Qed.

(* C80.  A task of link type whose flags were false before is classified by its links *)
Theorem C80_fresh_partial link_num co left right i nch t ts : rt_custom t = false ->
  rt_noncont t = false -> rt_reduced t = false -> rt_cmm t = false ->
  exists t' ts', [/\ classify link_num co left right i nch (t :: ts) = t' :: ts', rt_links t' = rt_links t,
    rt_noncont t' = has (fun l => (l != link_num) && (l \notin co)) (rt_links t),
    rt_reduced t' = has (fun l => (l != link_num) && (l \in co)) (rt_links t) &
    rt_cmm t' = (link_num \in rt_links t)].
Proof.
move=> c0 n0 r0 m0 /=; rewrite c0.
have aux ls u k : let t' := (foldl (classify_link link_num co) (u, k) ls).1 in
  [/\ rt_links t' = rt_links u,
    rt_noncont t' = rt_noncont u || has (fun l => (l != link_num) && (l \notin co)) ls,
    rt_reduced t' = rt_reduced u || has (fun l => (l != link_num) && (l \in co)) ls &
    rt_cmm t' = rt_cmm u || (link_num \in ls)].
  elim: ls u k => [|l ls IH] u k /=; first by rewrite !orbF.
  rewrite inE eq_sym; case: eqP => e /=.
    by have [-> -> -> ->] := IH (RedTask (rt_custom u) (rt_links u) (rt_noncont u) (rt_reduced u) true (rt_nch u)) k; rewrite !orbT.
  case: ifP => hc /=.
    by have [-> -> -> ->] := IH (RedTask (rt_custom u) (rt_links u) (rt_noncont u) true (rt_cmm u) (rt_nch u)) k; rewrite !orbT.
  by have [-> -> -> ->] := IH (RedTask (rt_custom u) (rt_links u) true (rt_reduced u) (rt_cmm u) k) k.+1; rewrite !orbT.
have [h1 h2 h3 h4] := aux (rt_links t) t nch; move: h1 h2 h3 h4.
case: (foldl _ _ _) => t' k /= h1 h2 h3 h4; rewrite n0 r0 m0 in h2 h3 h4.
by eexists; eexists.
Qed.
(* A custom task is classified at every call by the two parts of its Jacobian, whatever its flags were; the first
   non-contact task of the list gets number 0 *)
Theorem C80_custom_partial link_num co left right t ts1 ts2 : rt_custom t ->
  exists t' ts1' ts2', [/\ classify link_num co left right 0 0 (ts1 ++ t :: ts2) = ts1' ++ t' :: ts2', size ts1' = size ts1,
    rt_noncont t' = right (size ts1), rt_reduced t' = left (size ts1) &
    rt_cmm t' = false /\ (right (size ts1) -> all (fun u => ~~ rt_noncont u) ts1' -> rt_nch t' = 0)].
Proof.
move=> ct.
suff aux i k : exists t' ts1' ts2', [/\ classify link_num co left right i k (ts1 ++ t :: ts2) = ts1' ++ t' :: ts2', size ts1' = size ts1,
    rt_noncont t' = right (i + size ts1), rt_reduced t' = left (i + size ts1) &
    rt_cmm t' = false /\ (right (i + size ts1) -> all (fun u => ~~ rt_noncont u) ts1' -> rt_nch t' = k)] by exact: (aux 0 0).
have same ls : forall u k', rt_noncont (foldl (classify_link link_num co) (u, k') ls).1 = false ->
    (foldl (classify_link link_num co) (u, k') ls).2 = k'.
  have stay ls' : forall u k', rt_noncont u -> rt_noncont (foldl (classify_link link_num co) (u, k') ls').1.
    elim: ls' => //= l ls' IH u k' h; case: ifP => _; first exact: IH.
    by case: ifP => _; exact: IH.
  elim: ls => //= l ls IH u k'; case: ifP => _; first exact: IH.
  case: ifP => _; first exact: IH.
  by rewrite stay.
elim: ts1 i k => [|u ts1 IH] i k /=.
  rewrite ct addn0; eexists; exists [::]; eexists; split=> //=; split=> // h _; by rewrite h.
case: (rt_custom u) => /=.
  have [t' [l1 [l2 [-> e1 e2 e3 [e4 e5]]]]] := IH i.+1 (if right i then k.+1 else k).
  exists t', (RedTask true (rt_links u) (right i) (left i) false (if right i then k else rt_nch u) :: l1), l2.
  rewrite addSn -addnS in e2 e3 e5; split=> //=; first by rewrite e1.
  by split=> // h /andP[/negbTE nr a]; rewrite e5 // nr.
have := same (rt_links u) u k; case: (foldl _ _ _) => u' k' /= hk.
have [t' [l1 [l2 [-> e1 e2 e3 [e4 e5]]]]] := IH i.+1 k'.
exists t', (u' :: l1), l2; rewrite addSn -addnS in e2 e3 e5; split=> //=; first by rewrite e1.
by split=> // h /andP[/negbTE nr a]; rewrite e5 // hk.
Qed.
Example C80_custom_ex : classify 9 [:: 0; 1] (pred1 1) (pred1 1) 0 0
    ([:: RedTask false [:: 0] false false false 0] ++ RedTask true [::] false true true 7 :: [::]) =
  [:: RedTask false [:: 0] false true false 0; RedTask true [::] true true false 0].
Proof. by []. Qed.
(* ... but the flags are never cleared: with a second contact the task on link 2 stays a non-contact task although
   link 2 now is a contact-chain link *)
Theorem C80_stale_flag_refuted : exists link_num co1 co2 t t1 t2,
  [/\ classify link_num co1 xpredT xpredT 0 0 [:: t] = [:: t1], classify link_num co2 xpredT xpredT 0 0 [:: t1] = [:: t2],
      all (fun l => l \in co2) (rt_links t2) & rt_noncont t2].
Proof.
exists 3, [:: 0; 1], [:: 0; 1; 2], (RedTask false [:: 2] false false false 0); eexists; eexists.
by split; [vm_compute; reflexivity|vm_compute; reflexivity| |].
Qed.
Example C80_ex : let t := RedTask false [:: 0; 5; 9] false false false 0 in
  classify 9 [:: 0; 1] xpredT xpredT 0 0 [:: t] = [:: RedTask false [:: 0; 5; 9] true true true 0].
Proof. by []. Qed.

(* C81.  The null-space loop and the torque loop read ts_[i - 1]; both stay inside ts_ exactly when the first task
   is not a non-contact task (the null-space loop skips the last task) *)
Theorem C81_null_matrix_partial t ts : ts <> [::] ->
  (exists l, null_loop 0 None (t :: ts) = Some l) <-> ~~ rt_noncont t.
Proof.
move=> h; rewrite /=; case: ts h => // u ts _; rewrite [nilp _]/=.
case: (rt_noncont t) => /=; first by split=> // -[].
split=> // _; have aux us i s : exists l, null_loop i (Some s) us = Some l.
  elim: us i s => [|v us IH] i s /=; first by eexists.
  by case: nilp; [eexists|case: ifP => _ /=; [have [l ->] := IH i.+1 s|have [l ->] := IH i.+1 (NFrom i)]; eexists].
have [l /= ->] := aux (u :: ts) 1 (NFrom 0); by eexists.
Qed.
Theorem C81_first_noncontact_refuted : exists t u, [/\ rt_noncont t, null_loop 0 None [:: t; u] = None &
  torque_accesses_ok [:: t] = false].
Proof.
by exists (RedTask false [:: 2] true false false 0), (RedTask false [:: 1] false true false 0).
Qed.

Print Assumptions C53_partition_iff_partial.
Print Assumptions C53_dimensions_partial.
Print Assumptions C53_shared_joint_refuted.
Print Assumptions C53_below_contact_refuted.
Print Assumptions C80_fresh_partial.
Print Assumptions C80_custom_partial.
Print Assumptions C80_stale_flag_refuted.
Print Assumptions C81_null_matrix_partial.
Print Assumptions C81_first_noncontact_refuted.
