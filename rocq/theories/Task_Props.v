(* Theorems about the task registry: C03, C04, C05, C07, C62, C63, C64. *)
From Coq Require Import List Arith ZArith Bool String Lia.
From Verif Require Import Con_Model Con_Spec Con_Proofs Task_Model Task_Spec Task_Proofs Task_Ex.
Import ListNotations.

Section Props.
Context {Row Val Pt : Type} (zero_row : Row) (zero : Val).
Implicit Types (s : tstate Row Val Pt) (ops : list (top Row Val Pt)) (k : kin Row Val Pt).
Local Notation run := (trun zero_row zero).
Local Notation step := (tstep zero_row zero).

(* C03 *)
Theorem C03_registry : forall names ops s, run (tinit names) ops = Some s ->
  r_qp s = List.length (r_ts s) /\
  (forall i t, nth_error (r_ts s) i = Some t -> t_h t = Z.of_nat i) /\
  NoDup (all_ids s).
Proof.
  intros names ops s H. destruct (trun_TInv zero_row zero _ _ _ (tinit_TInv names) H) as (A & B & C & _).
  split; [exact A|]. split; [|exact C]. intros i t E.
  pose proof (map_nth_error t_h _ _ E) as F. rewrite B in F.
  assert (L : i < List.length (r_ts s)) by (apply nth_error_Some; congruence).
  assert (G : nth_error (seq 0 (List.length (r_ts s))) i = Some i).
  { rewrite (nth_error_nth' _ 0) by (rewrite seq_length; exact L). rewrite seq_nth by exact L. reflexivity. }
  rewrite (map_nth_error Z.of_nat _ _ G) in F. congruence.
Qed.

(* C03: requests that change nothing *)
Theorem C03_rejected : forall names ops s, run (tinit names) ops = Some s ->
  (forall h mode name pt, (forall j x, nth_error (r_names s) j = Some x -> ~ same_name x name) ->
     step s (TAddName h mode name pt) = Some s /\ step s (TLinkAddName h mode name pt) = Some s) /\
  (forall h mode name pt i, first_named (r_names s) name i -> In (Z.of_nat i) (all_ids s) ->
     step s (TAddName h mode name pt) = Some s /\ step s (TLinkAddName h mode name pt) = Some s) /\
  (forall h mode id pt, (0 <= id < Z.of_nat (List.length (r_names s)))%Z -> In id (all_ids s) ->
     step s (TAdd h mode id pt) = Some s /\ step s (TLinkAdd h mode id pt) = Some s).
Proof.
  intros names ops s H. destruct (trun_TInv zero_row zero _ _ _ (tinit_TInv names) H) as (_ & _ & _ & W).
  split; [|split].
  - intros h mode name pt N. cbn [tstep]. unfold AddTaskSpaceByName, AddTaskLinkByName.
    destruct (find_link (r_names s) name) as [x|] eqn:E; [|auto].
    exfalso. destruct (find_link_some _ _ _ E) as [[y [A B]] _]. exact (N _ _ A B).
  - intros h mode name pt i F I. assert (E : find_link (r_names s) name = Some i).
    { destruct (find_link (r_names s) name) as [x|] eqn:E.
      - apply find_link_some in E. destruct E as [[y [A B]] C], F as [[y' [A' B']] C'].
        destruct (lt_eq_lt_dec i x) as [[L|L]|L].
        + exfalso. exact (C _ _ L A' B').
        + subst. reflexivity.
        + exfalso. exact (C' _ _ L A B).
      - exfalso. destruct F as [[y [A B]] _]. exact (find_link_none _ _ E _ _ A B). }
    cbn [tstep]. unfold AddTaskSpaceByName, AddTaskLinkByName. rewrite E.
    rewrite (proj2 (link_used_all_in s _) I), (proj2 (link_used_in s _ W) I). auto.
  - intros h mode id pt R I. cbn [tstep]. unfold AddTaskSpace, AddTaskLink.
    rewrite (proj2 (link_used_in s _ W) I).
    assert (L : exists x, link_at (r_names s) id = Some x).
    { unfold link_at. destruct (Z.ltb_spec id 0); [lia|].
      destruct (nth_error (r_names s) (Z.to_nat id)) eqn:E; [eauto|]. apply nth_error_None in E. lia. }
    destruct L as [x ->]. auto.
Qed.

(* C03: what an accepted request changes, and what it leaves alone *)
Theorem C03_added_link : forall names ops s h mode id pt s', run (tinit names) ops = Some s ->
  ~ In id (all_ids s) -> step s (TLinkAdd h mode id pt) = Some s' ->
  exists a t b t', r_ts s = a ++ t :: b /\ h = Z.of_nat (List.length a) /\
    r_ts s' = a ++ t' :: b /\ ids t' = ids t ++ [id] /\ t_h t' = t_h t /\ t_type t' = t_type t /\
    r_names s' = r_names s /\ r_qp s' = r_qp s.
Proof.
  intros names ops s h mode id pt s' H N S.
  destruct (trun_TInv zero_row zero _ _ _ (tinit_TInv names) H) as (_ & _ & _ & W).
  cbn [tstep] in S. unfold AddTaskLink in S.
  destruct (link_used s id) eqn:U; [exfalso; apply N, (link_used_in s id W), U|].
  unfold add_link_at in S. destruct (task_at s h) as [t|] eqn:T; [|discriminate].
  unfold TaskSpace_AddTaskLink in S. destruct (new_tlink mode id pt) as [l|] eqn:L; [|discriminate].
  destruct (task_at_split _ _ _ T) as (a & b & E1 & E2 & E3).
  destruct (new_tlink_some _ _ _ _ L) as (_ & _ & Ii & _).
  injection S as <-. rewrite E3. exists a, t, b. eexists. split; [exact E1|]. split; [exact E2|].
  split; [reflexivity|]. cbn. unfold ids. cbn. rewrite map_app. cbn. rewrite Ii. repeat split; reflexivity.
Qed.

Theorem C03_added_task : forall names ops s h mode id pt s', run (tinit names) ops = Some s ->
  ~ In id (all_ids s) -> step s (TAdd h mode id pt) = Some s' ->
  exists t, r_ts s' = r_ts s ++ [t] /\ ids t = [id] /\ t_h t = Z.of_nat (List.length (r_ts s)) /\
    r_names s' = r_names s.
Proof.
  intros names ops s h mode id pt s' H N S.
  destruct (trun_TInv zero_row zero _ _ _ (tinit_TInv names) H) as (_ & _ & _ & W).
  cbn [tstep] in S. unfold AddTaskSpace in S.
  destruct (link_used s id) eqn:U; [exfalso; apply N, (link_used_in s id W), U|].
  unfold new_tspace_link in S. destruct (new_tlink mode id pt) as [l|] eqn:L; [|discriminate].
  destruct (new_tlink_some _ _ _ _ L) as (_ & _ & Ii & _).
  injection S as <-. cbn. eexists. split; [reflexivity|]. unfold ids. cbn. rewrite Ii. auto.
Qed.

(* C04 *)
Theorem C04_task_dimension : forall names ops s, run (tinit names) ops = Some s ->
  Forall (fun t => t_nlink t = List.length (t_links t) /\
    Forall (fun l => exists fr p, mode_meaning (tl_mode l) = Some (fr, p) /\ tl_dof l = part_dof p)
      (t_links t)) (r_ts s) /\
  (Forall no_custom ops ->
     Forall (fun t => t_dof t = list_sum (map tl_dof (t_links t)) /\ t_links t <> []) (r_ts s)) /\
  (Forall no_override ops ->
     Forall (fun t => t_links t <> [] -> List.length (t_f t) = t_dof t) (r_ts s)).
Proof.
  intros names ops s H. destruct (trun_TInv zero_row zero _ _ _ (tinit_TInv names) H) as (_ & _ & _ & W).
  split; [|split].
  - eapply Forall_impl; [|exact W]. cbn. intros t (A & B & _). split; [exact A|].
    eapply Forall_impl; [|exact B]. apply link_wf_meaning.
  - intros F. change (Forall dof_ok (r_ts s)).
    apply (trun_ind zero_row zero (fun s => Forall dof_ok (r_ts s)) no_custom) with (os := ops) (s := tinit names);
      auto using tinit_TInv; [|constructor].
    intros s0 o s1 _. apply dof_ok_step.
  - intros F. change (Forall f_ok (r_ts s)).
    apply (trun_ind zero_row zero (fun s => Forall f_ok (r_ts s)) no_override) with (os := ops) (s := tinit names);
      auto using tinit_TInv; [|constructor].
    intros s0 o s1 _. apply f_ok_step.
Qed.

(* C05: the effect of UpdateTaskSpace on every task *)
Theorem C05_task_jacobian : forall names ops s k s', run (tinit names) ops = Some s ->
  step s (TUpdate k) = Some s' ->
  r_names s' = r_names s /\ r_qp s' = r_qp s /\
  Forall2 (fun t t' =>
    t_dof t' = t_dof t /\ t_h t' = t_h t /\ t_type t' = t_type t /\ t_links t' = t_links t /\
    t_nlink t' = t_nlink t /\ t_fqp t' = t_fqp t /\
    (t_links t = [] -> t_J t' = t_J t /\ t_f t' = t_f t) /\
    (t_links t <> [] -> t_type t = TASK_CUSTOM ->
       t_J t' = repeat zero_row (t_dof t) /\ t_f t' = t_f t) /\
    (t_links t <> [] -> t_type t <> TASK_CUSTOM -> List.length (t_f t) = t_dof t ->
       t_J t' = flat_map (link_rows k) (t_links t) ++ repeat zero_row (t_dof t - links_dof t) /\
       Forall (fun l => List.length (link_rows k l) = tl_dof l) (t_links t) /\
       List.length (t_J t') = t_dof t /\
       t_f t' = task_ref k (t_links t) (t_f t))) (r_ts s) (r_ts s').
Proof.
  intros names ops s k s' H U. destruct (trun_TInv zero_row zero _ _ _ (tinit_TInv names) H) as (_ & _ & _ & W).
  cbn [tstep] in U. destruct (Update_Forall2 zero_row _ _ _ U) as (A & B & F).
  split; [exact A|]. split; [exact B|].
  induction F as [|t t' a b E _ IH]; constructor; [|inv W; auto]. inv W. destruct H2 as (W1 & W2 & W3).
  destruct (update_task_shape zero_row _ _ _ _ E) as (S1 & S2 & S3 & S4 & S5 & S6 & S7).
  unfold update_task in E. rewrite W1, firstn_all in E.
  destruct (update_links k (r_names s) (t_type t) (t_links t) 0 _ (t_f t)) as [[J f]|] eqn:EL; [|discriminate].
  injection E as <-. cbn in S7 |- *. do 6 (split; [first [reflexivity|congruence]|]). split; [|split].
  - intros L. rewrite L in EL. cbn in EL. injection EL as <- <-. auto.
  - intros L T. rewrite T in EL. apply update_links_custom in EL. destruct EL as [-> ->].
    destruct (Nat.ltb_spec 0 (List.length (t_links t))) as [P|P]; [auto|].
    destruct (t_links t); [congruence|cbn in P; lia].
  - intros L T Lf. destruct (Nat.ltb_spec 0 (List.length (t_links t))) as [P|P].
    2:{ destruct (t_links t); [congruence|cbn in P; lia]. }
    destruct (update_links_spec k (r_names s) (t_type t) (t_links t) T W2 [] _ [] _ J f eq_refl EL)
      as (C1 & C2 & C3 & C4).
    { unfold links_dof in W3. lia. }
    split; [|split; [exact C2|split; [apply S7; rewrite W1; exact P|exact C4]]].
    rewrite C3. cbn [app]. f_equal. unfold links_dof in *. clear - W3.
    remember (list_sum (map tl_dof (t_links t))) as n. clear Heqn. generalize dependent (t_dof t).
    induction n as [|n IHn]; intros [|d] L; try reflexivity. cbn. apply IHn. lia.
Qed.

(* C05: the writes stay inside the matrices *)
Theorem C05_defined : forall names ops s k, run (tinit names) ops = Some s ->
  r_names s <> [] -> kin_ok k ->
  Forall (fun i => (0 <= i < Z.of_nat (List.length (r_names s)))%Z) (all_ids s) ->
  Forall (fun t => t_links t <> [] -> List.length (t_f t) = t_dof t) (r_ts s) ->
  exists s', step s (TUpdate k) = Some s'.
Proof.
  intros names ops s k H N K R F. cbn [tstep]. apply Update_defined; auto.
  - exact (trun_TInv zero_row zero _ _ _ (tinit_TInv names) H).
  - eapply Forall_impl; [|exact R]. cbn. intros i Hi. unfold link_at.
    destruct (Z.ltb_spec i 0); [lia|]. apply nth_error_Some. lia.
Qed.

(* C07, refuted: every priority that does not exist is undefined behaviour, not an error. *)
Theorem C07_out_of_range_refuted : forall s h f J,
  (h < 0 \/ Z.of_nat (List.length (r_ts s)) <= h)%Z -> step s (TSet h f J) = None.
Proof.
  intros s h f J H. cbn [tstep]. unfold SetTaskSpace, task_at.
  destruct (Z.ltb_spec h 0); [reflexivity|].
  destruct (nth_error (r_ts s) (Z.to_nat h)) eqn:E; [|reflexivity].
  assert (Z.to_nat h < List.length (r_ts s)) by (apply nth_error_Some; congruence). lia.
Qed.

(* C07: an existing priority *)
Theorem C07_in_range_partial : forall s a t b f J, r_ts s = a ++ t :: b ->
  exists t', step s (TSet (Z.of_nat (List.length a)) f J) =
      Some (TState (r_names s) (a ++ t' :: b) (r_qp s)) /\
    t_f t' = f /\ t_J t' = J /\ t_fqp t' = repeat zero (List.length f) /\
    t_dof t' = t_dof t /\ t_h t' = t_h t /\ t_type t' = t_type t /\ t_links t' = t_links t /\
    t_nlink t' = t_nlink t.
Proof.
  intros s a t b f J E. cbn [tstep]. unfold SetTaskSpace, task_at, set_task.
  destruct (Z.ltb_spec (Z.of_nat (List.length a)) 0); [lia|].
  rewrite Nat2Z.id, E, nth_error_app2, Nat.sub_diag by lia. cbn [nth_error].
  rewrite upd_split. eexists. split; [reflexivity|]. repeat split; reflexivity.
Qed.

(* C62, refuted: a reference of the wrong size is stored. *)
Theorem C62_wrong_size_refuted : forall s a t b f J, r_ts s = a ++ t :: b ->
  List.length f <> t_dof t ->
  exists s' t', step s (TSet (Z.of_nat (List.length a)) f J) = Some s' /\
    nth_error (r_ts s') (List.length a) = Some t' /\
    List.length (t_f t') <> t_dof t'.
Proof.
  intros s a t b f J E N. destruct (C07_in_range_partial s a t b f J E) as (t' & H & F & _ & _ & D & _).
  do 2 eexists. split; [exact H|]. cbn. rewrite nth_error_app2, Nat.sub_diag by lia.
  split; [reflexivity|]. rewrite F, D. exact N.
Qed.

(* C63, refuted for the overloads taking an index or a dimension: the requested priority is
   ignored, the task is always appended. *)
Theorem C63_priority_ignored_refuted : forall names ops s h mode id pt fr p,
  run (tinit names) ops = Some s -> ~ In id (all_ids s) -> mode_meaning mode = Some (fr, p) ->
  (0 <= h < Z.of_nat (List.length (r_ts s)))%Z ->
  exists s' t, step s (TAdd h mode id pt) = Some s' /\
    nth_error (r_ts s') (Z.to_nat h) = Some t /\ ~ In id (ids t) /\
    exists t1, nth_error (r_ts s') (List.length (r_ts s)) = Some t1 /\ In id (ids t1).
Proof.
  intros names ops s h mode id pt fr p H N M R.
  destruct (trun_TInv zero_row zero _ _ _ (tinit_TInv names) H) as (_ & _ & _ & W).
  cbn [tstep]. unfold AddTaskSpace.
  destruct (link_used s id) eqn:U; [exfalso; apply N, (link_used_in s id W), U|].
  unfold new_tspace_link, new_tlink. rewrite mode_meaning_dof, M.
  destruct (nth_error (r_ts s) (Z.to_nat h)) as [t|] eqn:E; [|apply nth_error_None in E; lia].
  do 2 eexists. split; [reflexivity|]. cbn. split.
  - rewrite nth_error_app1 by lia. exact E.
  - split.
    + intros I. apply N. unfold all_ids. apply in_flat_map. exists t. split; [|exact I].
      eapply nth_error_In; eauto.
    + rewrite nth_error_app2, Nat.sub_diag by lia. eexists. split; [reflexivity|]. left. reflexivity.
Qed.

(* C63, by name: an existing priority gets the link, the next one a new task, anything higher
   is dropped. *)
Theorem C63_by_name_partial : forall names ops s h mode name pt i s', run (tinit names) ops = Some s ->
  first_named (r_names s) name i -> ~ In (Z.of_nat i) (all_ids s) ->
  step s (TAddName h mode name pt) = Some s' ->
  (0 <= h <= Z.of_nat (List.length (r_ts s)) ->
     exists t, nth_error (r_ts s') (Z.to_nat h) = Some t /\ In (Z.of_nat i) (ids t))%Z /\
  (Z.of_nat (List.length (r_ts s)) < h -> s' = s)%Z.
Proof.
  intros names ops s h mode name pt i s' H F N S.
  assert (E : find_link (r_names s) name = Some i).
  { destruct (find_link (r_names s) name) as [x|] eqn:E.
    - apply find_link_some in E. destruct E as [[y [A B]] C], F as [[y' [A' B']] C'].
      destruct (lt_eq_lt_dec i x) as [[L|L]|L].
      + exfalso. exact (C _ _ L A' B').
      + subst. reflexivity.
      + exfalso. exact (C' _ _ L A B).
    - exfalso. destruct F as [[y [A B]] _]. exact (find_link_none _ _ E _ _ A B). }
  cbn [tstep] in S. unfold AddTaskSpaceByName in S. rewrite E in S.
  destruct (link_used_all s (Z.of_nat i)) eqn:U; [exfalso; apply N, link_used_all_in, U|].
  destruct (Z.eqb_spec (Z.of_nat (List.length (r_ts s))) h) as [Eh|Eh].
  - split; [|lia]. intros _. unfold new_tspace_link in S.
    destruct (new_tlink mode (Z.of_nat i) pt) as [l|] eqn:L; [|discriminate].
    destruct (new_tlink_some _ _ _ _ L) as (_ & _ & Ii & _). injection S as <-. cbn.
    rewrite <- Eh, Nat2Z.id, nth_error_app2, Nat.sub_diag by lia. eexists. split; [reflexivity|].
    cbn. left. exact Ii.
  - destruct (Z.ltb_spec h (Z.of_nat (List.length (r_ts s)))).
    + split; [|lia]. intros [P _]. unfold add_link_at in S.
      destruct (task_at s h) as [t|] eqn:T; [|discriminate].
      unfold TaskSpace_AddTaskLink in S. destruct (new_tlink mode (Z.of_nat i) pt) as [l|] eqn:L; [|discriminate].
      destruct (task_at_split _ _ _ T) as (a & b & E1 & E2 & E3).
      destruct (new_tlink_some _ _ _ _ L) as (_ & _ & Ii & _).
      injection S as <-. rewrite E3, E2, Nat2Z.id. cbn. rewrite nth_error_app2, Nat.sub_diag by lia.
      eexists. split; [reflexivity|]. unfold ids. cbn. rewrite map_app. apply in_or_app. right. left. exact Ii.
    + split; [lia|]. intros _. injection S as <-. reflexivity.
Qed.

(* C64, refuted: a link index outside the robot is registered without complaint, and the next
   UpdateTaskSpace is undefined behaviour. *)
Theorem C64_bad_link_index_refuted : forall names ops s h mode id pt fr p,
  run (tinit names) ops = Some s ->
  (id < 0 \/ Z.of_nat (List.length (r_names s)) <= id)%Z -> ~ In id (all_ids s) ->
  mode_meaning mode = Some (fr, p) ->
  exists s', step s (TAdd h mode id pt) = Some s' /\
    List.length (r_ts s') = S (List.length (r_ts s)) /\
    forall k, step s' (TUpdate k) = None.
Proof.
  intros names ops s h mode id pt fr p H R N M.
  destruct (trun_TInv zero_row zero _ _ _ (tinit_TInv names) H) as (_ & _ & _ & W).
  cbn [tstep]. unfold AddTaskSpace.
  destruct (link_used s id) eqn:U; [exfalso; apply N, (link_used_in s id W), U|].
  unfold new_tspace_link, new_tlink. rewrite mode_meaning_dof, M.
  eexists. split; [reflexivity|]. cbn. split; [rewrite app_length; cbn; lia|].
  intros k. unfold UpdateTaskSpace. cbn. destruct (r_names s) eqn:En; [reflexivity|]. rewrite <- En in *.
  assert (X : forall ts t, update_task zero_row k (r_names s) t = None ->
    map_opt (update_task zero_row k (r_names s)) (ts ++ [t]) = None).
  { intros ts t E. induction ts as [|x ts IH]; cbn [map_opt app]; [rewrite E; reflexivity|].
    rewrite IH. destruct (update_task zero_row k (r_names s) x); reflexivity. }
  rewrite X; [reflexivity|]. unfold update_task. cbn.
  replace (link_at (r_names s) id) with (@None string); [reflexivity|].
  unfold link_at. destruct (Z.ltb_spec id 0); [reflexivity|]. symmetry. apply nth_error_None. lia.
Qed.
End Props.

(* ---- examples ---- *)
Example Task_ex_run : trun tz tz (tinit tnames) thist = Some treg /\
  map ids (r_ts treg) = [[4]; [0; 3]; [2]]%Z /\ map t_dof (r_ts treg) = [3; 9; 6] /\ r_qp treg = 3 /\
  Forall no_custom thist /\ Forall no_override thist.
Proof. repeat split; repeat constructor. Qed.

Example Task_ex_update : exists s', tstep tz tz treg (TUpdate kin0) = Some s' /\
  map t_J (r_ts s') =
    [rows 2 4 3; skipn 3 (rows 1 0 6) ++ rows 1 3 6; rows 8 2 6] /\
  map t_f (r_ts s') = [repeat tz 3; repeat tz 3 ++ rows 100 3 3 ++ repeat tz 3; repeat tz 6].
Proof. eexists. split; [reflexivity|]. split; reflexivity. Qed.

Example Task_ex_hyps : kin_ok kin0 /\
  Forall (fun i => (0 <= i < Z.of_nat (List.length (r_names treg)))%Z) (all_ids treg) /\
  Forall (fun t => t_links t <> [] -> List.length (t_f t) = t_dof t) (r_ts treg) /\
  first_named (r_names treg) "l_foot" 1 /\ ~ In 1%Z (all_ids treg).
Proof.
  split; [repeat split|]. split; [repeat constructor; cbn; lia|]. split; [repeat constructor|].
  split.
  - split; [exists "L_Foot"%string; split; reflexivity|].
    intros [|i] x L H; [|lia]. injection H as <-. vm_compute. discriminate.
  - vm_compute. intros H. decompose [or] H; try discriminate; try contradiction.
Qed.

Example Task_ex_added : exists s', tstep tz tz treg (TLinkAdd 0%Z TASK_LINK_ROTATION 1%Z 0) = Some s' /\
  map ids (r_ts s') = [[4; 1]; [0; 3]; [2]]%Z.
Proof. eexists. split; reflexivity. Qed.

Example Task_ex_ignored : exists s', tstep tz tz treg (TAdd 0%Z TASK_LINK_6D 1%Z 0) = Some s' /\
  map ids (r_ts s') = [[4]; [0; 3]; [2]; [1]]%Z.
Proof. eexists. split; reflexivity. Qed.

Print Assumptions C03_registry.
Print Assumptions C03_rejected.
Print Assumptions C03_added_link.
Print Assumptions C03_added_task.
Print Assumptions C04_task_dimension.
Print Assumptions C05_task_jacobian.
Print Assumptions C05_defined.
Print Assumptions C07_out_of_range_refuted.
Print Assumptions C07_in_range_partial.
Print Assumptions C62_wrong_size_refuted.
Print Assumptions C63_priority_ignored_refuted.
Print Assumptions C63_by_name_partial.
Print Assumptions C64_bad_link_index_refuted.
