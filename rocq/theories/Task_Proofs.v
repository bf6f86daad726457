(* Proofs about the task registry. *)
From Coq Require Import List Arith ZArith Bool String Lia Permutation.
From Verif Require Import Con_Model Con_Spec Con_Proofs Task_Model Task_Spec.
Import ListNotations.

Lemma upd_split {A} (l1 : list A) x y l2 : upd (l1 ++ x :: l2) (List.length l1) y = l1 ++ y :: l2.
Proof.
  unfold upd. rewrite firstn_app, Nat.sub_diag, firstn_O, app_nil_r, firstn_all.
  f_equal. f_equal. rewrite skipn_app. rewrite skipn_all2 by lia.
  replace (S (List.length l1) - List.length l1) with 1 by lia. reflexivity.
Qed.

Lemma upd_nth {A} (l : list A) i x y : nth_error l i = Some x ->
  exists l1 l2, l = l1 ++ x :: l2 /\ List.length l1 = i /\ upd l i y = l1 ++ y :: l2.
Proof.
  intros H. destruct (nth_error_split _ _ H) as (l1 & l2 & E & L). exists l1, l2.
  subst. split; [reflexivity|]. split; [reflexivity|]. apply upd_split.
Qed.

Section Proofs.
Context {Row Val Pt : Type} (zero_row : Row) (zero : Val).
Local Notation tlink := (tlink Pt).
Local Notation tspace := (tspace Row Val Pt).
Local Notation tstate := (tstate Row Val Pt).
Local Notation kin := (kin Row Val Pt).
Local Notation top := (top Row Val Pt).
Implicit Types (s : tstate) (t : tspace) (l : tlink) (k : kin).

Definition link_wf l : Prop := mode_dof (tl_mode l) = Some (tl_dof l).

Definition task_wf t : Prop :=
  t_nlink t = List.length (t_links t) /\ Forall link_wf (t_links t) /\ links_dof t <= t_dof t.

Definition TInv s : Prop :=
  r_qp s = List.length (r_ts s) /\
  map t_h (r_ts s) = map Z.of_nat (seq 0 (List.length (r_ts s))) /\
  NoDup (all_ids s) /\ Forall task_wf (r_ts s).

Lemma mode_meaning_dof m : mode_dof m = match mode_meaning m with
  | Some (_, p) => Some (part_dof p) | None => None end.
Proof.
  unfold mode_dof, TASK_LINK_6D, TASK_LINK_6D_COM_FRAME, TASK_LINK_6D_CUSTOM_FRAME,
    TASK_LINK_POSITION, TASK_LINK_POSITION_COM_FRAME, TASK_LINK_POSITION_CUSTOM_FRAME,
    TASK_LINK_ROTATION, TASK_LINK_ROTATION_CUSTOM_FRAME.
  destruct m as [|p|p]; [reflexivity| |reflexivity].
  do 4 (destruct p as [p|p|]; try reflexivity).
Qed.

Lemma new_tlink_some m i pt l : new_tlink m i pt = Some l ->
  link_wf l /\ tl_mode l = m /\ tl_id l = i /\ tl_point l = pt /\ tl_pos l = false /\ tl_rot l = false.
Proof.
  unfold new_tlink, link_wf. destruct (mode_dof m) eqn:E; [|discriminate].
  intros H; inv H. cbn. auto 10.
Qed.

Lemma link_used_in s i : Forall task_wf (r_ts s) ->
  (link_used s i = true <-> In i (all_ids s)).
Proof.
  intros W. unfold link_used, all_ids. rewrite existsb_exists, in_flat_map.
  split; intros [t [Ht H]]; exists t; (split; [exact Ht|]).
  - apply existsb_exists in H. destruct H as [l [Hl E]]. apply Z.eqb_eq in E.
    rewrite Forall_forall in W. destruct (W t Ht) as [N _]. rewrite N, firstn_all in Hl.
    unfold ids. rewrite <- E. apply in_map, Hl.
  - unfold ids in H. apply in_map_iff in H. destruct H as [l [E Hl]].
    rewrite Forall_forall in W. destruct (W t Ht) as [N _]. rewrite N, firstn_all.
    apply existsb_exists. exists l. split; [exact Hl|]. apply Z.eqb_eq, E.
Qed.

Lemma link_used_all_in s i : link_used_all s i = true <-> In i (all_ids s).
Proof.
  unfold link_used_all, all_ids. rewrite existsb_exists, in_flat_map.
  split; intros [t [Ht H]]; exists t; (split; [exact Ht|]).
  - apply existsb_exists in H. destruct H as [l [Hl E]]. apply Z.eqb_eq in E.
    unfold ids. rewrite <- E. apply in_map, Hl.
  - unfold ids in H. apply in_map_iff in H. destruct H as [l [E Hl]].
    apply existsb_exists. exists l. split; [exact Hl|]. apply Z.eqb_eq, E.
Qed.

Lemma not_true_false b : b = false -> b <> true. Proof. congruence. Qed.

Lemma NoDup_app_intro {A} (a b : list A) :
  NoDup a -> NoDup b -> (forall x, In x b -> ~ In x a) -> NoDup (a ++ b).
Proof.
  intros Ha Hb D. induction Ha as [|x a Hx _ IH]; [exact Hb|]. cbn. constructor.
  - rewrite in_app_iff. intros [H|H]; [contradiction|]. apply (D x H). left; reflexivity.
  - apply IH. intros y Hy Hin. apply (D y Hy). right. exact Hin.
Qed.

Lemma push_TInv s t : TInv s -> task_wf t -> t_h t = Z.of_nat (List.length (r_ts s)) ->
  NoDup (ids t) -> (forall i, In i (ids t) -> ~ In i (all_ids s)) -> TInv (push_task s t).
Proof.
  intros (I1 & I2 & I3 & I4) W H N D. unfold TInv, push_task, all_ids in *. cbn [r_qp r_ts].
  split; [|split; [|split]].
  - rewrite app_length. cbn. lia.
  - rewrite app_length. cbn [List.length]. rewrite Nat.add_1_r, seq_S, !map_app, I2. cbn [map].
    rewrite H. reflexivity.
  - rewrite flat_map_app. cbn [flat_map]. rewrite app_nil_r. apply NoDup_app_intro; assumption.
  - apply Forall_app. split; [exact I4|]. constructor; [exact W|constructor].
Qed.

Lemma task_at_split s h t : task_at s h = Some t ->
  exists a b, r_ts s = a ++ t :: b /\ (h = Z.of_nat (List.length a)) /\
    forall t', set_task s h t' = TState (r_names s) (a ++ t' :: b) (r_qp s).
Proof.
  unfold task_at. destruct (Z.ltb_spec h 0); [discriminate|]. intros E.
  destruct (nth_error_split _ _ E) as (a & b & S & L). exists a, b. split; [exact S|].
  split; [lia|]. intros t'. unfold set_task. rewrite S, <- L, upd_split. reflexivity.
Qed.

Lemma set_TInv s h t t' new : TInv s -> task_at s h = Some t -> t_h t' = t_h t -> task_wf t' ->
  ids t' = ids t ++ new -> NoDup new -> (forall i, In i new -> ~ In i (all_ids s)) ->
  TInv (set_task s h t').
Proof.
  intros (I1 & I2 & I3 & I4) T H W E N D. destruct (task_at_split _ _ _ T) as (a & b & S & _ & U).
  rewrite U. unfold TInv, all_ids in *. cbn [r_qp r_ts]. rewrite S in *.
  split; [|split; [|split]].
  - rewrite app_length in *. exact I1.
  - rewrite app_length in *. rewrite map_app in *. cbn [map List.length] in *. rewrite H. exact I2.
  - rewrite flat_map_app in *. cbn [flat_map] in *. rewrite E.
    eapply Permutation_NoDup with (l := (flat_map ids a ++ ids t ++ flat_map ids b) ++ new).
    + rewrite <- !app_assoc. apply Permutation_app_head, Permutation_app_head, Permutation_app_comm.
    + apply NoDup_app_intro; assumption.
  - rewrite Forall_app in *. destruct I4 as [A B]. split; [exact A|]. inv B. constructor; assumption.
Qed.

Lemma add_link_at_TInv s h m i pt s' : TInv s -> ~ In i (all_ids s) ->
  add_link_at zero s h m i pt = Some s' -> TInv s'.
Proof.
  intros I N H. unfold add_link_at in H. destruct (task_at s h) as [t|] eqn:T; [|discriminate].
  unfold TaskSpace_AddTaskLink in H. destruct (new_tlink m i pt) as [l|] eqn:L; [|discriminate].
  inv H. destruct (new_tlink_some _ _ _ _ L) as (W & M & Ii & _).
  assert (Wt : task_wf t).
  { destruct I as (_ & _ & _ & I4). destruct (task_at_split _ _ _ T) as (a & b & S & _).
    rewrite S, Forall_app in I4. destruct I4 as [_ B]. inv B. assumption. }
  destruct Wt as (W1 & W2 & W3).
  apply set_TInv with (t := t) (new := [i]); auto.
  - unfold task_wf, links_dof in *. cbn. split; [rewrite app_length, W1; cbn; lia|]. split.
    + apply Forall_app. split; [exact W2|]. repeat constructor. exact W.
    + rewrite map_app, list_sum_app. cbn. lia.
  - unfold ids. cbn. rewrite map_app. cbn. rewrite Ii. reflexivity.
  - repeat constructor. intros [].
  - intros j [<-|[]]. exact N.
Qed.

Lemma update_links_shape k names ty ls : forall at_ J f J' f',
  update_links k names ty ls at_ J f = Some (J', f') ->
  List.length J' = List.length J /\ List.length f' = List.length f.
Proof.
  induction ls as [|l ls IH]; intros at_ J f J' f' H; cbn [update_links] in H.
  - inv H. auto.
  - destruct (link_at names (tl_id l)); [|discriminate].
    destruct (Z.eqb ty TASK_CUSTOM); [eauto|].
    destruct (match link_block k l with Some (n, B) => set_rows J at_ n B | None => Some J end)
      as [J1|] eqn:EJ; [|discriminate].
    destruct (link_fstar k l at_ f) as [f1|] eqn:Ef; [|discriminate].
    destruct (IH _ _ _ _ _ H) as [A B]. rewrite A, B.
    assert (L1 : List.length J1 = List.length J).
    { destruct (link_block k l) as [[n Bk]|]; [|inv EJ; reflexivity].
      apply set_rows_spec in EJ. apply EJ. }
    split; [exact L1|]. clear - Ef. unfold link_fstar in Ef.
    assert (G : forall (c : bool) (f0 f2 : list Val) a B, (if c then set_rows f0 a 3 B else Some f0) = Some f2 ->
      List.length f2 = List.length f0).
    { intros c f0 f2 a B0 E. destruct c; [apply set_rows_spec in E; apply E|inv E; reflexivity]. }
    destruct (_ && _).
    + destruct (if tl_pos l then set_rows f at_ 3 (k_fpos k l) else Some f) as [f2|] eqn:E2; [|discriminate].
      rewrite (G _ _ _ _ _ Ef). exact (G _ _ _ _ _ E2).
    + destruct (_ && _); [exact (G _ _ _ _ _ Ef)|].
      destruct (_ && _); [exact (G _ _ _ _ _ Ef)|]. inv Ef. reflexivity.
Qed.

Lemma update_task_shape k names t t' : update_task zero_row k names t = Some t' ->
  t_dof t' = t_dof t /\ t_h t' = t_h t /\ t_nlink t' = t_nlink t /\ t_type t' = t_type t /\
  t_links t' = t_links t /\ List.length (t_f t') = List.length (t_f t) /\
  (0 < t_nlink t -> List.length (t_J t') = t_dof t).
Proof.
  unfold update_task.
  destruct (update_links k names (t_type t) _ 0 _ (t_f t)) as [[J f]|] eqn:E; [|discriminate].
  intros H; inv H. cbn. destruct (update_links_shape _ _ _ _ _ _ _ _ _ E) as [A B].
  repeat split; auto. intros P. rewrite A. destruct (Nat.ltb_spec 0 (t_nlink t)); [|lia].
  apply repeat_length.
Qed.

Lemma Update_Forall2 k s s' : UpdateTaskSpace zero_row k s = Some s' ->
  r_names s' = r_names s /\ r_qp s' = r_qp s /\
  Forall2 (fun t t' => update_task zero_row k (r_names s) t = Some t') (r_ts s) (r_ts s').
Proof.
  unfold UpdateTaskSpace. destruct (r_names s) eqn:E; [discriminate|].
  destruct (map_opt _ (r_ts s)) as [ts|] eqn:M; [|discriminate].
  intros H; inv H. cbn. repeat split. apply map_opt_Forall2. exact M.
Qed.

Lemma Update_TInv k s s' : TInv s -> UpdateTaskSpace zero_row k s = Some s' -> TInv s'.
Proof.
  intros (I1 & I2 & I3 & I4) H. destruct (Update_Forall2 _ _ _ H) as (N & Q & F).
  unfold TInv, all_ids in *. rewrite Q, (Forall2_len _ _ _ F). split; [exact I1|].
  assert (E : map t_h (r_ts s') = map t_h (r_ts s) /\ flat_map ids (r_ts s') = flat_map ids (r_ts s) /\
              Forall task_wf (r_ts s')).
  { clear - F I4. induction F as [|t t' a b U _ IH]; [auto|]. inv I4. destruct (IH H2) as (A & B & C).
    destruct (update_task_shape _ _ _ _ U) as (S1 & S2 & S3 & _ & S5 & _).
    cbn. rewrite A, B, S2. unfold ids at 1. rewrite S5. split; [reflexivity|]. split; [reflexivity|].
    constructor; [|exact C]. destruct H1 as (W1 & W2 & W3). unfold task_wf, links_dof in *.
    rewrite S1, S3, S5. auto. }
  destruct E as (A & B & C). rewrite A, B. auto.
Qed.

Lemma tstep_TInv s o s' : TInv s -> tstep zero_row zero s o = Some s' -> TInv s'.
Proof.
  intros I H. pose proof I as (I1 & I2 & I3 & I4). destruct o; cbn [tstep] in H.
  - inv H. apply push_TInv; auto.
    + unfold task_wf, links_dof. cbn. repeat split; [constructor|lia].
    + constructor.
  - unfold AddTaskSpace in H. destruct (link_used s id) eqn:U.
    { destruct (link_at (r_names s) id); inv H. exact I. }
    assert (N : ~ In id (all_ids s)).
    { intros C. apply link_used_in in C; [congruence|exact I4]. }
    unfold new_tspace_link in H. destruct (new_tlink mode id pt) as [l|] eqn:L; [|discriminate].
    inv H. destruct (new_tlink_some _ _ _ _ L) as (W & M & Ii & _).
    apply push_TInv; auto.
    + unfold task_wf, links_dof. cbn. repeat split; [repeat constructor; exact W|lia].
    + cbn. rewrite Ii. repeat constructor. intros [].
    + intros j [<-|[]]. rewrite Ii. exact N.
  - unfold AddTaskSpaceByName in H. destruct (find_link (r_names s) name) as [x|]; [|inv H; exact I].
    destruct (link_used_all s (Z.of_nat x)) eqn:U; [inv H; exact I|].
    assert (N : ~ In (Z.of_nat x) (all_ids s)).
    { intros C. apply link_used_all_in in C. congruence. }
    destruct (Z.eqb_spec (Z.of_nat (List.length (r_ts s))) h).
    + unfold new_tspace_link in H. destruct (new_tlink mode (Z.of_nat x) pt) as [l|] eqn:L; [|discriminate].
      inv H. destruct (new_tlink_some _ _ _ _ L) as (W & M & Ii & _).
      apply push_TInv; auto.
      * unfold task_wf, links_dof. cbn. repeat split; [repeat constructor; exact W|lia].
      * cbn. rewrite Ii. repeat constructor. intros [].
      * intros j [<-|[]]. rewrite Ii. exact N.
    + destruct (Z.ltb h _); [|inv H; exact I]. eauto using add_link_at_TInv.
  - unfold AddTaskLink in H. destruct (link_used s id) eqn:U.
    { destruct (link_at (r_names s) id); inv H. exact I. }
    assert (N : ~ In id (all_ids s)).
    { intros C. apply link_used_in in C; [congruence|exact I4]. }
    eauto using add_link_at_TInv.
  - unfold AddTaskLinkByName in H. destruct (find_link (r_names s) name) as [x|]; [|inv H; exact I].
    destruct (link_used s (Z.of_nat x)) eqn:U; [inv H; exact I|].
    assert (N : ~ In (Z.of_nat x) (all_ids s)).
    { intros C. apply link_used_in in C; [congruence|exact I4]. }
    eauto using add_link_at_TInv.
  - inv H. repeat split; constructor.
  - unfold SetTaskSpace in H. destruct (task_at s h) as [t|] eqn:T; [|discriminate]. inv H.
    apply set_TInv with (t := t) (new := []); auto.
    + destruct (task_at_split _ _ _ T) as (a & b & S & _). rewrite S, Forall_app in I4.
      destruct I4 as [_ B]. inv B. exact H1.
    + unfold ids. cbn. rewrite app_nil_r. reflexivity.
    + constructor.
  - unfold SetTrajectory in H. destruct (task_at s h) as [t|] eqn:T; [|discriminate].
    destruct (nth_error (t_links t) j) as [l|] eqn:L; [|discriminate]. inv H.
    assert (Wt : task_wf t).
    { destruct (task_at_split _ _ _ T) as (a & b & S & _). rewrite S, Forall_app in I4.
      destruct I4 as [_ B]. inv B. assumption. }
    destruct Wt as (W1 & W2 & W3).
    set (l' := TLink _ _ _ _ _ _). destruct (upd_nth _ _ _ l' L) as (a & b & S & _ & U).
    apply set_TInv with (t := t) (new := []); auto.
    + unfold task_wf, links_dof in *. cbn. rewrite U. rewrite S in W1, W2, W3.
      rewrite Forall_app, map_app, list_sum_app, app_length in *. cbn in *.
      split; [exact W1|]. split; [|exact W3].
      destruct W2 as [A B]. split; [exact A|]. inv B. constructor; [exact H1|assumption].
    + unfold ids. cbn. rewrite U, S, !map_app, app_nil_r. reflexivity.
    + constructor.
  - eauto using Update_TInv.
Qed.

Lemma trun_ind (P : tstate -> Prop) (Q : top -> Prop) :
  (forall s o s', TInv s -> P s -> Q o -> tstep zero_row zero s o = Some s' -> P s') ->
  forall os s s', TInv s -> P s -> Forall Q os -> trun zero_row zero s os = Some s' -> P s'.
Proof.
  intros Step. induction os as [|o os IH]; intros s s' I Ps F H; cbn [trun] in H.
  - inv H. exact Ps.
  - destruct (tstep zero_row zero s o) as [s1|] eqn:E; [|discriminate]. inv F.
    eapply IH; [| |eassumption|exact H]; eauto using tstep_TInv.
Qed.

Lemma tinit_TInv names : TInv (tinit names).
Proof. repeat split; constructor. Qed.

Lemma trun_TInv os s s' : TInv s -> trun zero_row zero s os = Some s' -> TInv s'.
Proof.
  intros I H. apply (trun_ind TInv (fun _ => True)) with (os := os) (s := s); auto.
  - intros s0 o s1 I0 _ _. apply tstep_TInv, I0.
  - apply Forall_forall. auto.
Qed.

(* ---- C04 ---- *)
Definition dof_ok t : Prop := t_dof t = links_dof t /\ t_links t <> [].

Lemma Forall_set (P : tspace -> Prop) s h t t' : Forall P (r_ts s) -> task_at s h = Some t ->
  (P t -> P t') -> Forall P (r_ts (set_task s h t')).
Proof.
  intros F T H. destruct (task_at_split _ _ _ T) as (a & b & S & _ & U). rewrite U. cbn.
  rewrite S in F. rewrite Forall_app in *. destruct F as [A B]. inv B. split; [exact A|].
  constructor; auto.
Qed.

Lemma Forall_add_link (P : tspace -> Prop) s h m i pt s' :
  (forall t t', P t -> TaskSpace_AddTaskLink zero t m i pt = Some t' -> P t') ->
  Forall P (r_ts s) -> add_link_at zero s h m i pt = Some s' -> Forall P (r_ts s').
Proof.
  intros Step F H. unfold add_link_at in H. destruct (task_at s h) as [t|] eqn:T; [|discriminate].
  destruct (TaskSpace_AddTaskLink zero t m i pt) as [t'|] eqn:E; [|discriminate]. inv H.
  eapply Forall_set; eauto.
Qed.

(* a per-task predicate preserved by every operation *)
Lemma Forall_step (P : tspace -> Prop) (Q : top -> Prop) :
  (forall h type dof, Q (TAddDof h type dof) -> forall hh, P (new_tspace_dof type hh dof)) ->
  (forall m hh i pt t, new_tspace_link zero m hh i pt = Some t -> P t) ->
  (forall m i pt t t', P t -> TaskSpace_AddTaskLink zero t m i pt = Some t' -> P t') ->
  (forall h f J, Q (TSet h f J) -> forall t, P t ->
     P (TSpace (t_dof t) (t_h t) (t_nlink t) (t_type t) (t_links t) J f (repeat zero (List.length f)))) ->
  (forall t j l pos rot, P t -> nth_error (t_links t) j = Some l ->
     P (TSpace (t_dof t) (t_h t) (t_nlink t) (t_type t)
         (upd (t_links t) j (TLink (tl_mode l) (tl_id l) (tl_point l) (tl_dof l) (tl_pos l || pos) (tl_rot l || rot)))
         (t_J t) (t_f t) (t_fqp t))) ->
  (forall k names t t', P t -> update_task zero_row k names t = Some t' -> P t') ->
  forall s o s', Forall P (r_ts s) -> Q o -> tstep zero_row zero s o = Some s' -> Forall P (r_ts s').
Proof.
  intros H1 H2 H3 H4 H5 H6 s o s' F q H. destruct o; cbn [tstep] in H.
  - inv H. cbn. apply Forall_app. split; [exact F|]. constructor; [eapply H1; eauto|constructor].
  - unfold AddTaskSpace in H. destruct (link_used s id).
    { destruct (link_at (r_names s) id); inv H. exact F. }
    destruct (new_tspace_link zero mode _ id pt) as [t|] eqn:L; [|discriminate]. inv H. cbn.
    apply Forall_app. split; [exact F|]. constructor; [eapply H2; eauto|constructor].
  - unfold AddTaskSpaceByName in H. destruct (find_link (r_names s) name) as [x|]; [|inv H; exact F].
    destruct (link_used_all s (Z.of_nat x)); [inv H; exact F|].
    destruct (Z.eqb _ h).
    + destruct (new_tspace_link zero mode _ _ pt) as [t|] eqn:L; [|discriminate]. inv H. cbn.
      apply Forall_app. split; [exact F|]. constructor; [eapply H2; eauto|constructor].
    + destruct (Z.ltb h _); [|inv H; exact F]. eapply Forall_add_link; eauto.
  - unfold AddTaskLink in H. destruct (link_used s id).
    { destruct (link_at (r_names s) id); inv H. exact F. }
    eapply Forall_add_link; eauto.
  - unfold AddTaskLinkByName in H. destruct (find_link (r_names s) name) as [x|]; [|inv H; exact F].
    destruct (link_used s (Z.of_nat x)); [inv H; exact F|]. eapply Forall_add_link; eauto.
  - inv H. constructor.
  - unfold SetTaskSpace in H. destruct (task_at s h) as [t|] eqn:T; [|discriminate]. inv H.
    eapply Forall_set; eauto.
  - unfold SetTrajectory in H. destruct (task_at s h) as [t|] eqn:T; [|discriminate].
    destruct (nth_error (t_links t) j) as [l|] eqn:L; [|discriminate]. inv H.
    eapply Forall_set; eauto.
  - destruct (Update_Forall2 _ _ _ H) as (_ & _ & U). clear - U F H6.
    induction U as [|t t' a b E _ IH]; [constructor|]. inv F. constructor; eauto.
Qed.

Lemma links_dof_upd t j l pos rot : nth_error (t_links t) j = Some l ->
  list_sum (map tl_dof (upd (t_links t) j
    (TLink (tl_mode l) (tl_id l) (tl_point l) (tl_dof l) (tl_pos l || pos) (tl_rot l || rot)))) = links_dof t
  /\ upd (t_links t) j
    (TLink (tl_mode l) (tl_id l) (tl_point l) (tl_dof l) (tl_pos l || pos) (tl_rot l || rot)) <> [].
Proof.
  intros L. set (l' := TLink _ _ _ _ _ _). destruct (upd_nth _ _ _ l' L) as (a & b & S & _ & U).
  unfold links_dof. rewrite U, S, !map_app, !list_sum_app. cbn. split; [reflexivity|].
  destruct a; discriminate.
Qed.

Lemma dof_ok_step s o s' : Forall dof_ok (r_ts s) -> no_custom o ->
  tstep zero_row zero s o = Some s' -> Forall dof_ok (r_ts s').
Proof.
  apply Forall_step; unfold dof_ok.
  - intros h type dof [].
  - intros m hh i pt t H. unfold new_tspace_link in H.
    destruct (new_tlink m i pt) as [l|]; [|discriminate]. inv H. cbn. split; [lia|discriminate].
  - intros m i pt t t' [A B] H. unfold TaskSpace_AddTaskLink in H.
    destruct (new_tlink m i pt) as [l|]; [|discriminate]. inv H. cbn. unfold links_dof in *. cbn.
    rewrite map_app, list_sum_app, A. cbn. split; [lia|]. destruct (t_links t); discriminate.
  - intros h f J _ t P. exact P.
  - intros t j l pos rot [A B] L. destruct (links_dof_upd t j l pos rot L) as [C D].
    cbn [t_links t_dof]. split; [|exact D]. rewrite A, <- C. reflexivity.
  - intros k names t t' [A B] U. destruct (update_task_shape _ _ _ _ U) as (S1 & _ & _ & _ & S5 & _).
    unfold links_dof in *. rewrite S1, S5. auto.
Qed.

Definition f_ok t : Prop := t_links t <> [] -> List.length (t_f t) = t_dof t.

Lemma f_ok_step s o s' : Forall f_ok (r_ts s) -> no_override o ->
  tstep zero_row zero s o = Some s' -> Forall f_ok (r_ts s').
Proof.
  apply Forall_step; unfold f_ok.
  - intros h type dof _ hh H. cbn in H. congruence.
  - intros m hh i pt t H. unfold new_tspace_link in H.
    destruct (new_tlink m i pt) as [l|]; [|discriminate]. inv H. cbn. intros _. apply repeat_length.
  - intros m i pt t t' P H. unfold TaskSpace_AddTaskLink in H.
    destruct (new_tlink m i pt) as [l|]; [|discriminate]. inv H. cbn. intros _. apply repeat_length.
  - intros h f J [].
  - intros t j l pos rot P L. cbn. intros _. apply P. intros E. rewrite E in L. destruct j; discriminate.
  - intros k names t t' P U. destruct (update_task_shape _ _ _ _ U) as (S1 & _ & _ & _ & S5 & S6 & _).
    rewrite S1, S5, S6. exact P.
Qed.

(* ---- C05 ---- *)
Lemma link_wf_meaning l : link_wf l -> exists fr p,
  mode_meaning (tl_mode l) = Some (fr, p) /\ tl_dof l = part_dof p.
Proof.
  unfold link_wf. rewrite mode_meaning_dof. destruct (mode_meaning (tl_mode l)) as [[fr p]|]; [|discriminate].
  intros H; inv H. eauto.
Qed.

Lemma mode_cases l : link_wf l ->
  tl_mode l = 0%Z \/ tl_mode l = 1%Z \/ tl_mode l = 2%Z \/ tl_mode l = 3%Z \/
  tl_mode l = 4%Z \/ tl_mode l = 5%Z \/ tl_mode l = 6%Z \/ tl_mode l = 7%Z.
Proof.
  intros W. destruct (link_wf_meaning l W) as (fr & p & E & _). unfold mode_meaning in E.
  destruct (tl_mode l) as [|q|q]; [auto| |discriminate].
  do 3 (destruct q as [q|q|]; try discriminate; auto 10).
Qed.

Lemma link_block_rows k l : link_wf l -> link_block k l = Some (tl_dof l, link_rows k l).
Proof.
  intros W. pose proof W as W'. unfold link_wf in W.
  destruct (mode_cases l W') as [E|[E|[E|[E|[E|[E|[E|E]]]]]]];
    unfold link_block, link_rows; rewrite E in *; cbn in W |- *; injection W as <-; reflexivity.
Qed.

Lemma link_fstar_ref k l at_ f f' : link_wf l -> at_ + tl_dof l <= List.length f ->
  link_fstar k l at_ f = Some f' ->
  f' = firstn at_ f ++ link_ref k l (firstn (tl_dof l) (skipn at_ f)) ++ skipn (at_ + tl_dof l) f /\
  List.length (link_ref k l (firstn (tl_dof l) (skipn at_ f))) = tl_dof l.
Proof.
  intros W L H. pose proof W as W'. unfold link_wf in W.
  assert (Keep : forall d, at_ + d <= List.length f ->
    f = firstn at_ f ++ firstn d (skipn at_ f) ++ skipn (at_ + d) f).
  { intros d _. rewrite <- skipn_skipn, firstn_skipn, firstn_skipn. reflexivity. }
  assert (Len : forall d, at_ + d <= List.length f -> List.length (firstn d (skipn at_ f)) = d).
  { intros d Hd. rewrite firstn_length, skipn_length. lia. }
  assert (One : forall (b : bool) (B : list Val) f1, at_ + 3 <= List.length f ->
     (if b then set_rows f at_ 3 B else Some f) = Some f1 ->
     f1 = firstn at_ f ++ (if b then B else firstn 3 (skipn at_ f)) ++ skipn (at_ + 3) f /\
     List.length (if b then B else firstn 3 (skipn at_ f)) = 3).
  { intros b B f1 L3 E. destruct b.
    - apply set_rows_spec in E. destruct E as (A & _ & C & _). auto.
    - inv E. auto. }
  assert (Six : tl_dof l = 6 ->
     match (if tl_pos l then set_rows f at_ 3 (k_fpos k l) else Some f) with
     | Some f1 => if tl_rot l then set_rows f1 (at_ + 3) 3 (k_frot k l) else Some f1
     | None => None end = Some f' ->
     let r := (if tl_pos l then k_fpos k l else firstn 3 (firstn 6 (skipn at_ f))) ++
              (if tl_rot l then k_frot k l else skipn 3 (firstn 6 (skipn at_ f))) in
     f' = firstn at_ f ++ r ++ skipn (at_ + 6) f /\ List.length r = 6).
  { intros D E. rewrite D in L.
    destruct (if tl_pos l then set_rows f at_ 3 (k_fpos k l) else Some f) as [f1|] eqn:E1; [|discriminate].
    destruct (One _ _ _ ltac:(lia) E1) as [F1 L1].
    assert (X : firstn 3 (firstn 6 (skipn at_ f)) = firstn 3 (skipn at_ f)).
    { rewrite firstn_firstn. reflexivity. }
    assert (Y : skipn 3 (firstn 6 (skipn at_ f)) = firstn 3 (skipn (at_ + 3) f)).
    { rewrite skipn_firstn_comm, skipn_skipn. reflexivity. }
    rewrite X, Y. cbv zeta.
    set (p := if tl_pos l then k_fpos k l else firstn 3 (skipn at_ f)) in *.
    assert (La : List.length (firstn at_ f) = at_) by (rewrite firstn_length; lia).
    assert (Lf1 : List.length f1 = List.length f).
    { rewrite F1, !app_length, La, skipn_length. lia. }
    assert (T1 : firstn (at_ + 3) f1 = firstn at_ f ++ p).
    { rewrite F1, app_assoc. rewrite firstn_app, firstn_all2 by (rewrite app_length; lia).
      rewrite app_length, La, L1, Nat.sub_diag, firstn_O, app_nil_r. reflexivity. }
    assert (T2 : skipn (at_ + 3 + 3) f1 = skipn (at_ + 6) f).
    { rewrite F1, app_assoc, skipn_app, skipn_all2 by (rewrite app_length; lia).
      rewrite app_length, La, L1. cbn [app]. rewrite skipn_skipn. f_equal. lia. }
    destruct (tl_rot l).
    - apply set_rows_spec in E. destruct E as (A & _ & C & _). rewrite T1, T2 in C. subst f'.
      rewrite <- !app_assoc. split; [reflexivity|]. rewrite app_length, L1, A. reflexivity.
    - inv E. rewrite !app_length, L1. split.
      + rewrite <- !app_assoc. f_equal. f_equal.
        replace (at_ + 6) with ((at_ + 3) + 3) by lia.
        rewrite <- (skipn_skipn f 3 (at_ + 3)), firstn_skipn. reflexivity.
      + rewrite firstn_length, skipn_length. lia. }
  destruct (mode_cases l W') as [E|[E|[E|[E|[E|[E|[E|E]]]]]]];
    unfold link_fstar, link_ref in *; rewrite E in *; cbn in W, H |- *; injection W as W;
    rewrite <- W in *;
    first [ exact (Six eq_refl H) | exact (One _ _ _ L H) ].
Qed.

Lemma skipn_app_exact {A} (a b : list A) : skipn (List.length a) (a ++ b) = b.
Proof. rewrite skipn_app, skipn_all, Nat.sub_diag. reflexivity. Qed.

Lemma firstn_app_exact {A} (a b : list A) : firstn (List.length a) (a ++ b) = a.
Proof. rewrite firstn_app, firstn_all, Nat.sub_diag. apply app_nil_r. Qed.

(* frame-style statement: what is before `at_` is untouched, the links' blocks follow *)
Lemma update_links_spec k names ty ls : ty <> TASK_CUSTOM -> Forall link_wf ls ->
  forall Ja Jb fa fb J' f',
  List.length Ja = List.length fa ->
  update_links k names ty ls (List.length Ja) (Ja ++ Jb) (fa ++ fb) = Some (J', f') ->
  list_sum (map tl_dof ls) <= List.length fb ->
  List.length Jb >= list_sum (map tl_dof ls) /\
  Forall (fun l => List.length (link_rows k l) = tl_dof l) ls /\
  J' = Ja ++ flat_map (link_rows k) ls ++ skipn (list_sum (map tl_dof ls)) Jb /\
  f' = fa ++ task_ref k ls fb.
Proof.
  intros Ty W. induction ls as [|l ls IH]; intros Ja Jb fa fb J' f' LL H Lf; cbn [update_links] in H.
  - inv H. cbn. auto using Nat.le_0_l.
  - destruct (link_at names (tl_id l)); [|discriminate].
    destruct (Z.eqb_spec ty TASK_CUSTOM); [contradiction|]. inv W.
    rewrite link_block_rows in H by assumption.
    destruct (set_rows (Ja ++ Jb) (List.length Ja) (tl_dof l) (link_rows k l)) as [J1|] eqn:EJ; [|discriminate].
    destruct (link_fstar k l (List.length Ja) (fa ++ fb)) as [f1|] eqn:Ef; [|discriminate].
    change (list_sum (map tl_dof (l :: ls)))
      with (tl_dof l + list_sum (map tl_dof ls)) in *.
    apply set_rows_spec in EJ. destruct EJ as (A1 & A2 & A3 & A4).
    rewrite app_length in A2.
    assert (Lfa : List.length Ja + tl_dof l <= List.length (fa ++ fb)) by (rewrite app_length; lia).
    destruct (link_fstar_ref _ _ _ _ _ H2 Lfa Ef) as [B1 B2].
    rewrite LL in B1, B2. rewrite firstn_app_exact, skipn_app_exact in B1.
    rewrite skipn_app_exact in B2.
    replace (skipn (List.length fa + tl_dof l) (fa ++ fb)) with (skipn (tl_dof l) fb) in B1.
    2:{ rewrite <- skipn_skipn, skipn_app_exact. reflexivity. }
    rewrite firstn_app_exact in A3.
    replace (skipn (List.length Ja + tl_dof l) (Ja ++ Jb)) with (skipn (tl_dof l) Jb) in A3.
    2:{ rewrite <- skipn_skipn, skipn_app_exact. reflexivity. }
    rewrite app_assoc in A3, B1. subst J1 f1.
    set (r := link_ref k l (firstn (tl_dof l) fb)) in *.
    specialize (IH H3 (Ja ++ link_rows k l) (skipn (tl_dof l) Jb) (fa ++ r) (skipn (tl_dof l) fb) J' f').
    rewrite !app_length, A1, B2 in IH. specialize (IH ltac:(lia) H).
    rewrite skipn_length in IH. specialize (IH ltac:(lia)).
    rewrite skipn_length in IH. destruct IH as (C1 & C2 & C3 & C4).
    split; [lia|]. split; [constructor; assumption|]. split.
    + rewrite C3. cbn [flat_map]. rewrite <- !app_assoc, skipn_skipn. reflexivity.
    + rewrite C4. cbn [task_ref]. fold r. rewrite <- app_assoc. reflexivity.
Qed.

Lemma update_links_custom k names ls : forall at_ J f J' f',
  update_links k names TASK_CUSTOM ls at_ J f = Some (J', f') -> J' = J /\ f' = f.
Proof.
  induction ls as [|l ls IH]; intros at_ J f J' f' H; cbn [update_links] in H; [inv H; auto|].
  destruct (link_at names (tl_id l)); [|discriminate]. rewrite Z.eqb_refl in H. eauto.
Qed.

(* definedness *)
Lemma set_rows_some {A} (M B : list A) a n : List.length B = n -> a + n <= List.length M ->
  exists M', set_rows M a n B = Some M' /\ List.length M' = List.length M.
Proof.
  intros H1 H2. unfold set_rows. rewrite (proj2 (Nat.eqb_eq _ _) H1), (proj2 (Nat.leb_le _ _) H2).
  cbn. eexists. split; [reflexivity|]. rewrite !app_length, firstn_length, skipn_length. lia.
Qed.

Definition kin_ok k : Prop :=
  (forall i, List.length (k_jac k i) = 6) /\ (forall i, List.length (k_jac_com k i) = 6) /\
  (forall i p, List.length (k_point_jac k i p) = 6) /\
  (forall l, List.length (k_fpos k l) = 3) /\ (forall l, List.length (k_frot k l) = 3).

Lemma link_rows_length k l : kin_ok k -> link_wf l -> List.length (link_rows k l) = tl_dof l.
Proof.
  intros (K1 & K2 & K3 & _) W. pose proof W as W'. unfold link_wf in W.
  destruct (mode_cases l W') as [E|[E|[E|[E|[E|[E|[E|E]]]]]]];
    unfold link_rows; rewrite E in *; cbn [mode_meaning]; cbn in W; injection W as <-;
    rewrite ?firstn_length, ?skipn_length, ?K1, ?K2, ?K3; reflexivity.
Qed.

Lemma link_fstar_some k l at_ f : kin_ok k -> link_wf l -> at_ + tl_dof l <= List.length f ->
  exists f', link_fstar k l at_ f = Some f' /\ List.length f' = List.length f.
Proof.
  intros (_ & _ & _ & K4 & K5) W L. pose proof W as W'. unfold link_wf in W.
  destruct (mode_cases l W') as [E|[E|[E|[E|[E|[E|[E|E]]]]]]];
    unfold link_fstar; rewrite E in *; cbn in W |- *; injection W as W; rewrite <- W in L.
  1,2,3: (assert (X : exists f1, (if tl_pos l then set_rows f at_ 3 (k_fpos k l) else Some f) = Some f1 /\
           List.length f1 = List.length f)
         by (destruct (tl_pos l); [apply set_rows_some; [apply K4|lia]|eauto]);
         destruct X as [f1 [-> L1]];
         destruct (tl_rot l); [|eauto]; rewrite <- L1; apply set_rows_some; [apply K5|lia]).
  1,2,3: (destruct (tl_pos l); [apply set_rows_some; [apply K4|lia]|eauto]).
  1,2: (destruct (tl_rot l); [apply set_rows_some; [apply K5|lia]|eauto]).
Qed.

Lemma update_links_some k names ty ls : kin_ok k -> Forall link_wf ls ->
  Forall (fun l => link_at names (tl_id l) <> None) ls ->
  forall at_ J f, at_ + list_sum (map tl_dof ls) <= List.length J ->
  at_ + list_sum (map tl_dof ls) <= List.length f ->
  exists J' f', update_links k names ty ls at_ J f = Some (J', f').
Proof.
  intros K W R. induction ls as [|l ls IH]; intros at_ J f LJ Lf; cbn [update_links]; [eauto|].
  inv W. inv R. change (list_sum (map tl_dof (l :: ls))) with (tl_dof l + list_sum (map tl_dof ls)) in *.
  destruct (link_at names (tl_id l)); [|congruence].
  destruct (Z.eqb ty TASK_CUSTOM); [apply IH; auto; lia|].
  rewrite link_block_rows by assumption.
  destruct (set_rows_some J (link_rows k l) at_ (tl_dof l) (link_rows_length _ _ K H1)) as [J1 [-> L1]]; [lia|].
  destruct (link_fstar_some k l at_ f K H1) as [f1 [-> L2]]; [lia|].
  apply IH; auto; lia.
Qed.

Lemma Update_defined k s : TInv s -> r_names s <> [] -> kin_ok k ->
  Forall (fun i => link_at (r_names s) i <> None) (all_ids s) ->
  Forall (fun t => t_links t <> [] -> List.length (t_f t) = t_dof t) (r_ts s) ->
  exists s', UpdateTaskSpace zero_row k s = Some s'.
Proof.
  intros (_ & _ & _ & I4) N K R F. unfold UpdateTaskSpace. destruct (r_names s) eqn:En; [congruence|].
  rewrite <- En in *. clear En N.
  destruct (map_opt_some (update_task zero_row k (r_names s)) (r_ts s)) as [ts ->]; [|eauto].
  unfold all_ids in R. induction (r_ts s) as [|t ts IH]; [constructor|].
  inv I4. inv F. cbn [flat_map] in R. rewrite Forall_app in R. destruct R as [R1 R2].
  constructor; [|auto]. unfold update_task. destruct H1 as (W1 & W2 & W3).
  rewrite W1, firstn_all. unfold ids in R1. rewrite Forall_map in R1.
  destruct (Nat.ltb_spec 0 (List.length (t_links t))) as [P|P].
  - destruct (update_links_some k (r_names s) (t_type t) (t_links t) K W2 R1 0 (repeat zero_row (t_dof t)) (t_f t))
      as (J' & f' & ->); [rewrite repeat_length; exact W3| |discriminate].
    rewrite H3; [exact W3|]. intros E. rewrite E in P. cbn in P. lia.
  - destruct (t_links t); [|cbn in P; lia]. cbn. discriminate.
Qed.

End Proofs.
