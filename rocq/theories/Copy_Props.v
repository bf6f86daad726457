(* C59, C92-C94: CopyKinematicsData. *)
From Coq Require Import List Arith ZArith Bool String Lia.
From Verif Require Import Con_Model Con_Spec Con_Proofs Copy_Model.
Import ListNotations.

Section Proofs.
Context {Num Vec Mat Mdl Lnk Tsk Qpt Rst Row : Type} (link_name : Lnk -> string) (zero_row : Row).
Local Notation robot := (robot Num Vec Mat Mdl Lnk Tsk Qpt Rst Row).
Implicit Types (src tgt s t : robot) (dl : Lnk) (dt : Tsk) (dq : Qpt).

Lemma resize_length {A} (d : A) v n : List.length (resize d v n) = n.
Proof. unfold resize. rewrite app_length, firstn_length, repeat_length. lia. Qed.

Lemma std_copy_eq {A} (a b : list A) : List.length a = List.length b -> std_copy a b = Some a.
Proof.
  intros H. unfold std_copy. rewrite H, Nat.leb_refl, skipn_all, app_nil_r. reflexivity.
Qed.

Lemma take_flags_length (cc t : list (contact Row)) : List.length (take_flags cc t) = List.length cc.
Proof. revert t. induction cc as [|c cc IH]; intros [|x t]; cbn; auto. Qed.

(* the shape of a completed call *)
Lemma copy_inv dl dt dq src tgt s t : CopyKinematicsData dl dt dq src tgt = Some (s, t) ->
  let same := List.length (o_cc tgt) = List.length (o_cc src) in
  (same -> o_cc s = o_cc src) /\
  (~ same -> o_cc s = take_flags (o_cc src) (resize blank (o_cc tgt) (List.length (o_cc src)))) /\
  o_kin s = o_kin src /\ o_links s = o_links src /\ o_dof s = o_dof src /\ o_num s = o_num src /\ o_J s = o_J src /\
  o_ts s = o_ts src /\ o_qp s = o_qp src /\ o_rest s = o_rest src /\
  o_kin t = o_kin src /\ o_links t = o_links src /\ o_cc t = o_cc s /\ o_dof t = o_dof tgt /\ o_num t = o_num tgt /\
  o_J t = o_J tgt /\ o_ts t = o_ts src /\ firstn (List.length (o_qp src)) (o_qp t) = o_qp src /\ o_rest t = o_rest tgt.
Proof.
  unfold CopyKinematicsData.
  rewrite (std_copy_eq (o_links src)).
  2:{ destruct (Nat.eqb_spec (List.length (o_links tgt)) (List.length (o_links src))); [auto|now rewrite resize_length]. }
  destruct (Nat.eqb_spec (List.length (o_cc tgt)) (List.length (o_cc src))) as [E|E].
  - rewrite std_copy_eq by auto.
    destruct (Nat.eqb_spec (List.length (o_ts tgt)) (List.length (o_ts src))) as [F|F].
    + rewrite std_copy_eq by auto. destruct (std_copy (o_qp src) (o_qp tgt)) as [q|] eqn:Q; [|discriminate].
      intros H; inv H. cbn. repeat split; auto; try tauto.
      unfold std_copy in Q. destruct (_ <=? _) in Q; inv Q. rewrite firstn_app, Nat.sub_diag, firstn_all, app_nil_r. reflexivity.
    + rewrite std_copy_eq by now rewrite resize_length. rewrite std_copy_eq by now rewrite resize_length.
      intros H; inv H. cbn. rewrite firstn_all. repeat split; auto; tauto.
  - rewrite std_copy_eq by now rewrite take_flags_length, resize_length.
    destruct (Nat.eqb_spec (List.length (o_ts tgt)) (List.length (o_ts src))) as [F|F].
    + rewrite std_copy_eq by auto. destruct (std_copy (o_qp src) (o_qp tgt)) as [q|] eqn:Q; [|discriminate].
      intros H; inv H. cbn. repeat split; auto; try tauto.
      unfold std_copy in Q. destruct (_ <=? _) in Q; inv Q. rewrite firstn_app, Nat.sub_diag, firstn_all, app_nil_r. reflexivity.
    + rewrite std_copy_eq by now rewrite resize_length. rewrite std_copy_eq by now rewrite resize_length.
      intros H; inv H. cbn. rewrite firstn_all. repeat split; auto; tauto.
Qed.

Lemma robot_eta s t : o_kin s = o_kin t -> o_links s = o_links t -> o_cc s = o_cc t -> o_dof s = o_dof t ->
  o_num s = o_num t -> o_J s = o_J t -> o_ts s = o_ts t -> o_qp s = o_qp t -> o_rest s = o_rest t -> s = t.
Proof. destruct s, t; cbn. intros; subst; reflexivity. Qed.

(* C59: with as many contacts on both sides the source is left exactly as it was *)
Theorem C59_source_kept_partial : forall dl dt dq src tgt s t,
  List.length (o_cc tgt) = List.length (o_cc src) ->
  CopyKinematicsData dl dt dq src tgt = Some (s, t) -> s = src.
Proof.
  intros dl dt dq src tgt s t E H. apply copy_inv in H. cbn in H.
  destruct H as (A & _ & H). apply robot_eta; intuition.
Qed.

(* C59, otherwise: the source's contact flags are overwritten by the target's, the surplus ones by
   uninitialised values; nothing else of the source changes *)
Theorem C59_source_flags_overwritten : forall dl dt dq src tgt s t,
  List.length (o_cc tgt) <> List.length (o_cc src) ->
  CopyKinematicsData dl dt dq src tgt = Some (s, t) ->
  (forall i c, nth_error (o_cc src) i = Some c -> exists c', nth_error (o_cc s) i = Some c' /\
     same_contact c c' /\ c_j c' = c_j c /\
     c_on c' = match nth_error (o_cc tgt) i with Some x => c_on x | None => None end) /\
  List.length (o_cc s) = List.length (o_cc src) /\
  o_kin s = o_kin src /\ o_links s = o_links src /\ o_dof s = o_dof src /\ o_num s = o_num src /\ o_J s = o_J src /\
  o_ts s = o_ts src /\ o_qp s = o_qp src /\ o_rest s = o_rest src.
Proof.
  intros dl dt dq src tgt s t E H. apply copy_inv in H. cbn in H. destruct H as (_ & A & H).
  specialize (A E). split; [|split; [rewrite A; apply take_flags_length|intuition]].
  rewrite A. clear.
  assert (G : forall (cc tc : list (contact Row)) i c, List.length tc = List.length cc -> nth_error cc i = Some c ->
    exists c' x, nth_error (take_flags cc tc) i = Some c' /\ nth_error tc i = Some x /\
      same_contact c c' /\ c_j c' = c_j c /\ c_on c' = c_on x).
  { induction cc as [|c0 cc IH]; intros [|x tc] [|i] c L N; try discriminate; cbn in *.
    - inv N. exists (set_flag c (c_on x)), x. repeat split.
    - eapply IH; eauto. }
  intros i c N. destruct (G (o_cc src) (resize blank (o_cc tgt) (List.length (o_cc src))) i c (resize_length _ _ _) N)
    as (c' & x & N' & X & S & J & O).
  exists c'. repeat split; auto; try apply S. rewrite O.
  assert (L : i < List.length (o_cc src)) by (apply nth_error_Some; congruence).
  unfold resize in X. destruct (Nat.lt_ge_cases i (List.length (o_cc tgt))) as [I|I].
  - rewrite nth_error_app1 in X by (rewrite firstn_length; lia).
    assert (Y : nth_error (o_cc tgt) i = Some x).
    { clear - X L. revert X L. generalize (List.length (o_cc src)) as k. generalize (o_cc tgt) as l. clear.
      intros l k. revert i l. induction k as [|k IH]; intros i [|y l] X L; try lia; destruct i; cbn in *; try discriminate; auto.
      apply (IH i l); [exact X|lia]. }
    rewrite Y. reflexivity.
  - rewrite (proj2 (nth_error_None _ _)) by exact I.
    rewrite nth_error_app2 in X by (rewrite firstn_length; lia).
    apply nth_error_In, repeat_spec in X. subst. reflexivity.
Qed.

(* C92: what the target holds afterwards; the members it keeps *)
Theorem C92_target : forall dl dt dq src tgt s t,
  CopyKinematicsData dl dt dq src tgt = Some (s, t) ->
  o_kin t = o_kin src /\ o_links t = o_links src /\ o_ts t = o_ts src /\
  firstn (List.length (o_qp src)) (o_qp t) = o_qp src /\
  Forall2 (fun c c' => same_contact c c' /\ c_j c' = c_j c) (o_cc src) (o_cc t) /\
  o_dof t = o_dof tgt /\ o_num t = o_num tgt /\ o_J t = o_J tgt /\ o_rest t = o_rest tgt.
Proof.
  intros dl dt dq src tgt s t H. apply copy_inv in H. cbn in H.
  destruct H as (A & B & _ & _ & _ & _ & _ & _ & _ & _ & H1 & H2 & H3 & H4 & H5 & H6 & H7 & H8 & H9).
  repeat split; auto. rewrite H3.
  destruct (Nat.eq_dec (List.length (o_cc tgt)) (List.length (o_cc src))) as [E|E].
  - rewrite (A E). clear. induction (o_cc src); constructor; auto. repeat split.
  - rewrite (B E). generalize (resize blank (o_cc tgt) (List.length (o_cc src))). clear.
    induction (o_cc src) as [|c l IH]; intros [|x tc]; cbn; constructor; auto; try (repeat split).
    clear. induction l; constructor; auto. repeat split.
Qed.

(* C92: the call is defined exactly if the target's QP list is long enough or is resized with the tasks *)
Theorem C92_defined_iff : forall dl dt dq src tgt,
  (exists s t, CopyKinematicsData dl dt dq src tgt = Some (s, t)) <->
  (List.length (o_ts tgt) = List.length (o_ts src) -> List.length (o_qp src) <= List.length (o_qp tgt)).
Proof.
  intros dl dt dq src tgt. unfold CopyKinematicsData.
  rewrite (std_copy_eq (o_links src)).
  2:{ destruct (Nat.eqb_spec (List.length (o_links tgt)) (List.length (o_links src))); [auto|now rewrite resize_length]. }
  assert (G : forall a b : list (contact Row), List.length a = List.length b ->
    match std_copy a b with Some x => std_copy a b = Some x | None => False end).
  { intros a b E. rewrite std_copy_eq by exact E. reflexivity. }
  destruct (Nat.eqb_spec (List.length (o_cc tgt)) (List.length (o_cc src))) as [E|E];
    [rewrite std_copy_eq by auto|rewrite std_copy_eq by now rewrite take_flags_length, resize_length];
  (destruct (Nat.eqb_spec (List.length (o_ts tgt)) (List.length (o_ts src))) as [F|F];
    [rewrite (std_copy_eq (o_ts src)) by auto|rewrite (std_copy_eq (o_ts src)) by (now rewrite resize_length); rewrite (std_copy_eq (o_qp src)) by (now rewrite resize_length)]).
  all: try (split; [tauto|intros _; eauto]).
  all: unfold std_copy; destruct (Nat.leb_spec (List.length (o_qp src)) (List.length (o_qp tgt)));
    split; intros K; eauto; try (destruct K as (? & ? & K); discriminate); try (specialize (K F); lia).
Qed.

(* ---- copying and then choosing contacts ---- *)
Lemma set_loop_flags v : forall (cc cc' : list (contact Row)) num dof,
  Forall2 (fun c c' => same_contact c c' /\ c_j c' = c_j c) cc cc' ->
  set_contact_loop v cc' num dof = set_contact_loop v cc num dof.
Proof.
  induction v as [|b v IH]; intros cc cc' num dof F; destruct F as [|c c' l l' [(A & B & C & D) E] F]; cbn; auto.
  - f_equal. f_equal. f_equal. f_equal.
    + unfold set_on. rewrite A, B, C, D, E. reflexivity.
    + clear - F. induction F as [|c c' l l' [(A & B & C & D) E] F IH]; cbn; auto.
      rewrite IH. unfold set_on. rewrite A, B, C, D, E. reflexivity.
  - rewrite C. destruct (if b then _ else _) as [[n' d']|]; auto. rewrite (IH _ _ _ _ F).
    destruct (set_contact_loop v l n' d') as [[[x y] z]|]; auto.
    unfold set_on. rewrite A, B, C, D, E. reflexivity.
Qed.

(* J_C is overwritten from row k on *)
Lemma stack_overwrites (cc : list (contact Row)) : forall k J J' K,
  List.length J = List.length J' -> firstn k J = firstn k J' -> k <= List.length J ->
  stack_loop cc k J = Some K ->
  k + list_sum (map (fun c => match c_on c, c_dof c with Some true, Some d => d | _, _ => 0 end) cc) = List.length J ->
  stack_loop cc k J' = Some K.
Proof.
  induction cc as [|c cc IH]; intros k J J' K L F B H S; cbn in *.
  - rewrite Nat.add_0_r in S. subst k. rewrite firstn_all in F. rewrite L, firstn_all in F. congruence.
  - destruct (c_on c) as [[|]|]; try discriminate.
    + destruct (c_dof c) as [d|]; [|discriminate]. unfold set_rows in *. rewrite <- L.
      destruct ((List.length (c_j c) =? d) && (k + d <=? List.length J))%bool eqn:Q; [|discriminate].
      apply andb_true_iff in Q. destruct Q as [Q1 Q2]. apply Nat.eqb_eq in Q1. apply Nat.leb_le in Q2.
      assert (Hl : forall M : list Row, k + d <= List.length M ->
        List.length (firstn k M ++ c_j c ++ skipn (k + d) M) = List.length M).
      { intros M HM. rewrite !app_length, firstn_length, skipn_length. lia. }
      assert (Hf : forall M : list Row, k + d <= List.length M ->
        firstn (k + d) (firstn k M ++ c_j c ++ skipn (k + d) M) = firstn k M ++ c_j c).
      { intros M HM. rewrite app_assoc, firstn_app, app_length, firstn_length, Q1, Nat.min_l by lia.
        rewrite Nat.sub_diag, firstn_O, app_nil_r. apply firstn_all2. rewrite app_length, firstn_length. lia. }
      eapply IH; [| | |exact H|].
      * rewrite !Hl by lia. exact L.
      * rewrite !Hf by lia. rewrite F. reflexivity.
      * rewrite Hl by lia. lia.
      * rewrite Hl by lia. unfold list_sum in *. lia.
    + eapply IH; eauto.
Qed.

Lemma set_loop_total v : forall (cc l : list (contact Row)) num dof n d,
  set_contact_loop v cc num dof = Some (l, n, d) ->
  d = dof + list_sum (map (fun c => match c_on c, c_dof c with Some true, Some d => d | _, _ => 0 end) l).
Proof.
  induction v as [|b v IH]; intros cc l num dof n d H; cbn in H.
  - inv H. rewrite map_map. cbn [set_on c_on c_dof].
    assert (Z : list_sum (map (fun x : contact Row => 0) cc) = 0) by (clear; induction cc; cbn; auto).
    rewrite Z. lia.
  - destruct cc as [|c cc]; [discriminate|]. destruct b.
    + destruct (c_dof c) as [k|] eqn:E; [|discriminate].
      destruct (set_contact_loop v cc (S num) (dof + k)) as [[[l' n'] d']|] eqn:G; [|discriminate].
      inv H. rewrite (IH _ _ _ _ _ _ G). cbn. rewrite E. unfold list_sum. lia.
    + destruct (set_contact_loop v cc num dof) as [[[l' n'] d']|] eqn:G; [|discriminate].
      inv H. rewrite (IH _ _ _ _ _ _ G). reflexivity.
Qed.

Lemma update_total jac (cc cc' : list (contact Row)) :
  Forall2 (fun x y => UpdateContact jac x = Some y) cc cc' ->
  map (fun c => match c_on c, c_dof c with Some true, Some d => d | _, _ => 0 end) cc' =
  map (fun c => match c_on c, c_dof c with Some true, Some d => d | _, _ => 0 end) cc.
Proof.
  induction 1 as [|x y l l' H _ IH]; cbn; [reflexivity|].
  destruct (UpdateContact_same _ _ _ H) as [(_ & _ & C & _) [D _]]. rewrite IH, C, D. reflexivity.
Qed.

(* C93: choosing contacts on the copy gives exactly the contact state that choosing them on the source gives *)
Theorem C93_copy_then_set_contact : forall dl dt dq src tgt s t jac v r,
  CopyKinematicsData dl dt dq src tgt = Some (s, t) ->
  List.length v <= List.length (o_cc src) ->
  SetContact zero_row jac (registry link_name src) v = Some r ->
  SetContact zero_row jac (registry link_name t) v = Some r.
Proof.
  intros dl dt dq src tgt s t jac v r H V K. apply C92_target in H.
  destruct H as (_ & HL & _ & _ & HC & _ & _ & _ & _).
  unfold SetContact in *. cbn [registry s_cc s_names s_J] in *. rewrite HL.
  rewrite (Forall2_len _ _ _ HC). destruct (Nat.ltb_spec (List.length (o_cc src)) (List.length v)); [lia|].
  rewrite (set_loop_flags _ _ _ _ _ HC).
  destruct (set_contact_loop v (o_cc src) 0 0) as [[[cc num] dof]|] eqn:E; [|discriminate].
  pose proof (set_loop_total _ _ _ _ _ _ _ E) as T. cbn in T.
  unfold UpdateContactConstraint in *. cbn [s_cc s_dof s_num s_J s_names] in *.
  destruct (map_opt (UpdateContact jac) cc) as [cc'|] eqn:M; [|discriminate].
  pose proof (update_total _ _ _ (map_opt_Forall2 _ _ _ M)) as U.
  destruct (stack_loop cc' 0 (if List.length (o_J src) =? dof then o_J src else repeat zero_row dof)) as [J|] eqn:S; [|discriminate].
  assert (LL : forall J0 : list Row, List.length (if List.length J0 =? dof then J0 else repeat zero_row dof) = dof).
  { intros J0. destruct (Nat.eqb_spec (List.length J0) dof); [auto|apply repeat_length]. }
  erewrite stack_overwrites; [exact K| | | |exact S|].
  - rewrite !LL. reflexivity.
  - reflexivity.
  - lia.
  - rewrite LL, U, <- T. reflexivity.
Qed.
End Proofs.

(* ---- concrete robots ---- *)
From Verif Require Import Con_Ex.
Local Open Scope string_scope.
Definition rob : Type := robot nat nat nat nat string nat nat nat tag_row.
Definition mk (kin : nat) (s : cstate tag_row) (ts qp rest : nat) : rob :=
  Robot (Kinematics kin kin kin kin true kin kin kin kin kin kin kin) names4 (s_cc s) (s_dof s) (s_num s) (s_J s)
        (repeat kin ts) (repeat kin qp) rest.
Definition copy (a b : rob) : option (rob * rob) := CopyKinematicsData "" 0 0 a b.

(* contacts on l_foot (on), R_Foot (off), l_foot (off); two tasks *)
Definition r_src : rob := mk 7 reg1 2 2 1.
(* a freshly loaded robot *)
Definition r_fresh : rob := mk 0 (cinit names4) 0 0 2.
(* a robot with the same contacts, all on *)
Definition r_on : rob := mk 3 (match SetContact zrow tag_jac reg1 [true; true; true] with Some s => s | None => reg1 end) 2 2 3.
(* one contact, switched off *)
Definition r_one : rob := mk 3 (match crun zrow (cinit names4) [OAdd 1%Z CONTACT_6D; OSet tag_jac []] with Some s => s | None => reg1 end) 2 2 3.

Definition flags (r : rob) : list (option bool) := map c_on (o_cc r).

(* the hypotheses of C59_source_kept_partial and C93 are met by r_src and r_on *)
Example Copy_ex_same : exists t, copy r_src r_on = Some (r_src, t) /\ flags t = [Some true; Some false; Some false] /\
  List.length (o_cc r_on) = List.length (o_cc r_src) /\ List.length (o_cc r_src) = 3.
Proof. eexists. repeat split; vm_compute; reflexivity. Qed.

Example C93_ex : exists s t r, copy r_src r_fresh = Some (s, t) /\
  SetContact zrow tag_jac (registry (fun x => x) r_src) [true; true] = Some r /\
  SetContact zrow tag_jac (registry (fun x => x) t) [true; true] = Some r /\ s_dof r = Some 12.
Proof. do 3 eexists. repeat split; vm_compute; reflexivity. Qed.

(* C59 refuted: copying to a robot with fewer contacts switches the first foot of the source off and
   leaves the other flags uninitialised *)
Theorem C59_source_kept_refuted : exists s t, copy r_src r_one = Some (s, t) /\
  flags r_src = [Some true; Some false; Some false] /\ flags s = [Some false; None; None] /\ flags t = flags s.
Proof. do 2 eexists. repeat split; vm_compute; reflexivity. Qed.

(* C94 refuted: the copy has the contacts of the source but not their counts; refreshing its contact
   Jacobian is undefined though it is defined for the source *)
Theorem C94_counts_refuted : exists s t, copy r_on r_fresh = Some (s, t) /\
  o_dof r_on = Some 18 /\ o_num r_on = Some 3 /\ o_dof t = None /\ o_num t = None /\ List.length (o_cc t) = 3 /\
  (exists r, UpdateContactConstraint zrow tag_jac (registry (fun x => x) r_on) = Some r) /\
  UpdateContactConstraint zrow tag_jac (registry (fun x => x) t) = None.
Proof. do 2 eexists. repeat split; try (vm_compute; reflexivity). eexists. vm_compute. reflexivity. Qed.

(* C94 refuted for targets that have been used: stale counts *)
Theorem C94_stale_counts_refuted : exists s t, copy r_src r_on = Some (s, t) /\
  o_dof t = Some 18 /\ o_dof r_src = Some 6 /\ flags t = flags r_src.
Proof. do 2 eexists. repeat split; vm_compute; reflexivity. Qed.

(* C92: a target with as many tasks but fewer QP objects cannot be copied to *)
Example C92_ex_undefined : copy r_src (mk 3 reg1 2 1 3) = None.
Proof. reflexivity. Qed.

Print Assumptions C59_source_kept_partial.
Print Assumptions C59_source_flags_overwritten.
Print Assumptions C59_source_kept_refuted.
Print Assumptions C92_target.
Print Assumptions C92_defined_iff.
Print Assumptions C93_copy_then_set_contact.
Print Assumptions C94_counts_refuted.
Print Assumptions C94_stale_counts_refuted.
