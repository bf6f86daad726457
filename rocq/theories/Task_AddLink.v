(* C173: what adding a link to a task does to the rest of the task. *)
From Coq Require Import List Arith ZArith Bool String Lia.
From Verif Require Import Con_Model Con_Spec Con_Proofs Task_Model Task_Spec Task_Proofs Task_Ex Task_Props.
Import ListNotations.

Section AddLink.
Context {Row Val Pt : Type} (zero_row : Row) (zero : Val).
Implicit Types (s : tstate Row Val Pt) (t : tspace Row Val Pt).
Local Notation step := (tstep zero_row zero).

Lemma task_at_app s a t b : r_ts s = a ++ t :: b -> task_at s (Z.of_nat (List.length a)) = Some t.
Proof.
  intros E. unfold task_at. rewrite E, Nat2Z.id, nth_error_app2, Nat.sub_diag by lia.
  destruct (Z.ltb_spec (Z.of_nat (List.length a)) 0); [lia|reflexivity].
Qed.

Lemma upd_app (A : Type) (a b : list A) x y : upd (a ++ x :: b) (List.length a) y = a ++ y :: b.
Proof.
  unfold upd. rewrite firstn_app, Nat.sub_diag, firstn_all, app_nil_r. f_equal. f_equal.
  induction a as [|z a IH]; [reflexivity|exact IH].
Qed.

(* every field of the task after the call, and every other task; the reference is zero in full *)
Theorem C173_rest_partial : forall s a t b mode id pt s', r_ts s = a ++ t :: b ->
  step s (TLinkAdd (Z.of_nat (List.length a)) mode id pt) = Some s' ->
  (In id (flat_map (fun u => map (@tl_id Pt) (firstn (t_nlink u) (t_links u))) (r_ts s)) /\ s' = s) \/
  exists fr p, mode_meaning mode = Some (fr, p) /\ r_names s' = r_names s /\ r_qp s' = r_qp s /\
    r_ts s' = a ++ TSpace (t_dof t + part_dof p) (t_h t) (S (t_nlink t)) (t_type t)
                     (t_links t ++ [TLink mode id pt (part_dof p) false false]) (t_J t)
                     (repeat zero (t_dof t + part_dof p)) (t_fqp t) :: b.
Proof.
  intros s a t b mode id pt s' E. cbn [tstep]. unfold AddTaskLink.
  destruct (link_used s id) eqn:U.
  - destruct (link_at _ _); [|discriminate]. intros H. injection H as <-. left. split; [|reflexivity].
    unfold link_used in U. apply existsb_exists in U. destruct U as (u & Iu & U).
    apply existsb_exists in U. destruct U as (l & Il & U). apply Z.eqb_eq in U.
    apply in_flat_map. exists u. split; [exact Iu|]. rewrite <- U. apply in_map, Il.
  - unfold add_link_at. rewrite (task_at_app _ _ _ _ E). unfold TaskSpace_AddTaskLink, new_tlink.
    destruct (mode_dof mode) as [d|] eqn:M; [|discriminate]. intros H. injection H as <-. right.
    assert (X : exists fr p, mode_meaning mode = Some (fr, p) /\ d = part_dof p).
    { unfold mode_dof in M.
      destruct mode as [|q|q]; [injection M as <-; do 2 eexists; split; reflexivity| |discriminate].
      do 3 (destruct q as [q|q|]; try discriminate; try (injection M as <-; do 2 eexists; split; reflexivity)). }
    destruct X as (fr & p & X & ->). exists fr, p. cbn. rewrite E, Nat2Z.id, upd_app. auto.
Qed.
Lemma used_all s id : link_used s id = true -> link_used_all s id = true.
Proof.
  unfold link_used, link_used_all. intros U. apply existsb_exists in U. destruct U as (u & Iu & U).
  apply existsb_exists in U. destruct U as (l & Il & U). apply existsb_exists. exists u. split; [exact Iu|].
  apply existsb_exists. exists l. split; [|exact U]. rewrite <- (firstn_skipn (t_nlink u)). apply in_or_app. auto.
Qed.

(* adding by name, with AddTaskLink or with AddTaskSpace on a level that exists, is adding the first link of that
   name, or nothing happens *)
Theorem C173_by_name_partial : forall s a t b o mode name pt s', r_ts s = a ++ t :: b ->
  o = TLinkAddName (Z.of_nat (List.length a)) mode name pt \/ o = TAddName (Z.of_nat (List.length a)) mode name pt ->
  step s o = Some s' ->
  s' = s \/ exists k, first_named (r_names s) name k /\
    step s (TLinkAdd (Z.of_nat (List.length a)) mode (Z.of_nat k) pt) = Some s'.
Proof.
  intros s a t b o mode name pt s' E [-> | ->]; cbn [tstep]; [unfold AddTaskLinkByName|unfold AddTaskSpaceByName];
    (destruct (find_link (r_names s) name) as [k|] eqn:F; [|intros H; injection H as <-; auto]);
    apply find_link_some in F.
  - destruct (link_used s (Z.of_nat k)) eqn:U; intros H; [injection H as <-; auto|].
    right. exists k. split; [exact F|]. unfold AddTaskLink. rewrite U. exact H.
  - destruct (link_used_all s (Z.of_nat k)) eqn:U; [intros H; injection H as <-; auto|].
    cbv zeta. rewrite E, app_length. cbn [List.length].
    destruct (Z.eqb_spec (Z.of_nat (List.length a + S (List.length b))) (Z.of_nat (List.length a))); [lia|].
    destruct (Z.ltb_spec (Z.of_nat (List.length a)) (Z.of_nat (List.length a + S (List.length b)))); [|lia].
    intros G. right. exists k. split; [exact F|]. unfold AddTaskLink.
    destruct (link_used s (Z.of_nat k)) eqn:V; [|exact G]. apply used_all in V. congruence.
Qed.
End AddLink.

(* position task of the head with a reference of its own; then the left foot joins the task *)
Local Open Scope string_scope.
Definition ahist : list (top trow trow nat) :=
  [TAddName 0%Z TASK_LINK_POSITION "head" 0; TSet 0%Z (rows 8 3 3) (rows 9 3 3)].

(* the full claim fails: the reference given for the first link is gone after the call, and after the next update *)
Theorem C173_reference_refuted : exists names (ops : list (top trow trow nat)) s t f k s1 t1 s2 t2,
  trun tz tz (tinit names) ops = Some s /\ r_ts s = [t] /\ t_f t = f /\ ~ In tz f /\ List.length f = t_dof t /\
  trun tz tz s [TLinkAdd 0%Z TASK_LINK_6D 1%Z 0] = Some s1 /\ r_ts s1 = [t1] /\
  firstn 1 (t_links t1) = t_links t /\ firstn 3 (t_f t1) <> f /\
  trun tz tz s1 [TUpdate k] = Some s2 /\ r_ts s2 = [t2] /\ t_f t2 = repeat tz 9.
Proof.
  exists tnames, ahist. do 2 eexists. exists (rows 8 3 3), kin0. do 4 eexists.
  split; [vm_compute; reflexivity|]. split; [vm_compute; reflexivity|]. split; [vm_compute; reflexivity|].
  split; [vm_compute; intuition discriminate|]. split; [vm_compute; reflexivity|].
  split; [vm_compute; reflexivity|]. split; [vm_compute; reflexivity|]. split; [vm_compute; reflexivity|].
  split; [vm_compute; discriminate|]. split; [vm_compute; reflexivity|]. split; vm_compute; reflexivity.
Qed.

Example C173_ex : exists s t s1, trun tz tz (tinit tnames) ahist = Some s /\ r_ts s = (nil ++ t :: nil)%list /\
  tstep tz tz s (TLinkAdd 0%Z TASK_LINK_6D 1%Z 0) = Some s1 /\ map (fun u => t_dof u) (r_ts s1) = [9] /\
  tstep tz tz s (TLinkAdd 0%Z TASK_LINK_6D 3%Z 0) = Some s /\
  tstep tz tz s (TAddName 0%Z TASK_LINK_6D "l_foot" 0) = Some s1 /\
  tstep tz tz s (TLinkAddName 0%Z TASK_LINK_6D "L_FOOT" 0) = Some s1.
Proof. do 3 eexists. repeat split; vm_compute; reflexivity. Qed.

Print Assumptions C173_rest_partial.
Print Assumptions C173_reference_refuted.
Print Assumptions C173_by_name_partial.
