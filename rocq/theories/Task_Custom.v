(* C172: the Jacobian given for a custom task. *)
From Coq Require Import List Arith ZArith Bool String Lia.
From Verif Require Import Con_Model Con_Spec Con_Proofs Task_Model Task_Spec Task_Proofs Task_Ex Task_Props.
Import ListNotations.

Section Custom.
Context {Row Val Pt : Type} (zero_row : Row) (zero : Val).
Implicit Types (s : tstate Row Val Pt) (ops : list (top Row Val Pt)) (k : kin Row Val Pt).
Local Notation run := (trun zero_row zero).
Local Notation step := (tstep zero_row zero).

Lemma run_app : forall ops s ops2, run s (ops ++ ops2) = match run s ops with Some s1 => run s1 ops2 | None => None end.
Proof. induction ops as [|o ops IH]; intros s ops2; cbn; [reflexivity|]. destruct (step s o); [apply IH|reflexivity]. Qed.

Lemma Forall2_nth : forall (A : Type) (P : A -> A -> Prop) l l' i x, Forall2 P l l' -> nth_error l i = Some x ->
  exists y, nth_error l' i = Some y /\ P x y.
Proof.
  intros A P l l' i x F. revert i. induction F as [|u v l l' h F IH]; intros [|i] E; cbn in *; try discriminate.
  - injection E as <-. eauto.
  - apply IH, E.
Qed.

Lemma kept : forall names ks ops s i t f J s', run (tinit names) ops = Some s -> nth_error (r_ts s) i = Some t ->
  t_links t = [] -> t_J t = J -> t_f t = f -> run s (map (fun k => TUpdate k) ks) = Some s' ->
  exists t', nth_error (r_ts s') i = Some t' /\ t_J t' = J /\ t_f t' = f.
Proof.
  induction ks as [|k ks IH]; intros ops s i t f J s' H N L EJ EF R; cbn [map trun] in R.
  - injection R as <-. eauto.
  - destruct (step s (TUpdate k)) as [s2|] eqn:U; [|discriminate].
    destruct (C05_task_jacobian zero_row zero names ops s k s2 H U) as (_ & _ & F).
    destruct (Forall2_nth _ _ _ _ _ _ F N) as (t2 & N2 & _ & _ & _ & L2 & _ & _ & K & _).
    destruct (K L) as [KJ KF].
    apply (IH (ops ++ [TUpdate k]) s2 i t2); try congruence.
    rewrite run_app, H. cbn [trun]. rewrite U. reflexivity.
Qed.

(* what holds: a task without links keeps the Jacobian and the reference over any number of updates *)
Theorem C172_no_links_partial : forall names ops s a t b f J ks s', run (tinit names) ops = Some s ->
  r_ts s = a ++ t :: b -> t_links t = [] ->
  run s (TSet (Z.of_nat (List.length a)) f J :: map (fun k => TUpdate k) ks) = Some s' ->
  exists t', nth_error (r_ts s') (List.length a) = Some t' /\ t_J t' = J /\ t_f t' = f.
Proof.
  intros names ops s a t b f J ks s' H E L. cbn [trun].
  destruct (C07_in_range_partial zero_row zero s a t b f J E) as (t1 & S1 & F1 & J1 & _ & _ & _ & _ & L1 & _).
  rewrite S1. set (s1 := TState _ _ _) in *. intros R.
  apply (kept names ks (ops ++ [TSet (Z.of_nat (List.length a)) f J]) s1 (List.length a) t1); try congruence.
  - rewrite run_app, H; cbn [trun]; rewrite S1; reflexivity.
  - cbn; rewrite nth_error_app2, Nat.sub_diag by lia; reflexivity.
Qed.

(* a custom task with a link loses the Jacobian with the first update: it becomes zero *)
Theorem C172_links_lost_partial : forall names ops s a t b f J k s', run (tinit names) ops = Some s ->
  r_ts s = a ++ t :: b -> t_links t <> [] -> t_type t = TASK_CUSTOM ->
  run s [TSet (Z.of_nat (List.length a)) f J; TUpdate k] = Some s' ->
  exists t', nth_error (r_ts s') (List.length a) = Some t' /\ t_J t' = repeat zero_row (t_dof t) /\ t_f t' = f.
Proof.
  intros names ops s a t b f J k s' H E L T. cbn [trun].
  destruct (C07_in_range_partial zero_row zero s a t b f J E) as (t1 & S1 & F1 & J1 & _ & D1 & _ & T1 & L1 & _).
  rewrite S1. set (s1 := TState _ _ _) in *.
  destruct (step s1 (TUpdate k)) as [s2|] eqn:U; [|discriminate]. intros R. injection R as <-.
  assert (H1 : run (tinit names) (ops ++ [TSet (Z.of_nat (List.length a)) f J]) = Some s1)
    by (rewrite run_app, H; cbn [trun]; rewrite S1; reflexivity).
  assert (N1 : nth_error (r_ts s1) (List.length a) = Some t1)
    by (cbn; rewrite nth_error_app2, Nat.sub_diag by lia; reflexivity).
  destruct (C05_task_jacobian zero_row zero names _ s1 k s2 H1 U) as (_ & _ & F).
  destruct (Forall2_nth _ _ _ _ _ _ F N1) as (t2 & N2 & _ & _ & _ & L2 & _ & _ & _ & K & _).
  destruct K as [KJ KF]; [congruence|congruence|].
  exists t2. split; [exact N2|]. split; congruence.
Qed.
End Custom.

(* levels: a custom task without links, and one to which the foot link was added *)
Local Open Scope string_scope.
Definition chist (link : bool) : list (top trow trow nat) :=
  TAddDof 0%Z TASK_CUSTOM 2 :: (if link then [TLinkAdd 0%Z TASK_LINK_POSITION 2%Z 0] else []).
Definition cJ : list trow := rows 9 2 5.
Definition cf : list trow := rows 8 2 5.

(* the full claim fails: a custom task with a link does not keep its Jacobian *)
Theorem C172_custom_refuted : exists names (ops : list (top trow trow nat)) s t f J k s' t',
  trun tz tz (tinit names) ops = Some s /\ nth_error (r_ts s) 0 = Some t /\ t_type t = TASK_CUSTOM /\
  trun tz tz s [TSet 0%Z f J; TUpdate k] = Some s' /\ nth_error (r_ts s') 0 = Some t' /\
  List.length J = t_dof t /\ ~ In tz J /\ t_f t' = f /\ t_J t' <> J /\ (forall r, In r (t_J t') -> r = tz).
Proof.
  exists tnames, (chist true). do 2 eexists. exists cf, cJ, kin0. do 2 eexists.
  split; [vm_compute; reflexivity|]. split; [vm_compute; reflexivity|]. split; [vm_compute; reflexivity|].
  split; [vm_compute; reflexivity|]. split; [vm_compute; reflexivity|].
  split; [vm_compute; reflexivity|]. split; [vm_compute; intuition discriminate|].
  split; [vm_compute; reflexivity|]. split; [vm_compute; discriminate|].
  vm_compute. intuition congruence.
Qed.

Example C172_ex : exists s s', trun tz tz (tinit tnames) (chist false) = Some s /\
  trun tz tz s (TSet 0%Z (firstn 2 cf) (firstn 2 cJ) :: map (fun k => TUpdate k) [kin0; kin0]) = Some s' /\
  map (fun t => t_links t) (r_ts s) = [[]] /\ map (fun t => t_J t) (r_ts s') = [firstn 2 cJ].
Proof. do 2 eexists. repeat split; vm_compute; reflexivity. Qed.

Print Assumptions C172_no_links_partial.
Print Assumptions C172_links_lost_partial.
Print Assumptions C172_custom_refuted.
