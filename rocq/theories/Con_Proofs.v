(* Proofs about the contact registry. *)
From Coq Require Import List Arith ZArith Bool String Ascii Lia.
From Verif Require Import Con_Model Con_Spec.
Import ListNotations.

Ltac inv H := inversion H; subst; clear H.

(* ---- names ---- *)
Lemma strcaseeq_iff a b : strcaseeq a b = true <-> same_name a b.
Proof.
  unfold same_name. revert b.
  induction a as [|x a IH]; intros [|y b]; cbn [strcaseeq string_map]; split; intros H;
    try congruence; try discriminate.
  - apply andb_true_iff in H. destruct H as [H1 H2].
    apply Ascii.eqb_eq in H1. apply IH in H2. change (to_lower x = to_lower y) in H1.
    rewrite H1, H2. reflexivity.
  - injection H as H1 H2. apply andb_true_iff; split.
    + apply Ascii.eqb_eq. exact H1.
    + apply IH. exact H2.
Qed.

Lemma find_link_from_spec names name i :
  match find_link_from i names name with
  | Some k => i <= k /\ first_named names name (k - i)
  | None => forall j x, nth_error names j = Some x -> ~ same_name x name
  end.
Proof.
  revert i. induction names as [|x xs IH]; intros i; cbn [find_link_from].
  - intros j y H. destruct j; discriminate.
  - destruct (strcaseeq x name) eqn:E.
    + split; [lia|]. rewrite Nat.sub_diag. split.
      * exists x. split; [reflexivity|]. apply strcaseeq_iff, E.
      * intros j y Hj. lia.
    + specialize (IH (S i)).
      assert (Hx : ~ same_name x name).
      { intros H. apply strcaseeq_iff in H. congruence. }
      destruct (find_link_from (S i) xs name) as [k|].
      * destruct IH as [Hk [[y [Hy1 Hy2]] Hf]]. split; [lia|].
        replace (k - i) with (S (k - S i)) by lia. split.
        { exists y. split; assumption. }
        { intros [|j] z Hj Hz; cbn in Hz.
          - inv Hz. exact Hx.
          - apply (Hf j z); [lia|exact Hz]. }
      * intros [|j] y Hy; cbn in Hy.
        { inv Hy. exact Hx. }
        { exact (IH j y Hy). }
Qed.

Lemma find_link_some names name k : find_link names name = Some k -> first_named names name k.
Proof.
  intros H. unfold find_link in H. pose proof (find_link_from_spec names name 0) as S.
  rewrite H in S. rewrite Nat.sub_0_r in S. apply S.
Qed.

Lemma find_link_none names name :
  find_link names name = None -> forall j x, nth_error names j = Some x -> ~ same_name x name.
Proof.
  intros H. unfold find_link in H. pose proof (find_link_from_spec names name 0) as S.
  rewrite H in S. exact S.
Qed.

Section Proofs.
Context {Row : Type} (zero_row : Row).
Local Notation contact := (contact Row).
Local Notation cstate := (cstate Row).
Local Notation cop := (cop Row).
Implicit Types (jac : Z -> list Row) (c : contact) (s : cstate) (cc : list contact).

(* ---- invariant of reachable states ---- *)
Definition contact_wf (c : contact) : Prop :=
  c_dof c = c_dof (new_contact zero_row (c_link c) (c_type c)) /\
  c_num c = c_num (new_contact zero_row (c_link c) (c_type c)) /\
  (c_type c <> CONTACT_6D -> List.length (c_j c) = 6).

Definition CInv (s : cstate) : Prop :=
  Forall contact_wf (s_cc s) /\ NoDup (map c_link (s_cc s)) /\
  Forall (fun c => link_at (s_names s) (c_link c) <> None) (s_cc s).

Lemma new_contact_wf l t : contact_wf (new_contact zero_row l t).
Proof. repeat split; intros; reflexivity. Qed.

Lemma map_opt_Forall2 {A B} (f : A -> option B) l l' :
  map_opt f l = Some l' -> Forall2 (fun x y => f x = Some y) l l'.
Proof.
  revert l'. induction l as [|x l IH]; cbn [map_opt]; intros l' H.
  - inv H. constructor.
  - destruct (f x) eqn:E; [|discriminate]. destruct (map_opt f l); [|discriminate].
    inv H. constructor; auto.
Qed.

Lemma UpdateContact_same jac c c' : UpdateContact jac c = Some c' ->
  same_contact c c' /\ c_on c' = c_on c /\
  (c_type c = CONTACT_6D -> c_j c' = swap33 (jac (c_link c))) /\
  (c_type c <> CONTACT_6D -> c_j c' = c_j c).
Proof.
  unfold UpdateContact, same_contact. destruct (Z.eqb_spec (c_type c) CONTACT_6D) as [E|E].
  - intros H; inv H. cbn. repeat split; auto. congruence.
  - destruct (Z.eqb (c_type c) CONTACT_LINE); [intros H; inv H; repeat split; auto; congruence|].
    destruct (Z.eqb (c_type c) CONTACT_POINT); [discriminate|].
    intros H; inv H; repeat split; auto; congruence.
Qed.

Lemma UpdateContact_wf jac c c' : contact_wf c -> UpdateContact jac c = Some c' -> contact_wf c'.
Proof.
  intros [H1 [H2 H3]] H. destruct (UpdateContact_same _ _ _ H) as [[A [B [C D]]] [_ [_ E]]].
  unfold contact_wf. rewrite <- A, <- B, <- C, <- D. repeat split; auto.
  intros N. rewrite (E N). auto.
Qed.

Lemma Forall2_links jac cc cc' :
  Forall2 (fun x y => UpdateContact jac x = Some y) cc cc' -> map c_link cc' = map c_link cc.
Proof.
  induction 1 as [|x y l l' H _ IH]; cbn; [reflexivity|].
  destruct (UpdateContact_same _ _ _ H) as [[A _] _]. rewrite IH, A. reflexivity.
Qed.

Lemma Forall_links (P : Z -> Prop) (cc cc' : list contact) :
  map c_link cc' = map c_link cc -> Forall (fun c => P (c_link c)) cc -> Forall (fun c => P (c_link c)) cc'.
Proof.
  intros E H. rewrite <- (Forall_map c_link P) in *. rewrite E. exact H.
Qed.

Lemma Update_inv_shape jac s s' : UpdateContactConstraint zero_row jac s = Some s' ->
  exists dof J0, s_dof s = Some dof /\ List.length J0 = dof /\
    Forall2 (fun x y => UpdateContact jac x = Some y) (s_cc s) (s_cc s') /\
    stack_loop (s_cc s') 0 J0 = Some (s_J s') /\
    s_names s' = s_names s /\ s_dof s' = s_dof s /\ s_num s' = s_num s.
Proof.
  unfold UpdateContactConstraint.
  destruct (map_opt (UpdateContact jac) (s_cc s)) as [cc|] eqn:E; [|discriminate].
  destruct (s_dof s) as [dof|] eqn:D; [|discriminate].
  set (J0 := if List.length (s_J s) =? dof then s_J s else repeat zero_row dof).
  destruct (stack_loop cc 0 J0) as [J|] eqn:K; [|discriminate].
  intros H; inv H. exists dof, J0. cbn. repeat split; auto.
  - unfold J0. destruct (Nat.eqb_spec (List.length (s_J s)) dof); [assumption|apply repeat_length].
  - apply map_opt_Forall2. exact E.
Qed.

Lemma Update_CInv jac s s' : CInv s -> UpdateContactConstraint zero_row jac s = Some s' -> CInv s'.
Proof.
  intros [H1 [H2 H3]] H. destruct (Update_inv_shape _ _ _ H) as (dof & J0 & _ & _ & F & _ & N & _ & _).
  pose proof (Forall2_links _ _ _ F) as L. split; [|split].
  - clear - H1 F. induction F as [|x y l l' Hx _ IH]; constructor; inv H1; eauto using UpdateContact_wf.
  - rewrite L. exact H2.
  - rewrite N. eapply (Forall_links (fun k => link_at (s_names s) k <> None)); eauto.
Qed.

Lemma set_loop_spec v : forall cc num dof l n d,
  set_contact_loop v cc num dof = Some (l, n, d) ->
  List.length v <= List.length cc /\
  List.length l = List.length cc /\
  (forall i c, nth_error l i = Some c ->
     c_on c = Some (nth i v false) /\
     exists c0, nth_error cc i = Some c0 /\ c = set_on c0 (nth i v false)) /\
  n = num + List.length (filter active l) /\
  (exists ds, map c_dof (filter active l) = map Some ds /\ d = dof + list_sum ds).
Proof.
  induction v as [|b v IH]; intros cc num dof l n d H; cbn [set_contact_loop] in H.
  - inv H. split; [cbn; lia|]. split; [apply map_length|].
    assert (F : filter active (map (fun c : contact => set_on c false) cc) = []).
    { clear. induction cc as [|c cc IH]; [reflexivity|exact IH]. }
    rewrite F. split; [|split].
    + intros i c Hc. destruct (nth_error cc i) as [c0|] eqn:E0.
      * rewrite (map_nth_error _ _ _ E0) in Hc. inv Hc.
        replace (nth i [] false) with false by (destruct i; reflexivity).
        split; [reflexivity|]. exists c0. split; reflexivity.
      * exfalso. apply nth_error_None in E0.
        assert (i < List.length (map (fun c : contact => set_on c false) cc))
          by (apply nth_error_Some; congruence).
        rewrite map_length in H. lia.
    + cbn. lia.
    + exists []. cbn. split; [reflexivity|lia].
  - destruct cc as [|c cc]; [discriminate|].
    destruct (if b then match c_dof c with Some d0 => Some (S num, dof + d0) | None => None end
              else Some (num, dof)) as [[num' dof']|] eqn:E; [|discriminate].
    destruct (set_contact_loop v cc num' dof') as [[[l' n'] d']|] eqn:E'; [|discriminate].
    inv H. destruct (IH _ _ _ _ _ _ E') as (L1 & L2 & L3 & L4 & ds & L5 & L6).
    split; [cbn; lia|]. split; [cbn; lia|]. split; [|split].
    + intros [|i] c1 Hc; cbn in Hc |- *.
      * inv Hc. split; [reflexivity|]. exists c. split; reflexivity.
      * destruct (L3 _ _ Hc) as [A [c0 [B C]]]. split; [exact A|]. exists c0. auto.
    + cbn [filter]. destruct b; cbn [set_on active c_on].
      * destruct (c_dof c); [|discriminate]. inv E. cbn [List.length]. lia.
      * inv E. lia.
    + cbn [filter]. destruct b; cbn [set_on active c_on].
      * destruct (c_dof c) as [d0|] eqn:D; [|discriminate]. inv E.
        exists (d0 :: ds). split; [cbn; rewrite D, L5; reflexivity|change (list_sum (d0 :: ds)) with (d0 + list_sum ds); lia].
      * inv E. exists ds. auto.
Qed.

Lemma set_loop_links v : forall cc num dof l n d,
  set_contact_loop v cc num dof = Some (l, n, d) ->
  Forall2 (fun c0 c => exists b, c = set_on c0 b) cc l.
Proof.
  induction v as [|b v IH]; intros cc num dof l n d H; cbn [set_contact_loop] in H.
  - inv H. induction cc; constructor; eauto.
  - destruct cc as [|c cc]; [discriminate|].
    destruct (if b then match c_dof c with Some d0 => Some (S num, dof + d0) | None => None end
              else Some (num, dof)) as [[num' dof']|]; [|discriminate].
    destruct (set_contact_loop v cc num' dof') as [[[l' n'] d']|] eqn:E'; [|discriminate].
    inv H. constructor; eauto.
Qed.

Lemma set_CInv s l n d J : CInv s ->
  Forall2 (fun c0 c => exists b, c = set_on c0 b) (s_cc s) l ->
  CInv (CState (s_names s) l n d J).
Proof.
  intros [H1 [H2 H3]] F.
  assert (L : map c_link l = map c_link (s_cc s)).
  { clear - F. induction F as [|x y a b [z ->] _ IH]; cbn; [reflexivity|]. rewrite IH. reflexivity. }
  split; [|split]; cbn [s_cc s_names].
  - clear - H1 F. induction F as [|x y a b [z ->] _ IH]; constructor; inv H1; auto.
  - rewrite L. exact H2.
  - eapply (Forall_links (fun k => link_at (s_names s) k <> None)); eauto.
Qed.

Lemma existsb_link (cc : list contact) k :
  existsb (fun c => Z.eqb (c_link c) k) cc = false -> ~ In k (map c_link cc).
Proof.
  intros H Hin. apply in_map_iff in Hin. destruct Hin as [c [E Hc]].
  assert (existsb (fun c => Z.eqb (c_link c) k) cc = true); [|congruence].
  apply existsb_exists. exists c. split; [exact Hc|]. apply Z.eqb_eq, E.
Qed.

Lemma add_CInv s k t : CInv s -> existsb (fun c => Z.eqb (c_link c) k) (s_cc s) = false ->
  link_at (s_names s) k <> None -> CInv (set_cc s (s_cc s ++ [new_contact zero_row k t])).
Proof.
  intros [H1 [H2 H3]] E L. split; [|split]; cbn [set_cc s_cc s_names].
  - apply Forall_app. split; [exact H1|]. constructor; [apply new_contact_wf|constructor].
  - rewrite map_app. cbn [map]. apply existsb_link in E.
    apply NoDup_Add with (a := c_link (new_contact zero_row k t)) (l := map c_link (s_cc s)).
    + replace (map c_link (s_cc s) ++ [c_link (new_contact zero_row k t)])
        with (map c_link (s_cc s) ++ c_link (new_contact zero_row k t) :: []) by reflexivity.
      pose proof (Add_app (c_link (new_contact zero_row k t)) (map c_link (s_cc s)) []) as A.
      rewrite app_nil_r in A. exact A.
    + split; [exact H2|exact E].
  - apply Forall_app. split; [exact H3|]. constructor; [exact L|constructor].
Qed.

Lemma find_link_lt names name k : find_link names name = Some k ->
  link_at names (Z.of_nat k) <> None.
Proof.
  intros H. apply find_link_some in H. destruct H as [[x [H _]] _].
  unfold link_at. destruct (Z.ltb_spec (Z.of_nat k) 0); [lia|]. rewrite Nat2Z.id, H. discriminate.
Qed.

Lemma cstep_CInv s o s' : CInv s -> cstep zero_row s o = Some s' -> CInv s'.
Proof.
  intros I H. destruct o as [k t|nm t| |jac v|jac]; cbn [cstep] in H.
  - unfold AddContactConstraint in H.
    destruct (existsb _ (s_cc s)) eqn:E.
    + destruct (link_at (s_names s) k); inv H. exact I.
    + destruct (link_at (s_names s) k) eqn:L; inv H. apply add_CInv; auto. congruence.
  - unfold AddContactConstraintByName in H. destruct (find_link (s_names s) nm) as [k|] eqn:F.
    + destruct (existsb _ (s_cc s)) eqn:E; inv H; [exact I|].
      apply add_CInv; auto. eapply find_link_lt; eauto.
    + inv H. exact I.
  - inv H. split; [constructor|split; constructor].
  - unfold SetContact in H. destruct (_ <? _).
    + eapply Update_CInv; eauto.
    + destruct (set_contact_loop v (s_cc s) 0 0) as [[[l n] d]|] eqn:E; [|discriminate].
      eapply Update_CInv; [|exact H]. apply set_CInv; auto. eapply set_loop_links; eauto.
  - eapply Update_CInv; eauto.
Qed.

Lemma crun_CInv os : forall s s', CInv s -> crun zero_row s os = Some s' -> CInv s'.
Proof.
  induction os as [|o os IH]; intros s s' I H; cbn [crun] in H.
  - inv H. exact I.
  - destruct (cstep zero_row s o) as [s1|] eqn:E; [|discriminate]. eauto using cstep_CInv.
Qed.

Lemma cinit_CInv names : CInv (cinit names).
Proof. split; [constructor|split; constructor]. Qed.

(* ---- SetContact ---- *)
Lemma Forall2_nth {A B} (P : A -> B -> Prop) l l' i y :
  Forall2 P l l' -> nth_error l' i = Some y -> exists x, nth_error l i = Some x /\ P x y.
Proof.
  intros F. revert i. induction F as [|a b l l' H _ IH]; intros [|i] E; cbn in E; try discriminate.
  - inv E. exists a. split; [reflexivity|exact H].
  - exact (IH i E).
Qed.

Lemma Forall2_len {A B} (P : A -> B -> Prop) l l' : Forall2 P l l' -> List.length l' = List.length l.
Proof. induction 1; cbn; congruence. Qed.

Lemma Update_active jac cc cc' :
  Forall2 (fun x y => UpdateContact jac x = Some y) cc cc' ->
  List.length (filter active cc') = List.length (filter active cc) /\
  map c_dof (filter active cc') = map c_dof (filter active cc).
Proof.
  induction 1 as [|x y l l' H _ [IH1 IH2]]; cbn [filter]; [split; reflexivity|].
  destruct (UpdateContact_same _ _ _ H) as [[_ [_ [D _]]] [O _]].
  replace (active y) with (active x) by (unfold active; rewrite O; reflexivity).
  destruct (active x); cbn; [|split; assumption]. rewrite IH1, IH2, D. split; reflexivity.
Qed.

Lemma SetContact_accepted jac s v s' :
  List.length v <= List.length (s_cc s) -> SetContact zero_row jac s v = Some s' ->
  s_names s' = s_names s /\ List.length (s_cc s') = List.length (s_cc s) /\
  (forall i c, nth_error (s_cc s') i = Some c ->
     c_on c = Some (nth i v false) /\
     exists c0, nth_error (s_cc s) i = Some c0 /\ same_contact c0 c) /\
  s_num s' = Some (List.length (filter active (s_cc s'))) /\
  (exists ds, map c_dof (filter active (s_cc s')) = map Some ds /\ s_dof s' = Some (list_sum ds)).
Proof.
  intros L H. unfold SetContact in H. destruct (Nat.ltb_spec (List.length (s_cc s)) (List.length v)); [lia|].
  destruct (set_contact_loop v (s_cc s) 0 0) as [[[l n] d]|] eqn:E; [|discriminate].
  destruct (Update_inv_shape _ _ _ H) as (dof & J0 & D & _ & F & _ & N & D' & M'). cbn in *.
  destruct (set_loop_spec _ _ _ _ _ _ _ E) as (L1 & L2 & L3 & L4 & ds & L5 & L6).
  destruct (Update_active _ _ _ F) as [A1 A2].
  split; [exact N|]. split; [rewrite (Forall2_len _ _ _ F); exact L2|]. split; [|split].
  - intros i c Hc. destruct (Forall2_nth _ _ _ _ _ F Hc) as [c1 [Hc1 U]].
    destruct (L3 _ _ Hc1) as [O [c0 [Hc0 Hs]]].
    destruct (UpdateContact_same _ _ _ U) as [S [O' _]].
    split; [congruence|]. exists c0. split; [exact Hc0|]. subst c1. exact S.
  - rewrite M', A1, L4. reflexivity.
  - exists ds. rewrite A2. split; [exact L5|]. rewrite D', L6. reflexivity.
Qed.

Lemma SetContact_rejected jac s v s' :
  List.length (s_cc s) < List.length v -> SetContact zero_row jac s v = Some s' ->
  s_names s' = s_names s /\ s_num s' = s_num s /\ s_dof s' = s_dof s /\
  Forall2 (fun c0 c => same_contact c0 c /\ c_on c = c_on c0) (s_cc s) (s_cc s').
Proof.
  intros L H. unfold SetContact in H. destruct (Nat.ltb_spec (List.length (s_cc s)) (List.length v)); [|lia].
  destruct (Update_inv_shape _ _ _ H) as (dof & J0 & D & _ & F & _ & N & D' & M').
  repeat split; auto. clear - F. induction F as [|x y l l' U _ IH]; constructor; auto.
  destruct (UpdateContact_same _ _ _ U) as [S [O _]]. auto.
Qed.

Lemma skipn_skipn {A} (l : list A) : forall a b, skipn a (skipn b l) = skipn (b + a) l.
Proof.
  induction l as [|x l IH]; intros a b; [rewrite !skipn_nil; reflexivity|].
  destruct b as [|b]; [reflexivity|]. cbn [skipn Nat.add]. apply IH.
Qed.

(* ---- stacking ---- *)
Lemma set_rows_spec {A} (M B M' : list A) at_ k :
  set_rows M at_ k B = Some M' ->
  List.length B = k /\ at_ + k <= List.length M /\ M' = firstn at_ M ++ B ++ skipn (at_ + k) M /\
  List.length M' = List.length M.
Proof.
  unfold set_rows. destruct (Nat.eqb_spec (List.length B) k); [|discriminate].
  destruct (Nat.leb_spec (at_ + k) (List.length M)); [|discriminate].
  cbn. intros E; inv E. repeat split; auto.
  rewrite !app_length, firstn_length, skipn_length. lia.
Qed.

Lemma stack_loop_spec (cc : list contact) : forall at_ J0 J,
  stack_loop cc at_ J0 = Some J ->
  let R := flat_map c_j (filter active cc) in
  at_ + List.length R <= List.length J0 \/ R = [] ->
  J = firstn at_ J0 ++ R ++ skipn (at_ + List.length R) J0.
Proof.
  induction cc as [|c cc IH]; intros at_ J0 J H; cbn [stack_loop] in H.
  - inv H. cbn. intros _. rewrite Nat.add_0_r. symmetry. apply firstn_skipn.
  - destruct (c_on c) as [[|]|] eqn:O; [| |discriminate].
    + destruct (c_dof c) as [d|]; [|discriminate].
      destruct (set_rows J0 at_ d (c_j c)) as [J1|] eqn:S; [|discriminate].
      destruct (set_rows_spec _ _ _ _ _ S) as (S1 & S2 & S3 & S4).
      cbn [filter]. replace (active c) with true by (unfold active; rewrite O; reflexivity).
      cbn [flat_map]. intros R. specialize (IH _ _ _ H). cbv zeta in IH.
      set (T := flat_map c_j (filter active cc)) in *.
      rewrite app_length in *.
      rewrite IH.
      2:{ destruct R as [R|R]; [left; lia|right].
          apply app_eq_nil in R. apply R. }
      rewrite S3.
      assert (F1 : List.length (firstn at_ J0) = at_) by (rewrite firstn_length; lia).
      rewrite firstn_app, F1, (firstn_all2 (firstn at_ J0)) by lia.
      replace (at_ + d - at_) with d by lia.
      rewrite firstn_app, S1, Nat.sub_diag, firstn_O, app_nil_r, (firstn_all2 (c_j c)) by lia.
      rewrite <- app_assoc. f_equal. rewrite <- app_assoc. f_equal. f_equal.
      rewrite skipn_app, F1. rewrite (skipn_all2 (firstn at_ J0)) by lia. cbn [app].
      rewrite skipn_app, S1, (skipn_all2 (c_j c)) by lia. cbn [app].
      rewrite skipn_skipn. f_equal. lia.
    + cbn [filter]. replace (active c) with false by (unfold active; rewrite O; reflexivity).
      exact (IH _ _ _ H).
Qed.

(* every active contact's block was accepted: its rows are its dof *)
Lemma stack_loop_dofs (cc : list contact) : forall at_ J0 J,
  stack_loop cc at_ J0 = Some J ->
  Forall (fun c => c_dof c = Some (List.length (c_j c))) (filter active cc).
Proof.
  induction cc as [|c cc IH]; intros at_ J0 J H; cbn [stack_loop] in H; [constructor|].
  destruct (c_on c) as [[|]|] eqn:O; [| |discriminate]; cbn [filter].
  - destruct (c_dof c) as [d|] eqn:D; [|discriminate].
    destruct (set_rows J0 at_ d (c_j c)) as [J1|] eqn:S; [|discriminate].
    destruct (set_rows_spec _ _ _ _ _ S) as (S1 & _).
    replace (active c) with true by (unfold active; rewrite O; reflexivity).
    constructor; [rewrite D, S1; reflexivity|eauto].
  - replace (active c) with false by (unfold active; rewrite O; reflexivity). eauto.
Qed.

Lemma dofs_sum (cc : list contact) ds :
  Forall (fun c => c_dof c = Some (List.length (c_j c))) cc -> map c_dof cc = map Some ds ->
  List.length (flat_map c_j cc) = list_sum ds.
Proof.
  revert ds. induction cc as [|c cc IH]; intros [|d ds] F E; try discriminate; [reflexivity|].
  cbn in E. injection E as E1 E2. inv F. cbn [flat_map]. rewrite app_length, (IH ds) by assumption.
  rewrite H1 in E1. injection E1 as E1. change (list_sum (d :: ds)) with (d + list_sum ds). lia.
Qed.

Lemma SetContact_J jac s v s' : CInv s ->
  List.length v <= List.length (s_cc s) -> SetContact zero_row jac s v = Some s' ->
  s_J s' = flat_map (fun c => linear_first (jac (c_link c))) (filter active (s_cc s')) /\
  s_dof s' = Some (List.length (s_J s')).
Proof.
  intros I L H.
  assert (I' : CInv s').
  { apply (cstep_CInv s (OSet jac v)); assumption. }
  destruct (SetContact_accepted _ _ _ _ L H) as (_ & _ & _ & _ & ds & E & D).
  unfold SetContact in H. destruct (Nat.ltb_spec (List.length (s_cc s)) (List.length v)); [lia|].
  destruct (set_contact_loop v (s_cc s) 0 0) as [[[l n] d]|] eqn:EL; [|discriminate].
  destruct (Update_inv_shape _ _ _ H) as (dof & J0 & D0 & LJ & F & K & N & D' & M'). cbn in D0, D', F.
  injection D0 as D0. assert (SD : list_sum ds = dof) by congruence.
  pose proof (stack_loop_dofs _ _ _ _ K) as FD.
  pose proof (dofs_sum _ _ FD E) as S.
  assert (J1 : s_J s' = flat_map c_j (filter active (s_cc s'))).
  { rewrite (stack_loop_spec _ _ _ _ K) by (left; cbn; lia).
    cbn [firstn app Nat.add]. rewrite skipn_all2 by lia. apply app_nil_r. }
  split; [|rewrite J1, S; exact D].
  rewrite J1. destruct I' as [W _].
  clear - F FD W. revert l F.
  induction (s_cc s') as [|c cc IH]; intros l F; [reflexivity|].
  inversion F as [|c0 c1 l0 l1 U F0]; subst. inv W. cbn [filter] in *.
  destruct (active c) eqn:A; [|eauto].
  cbn [flat_map]. inv FD. rewrite (IH H2 H4 _ F0). f_equal.
  destruct (UpdateContact_same _ _ _ U) as [[S1 [S2 _]] [_ [S3 _]]].
  rewrite <- S1. unfold linear_first. fold (swap33 (jac (c_link c0))).
  apply S3. rewrite S2.
  destruct H1 as [W1 [_ W3]]. destruct (Z.eq_dec (c_type c) CONTACT_6D) as [T|T]; [exact T|].
  exfalso. specialize (W3 T). rewrite W3 in H3. rewrite H3 in W1. clear - W1 T.
  unfold new_contact in W1. cbn [c_dof] in W1.
  destruct (Z.eqb_spec (c_type c) CONTACT_6D); [contradiction|].
  destruct (Z.eqb (c_type c) CONTACT_LINE); [cbn in W1; congruence|].
  destruct (Z.eqb (c_type c) CONTACT_POINT); cbn in W1; congruence.
Qed.

(* ---- no undefined behaviour with plane contacts ---- *)
Lemma set_loop_defined v : forall cc num dof,
  List.length v <= List.length cc -> Forall (fun c => c_dof c <> None) cc ->
  set_contact_loop v cc num dof <> None.
Proof.
  induction v as [|b v IH]; intros cc num dof L F; cbn [set_contact_loop]; [discriminate|].
  destruct cc as [|c cc]; [cbn in L; lia|]. inv F. cbn in L.
  assert (E : exists num' dof', (if b then match c_dof c with Some d0 => Some (S num, dof + d0) | None => None end
              else Some (num, dof)) = Some (num', dof')).
  { destruct b; [|eauto]. destruct (c_dof c); [eauto|congruence]. }
  destruct E as [num' [dof' E]]. rewrite E.
  destruct (set_contact_loop v cc num' dof') as [[[? ?] ?]|] eqn:E'; [discriminate|].
  apply IH in E'; [contradiction|lia|assumption].
Qed.

Lemma stack_loop_defined (cc : list contact) : forall at_ J0,
  Forall (fun c => c_on c <> None /\ c_dof c = Some 6 /\ List.length (c_j c) = 6) cc ->
  at_ + 6 * List.length (filter active cc) <= List.length J0 ->
  stack_loop cc at_ J0 <> None.
Proof.
  induction cc as [|c cc IH]; intros at_ J0 F L; cbn [stack_loop]; [discriminate|].
  inversion F as [|? ? [O [D J]] F0]; subst. cbn [filter] in L.
  destruct (c_on c) as [[|]|] eqn:E; [| |congruence].
  - rewrite D. replace (active c) with true in L by (unfold active; rewrite E; reflexivity).
    cbn [List.length] in L. destruct (set_rows J0 at_ 6 (c_j c)) as [J1|] eqn:S.
    + destruct (set_rows_spec _ _ _ _ _ S) as (_ & _ & _ & S4). apply IH; [assumption|]. lia.
    + unfold set_rows in S. rewrite J in S. cbn [Nat.eqb andb] in S.
      destruct (Nat.leb_spec (at_ + 6) (List.length J0)); [discriminate|lia].
  - replace (active c) with false in L by (unfold active; rewrite E; reflexivity). apply IH; assumption.
Qed.

Lemma map_opt_some {A B} (f : A -> option B) l :
  Forall (fun x => f x <> None) l -> exists l', map_opt f l = Some l'.
Proof.
  induction 1 as [|x l H _ [l' IH]]; cbn [map_opt]; [eauto|].
  destruct (f x); [|congruence]. rewrite IH. eauto.
Qed.

Lemma filter_dof6 (cc : list contact) ds :
  Forall (fun c => c_dof c = Some 6) cc ->
  map c_dof (filter active cc) = map Some ds -> list_sum ds = 6 * List.length (filter active cc).
Proof.
  intros F. assert (G : Forall (fun c => c_dof c = Some 6) (filter active cc)).
  { apply Forall_forall. intros c Hc. apply filter_In in Hc. rewrite Forall_forall in F. apply F, Hc. }
  revert ds G. induction (filter active cc) as [|c l IH]; intros [|d ds] G E; try discriminate; [reflexivity|].
  cbn in E. injection E as E1 E2. inv G. specialize (IH _ H2 E2).
  change (list_sum (d :: ds)) with (d + list_sum ds). cbn [List.length].
  assert (d = 6) by congruence. lia.
Qed.

Lemma SetContact_defined jac s v : CInv s ->
  Forall (fun c => c_type c = CONTACT_6D) (s_cc s) -> (forall k, List.length (jac k) = 6) ->
  List.length v <= List.length (s_cc s) -> SetContact zero_row jac s v <> None.
Proof.
  intros [W _] T Jac L. unfold SetContact.
  destruct (Nat.ltb_spec (List.length (s_cc s)) (List.length v)); [lia|].
  assert (D6 : Forall (fun c => c_dof c = Some 6) (s_cc s)).
  { rewrite Forall_forall in *. intros c Hc. destruct (W c Hc) as [D _]. rewrite D, (T c Hc). reflexivity. }
  destruct (set_contact_loop v (s_cc s) 0 0) as [[[l n] d]|] eqn:E.
  2:{ exfalso. revert E. apply set_loop_defined; [assumption|].
      eapply Forall_impl; [|exact D6]. cbn. congruence. }
  pose proof (set_loop_links _ _ _ _ _ _ _ E) as FL.
  destruct (set_loop_spec _ _ _ _ _ _ _ E) as (_ & _ & L3 & _ & ds & L5 & L6).
  assert (Tl : Forall (fun c => c_type c = CONTACT_6D /\ c_dof c = Some 6 /\ c_on c <> None) l).
  { clear - FL T D6. induction FL as [|x y a b [z ->] _ IH]; constructor; inv T; inv D6; auto.
    cbn. repeat split; auto. discriminate. }
  unfold UpdateContactConstraint. cbn [s_cc s_dof s_J].
  destruct (map_opt_some (UpdateContact jac) l) as [l' M].
  { eapply Forall_impl; [|exact Tl]. intros c [Hc _]. unfold UpdateContact. rewrite Hc. cbn. discriminate. }
  rewrite M. apply map_opt_Forall2 in M. rename M into F.
  set (J0 := if _ =? _ then _ else _).
  assert (LJ : List.length J0 = d).
  { unfold J0. destruct (Nat.eqb_spec (List.length (s_J s)) d); [assumption|apply repeat_length]. }
  destruct (stack_loop l' 0 J0) as [J|] eqn:K; [discriminate|].
  exfalso. revert K. apply stack_loop_defined.
  - clear - F Tl Jac. induction F as [|x y a b U _ IH]; constructor; inv Tl; auto.
    destruct H1 as [A [B C]]. destruct (UpdateContact_same _ _ _ U) as [[S1 [S2 [S3 _]]] [O [S4 _]]].
    repeat split; [congruence|congruence|]. rewrite (S4 A). unfold swap33.
    rewrite app_length, skipn_length, firstn_length, Jac. reflexivity.
  - destruct (Update_active _ _ _ F) as [A1 A2]. rewrite A1.
    rewrite (filter_dof6 l ds) in L6; [lia| |exact L5].
    eapply Forall_impl; [|exact Tl]. cbn. tauto.
Qed.

(* ---- undefined behaviour with point contacts ---- *)
Lemma Update_point_undefined jac s : Exists (fun c => c_type c = CONTACT_POINT) (s_cc s) ->
  UpdateContactConstraint zero_row jac s = None.
Proof.
  intros H. unfold UpdateContactConstraint.
  replace (map_opt (UpdateContact jac) (s_cc s)) with (@None (list contact)); [reflexivity|].
  induction H as [c l Hc|c l _ IH]; cbn [map_opt].
  - unfold UpdateContact at 1. rewrite Hc. reflexivity.
  - rewrite <- IH. destruct (UpdateContact jac c); reflexivity.
Qed.

Lemma SetContact_point_undefined jac s v : Exists (fun c => c_type c = CONTACT_POINT) (s_cc s) ->
  SetContact zero_row jac s v = None.
Proof.
  intros H. unfold SetContact. destruct (_ <? _); [apply Update_point_undefined; exact H|].
  destruct (set_contact_loop v (s_cc s) 0 0) as [[[l n] d]|] eqn:E; [|reflexivity].
  apply Update_point_undefined. cbn [s_cc].
  pose proof (set_loop_links _ _ _ _ _ _ _ E) as FL. clear - H FL.
  induction FL as [|x y a b [z ->] _ IH]; inv H; [constructor; assumption|].
  apply Exists_cons_tl. auto.
Qed.

Lemma SetContact_line_undefined jac s v i c : CInv s ->
  nth_error (s_cc s) i = Some c -> c_type c = CONTACT_LINE -> nth i v false = true ->
  List.length v <= List.length (s_cc s) ->
  SetContact zero_row jac s v = None.
Proof.
  intros I Hc T Hv L. destruct (SetContact zero_row jac s v) as [s'|] eqn:H; [|reflexivity]. exfalso.
  assert (I' : CInv s') by (apply (cstep_CInv s (OSet jac v)); assumption).
  destruct (SetContact_accepted _ _ _ _ L H) as (_ & LL & A & _ & _).
  destruct (nth_error (s_cc s') i) as [c'|] eqn:E'.
  2:{ apply nth_error_None in E'. assert (i < List.length (s_cc s)) by (apply nth_error_Some; congruence). lia. }
  destruct (A _ _ E') as [O [c0 [E0 [S1 [S2 [S3 S4]]]]]]. rewrite Hc in E0. inv E0.
  unfold SetContact in H. destruct (_ <? _) eqn:E1; [apply Nat.ltb_lt in E1; lia|].
  destruct (set_contact_loop v (s_cc s) 0 0) as [[[l n] d]|]; [|discriminate].
  destruct (Update_inv_shape _ _ _ H) as (dof & J0 & _ & _ & _ & K & _).
  pose proof (stack_loop_dofs _ _ _ _ K) as FD. rewrite Forall_forall in FD.
  assert (IN : In c' (filter active (s_cc s'))).
  { apply filter_In. split; [eapply nth_error_In; eauto|]. unfold active. rewrite O, Hv. reflexivity. }
  specialize (FD _ IN). destruct I' as [W _]. rewrite Forall_forall in W.
  destruct (W c' (nth_error_In _ _ E')) as [W1 [_ W3]].
  rewrite W3 in FD by (rewrite <- S2, T; discriminate).
  rewrite FD in W1. rewrite <- S2, T in W1. discriminate.
Qed.

End Proofs.
