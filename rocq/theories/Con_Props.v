(* Theorems about the contact registry: C01, C02, C06, C61, first part of C10. *)
From Coq Require Import List Arith ZArith Bool String Ascii Lia.
From Verif Require Import Con_Model Con_Spec Con_Proofs Con_Ex.
Import ListNotations.
Local Open Scope string_scope.

Section Props.
Context {Row : Type} (zero_row : Row).
Implicit Types (jac : Z -> list Row) (s : cstate Row) (ops : list (cop Row)).

(* C01: an accepted SetContact (not more flags than contacts). *)
Theorem C01_accepted : forall names ops s jac v s',
  crun zero_row (cinit names) ops = Some s ->
  List.length v <= List.length (s_cc s) ->
  cstep zero_row s (OSet jac v) = Some s' ->
  s_names s' = s_names s /\
  List.length (s_cc s') = List.length (s_cc s) /\
  (forall i c, nth_error (s_cc s') i = Some c ->
     c_on c = Some (nth i v false) /\
     exists c0, nth_error (s_cc s) i = Some c0 /\ same_contact c0 c) /\
  s_num s' = Some (List.length (filter active (s_cc s'))) /\
  (exists ds, map c_dof (filter active (s_cc s')) = map Some ds /\ s_dof s' = Some (list_sum ds)).
Proof. intros names ops s jac v s' _. exact (SetContact_accepted zero_row jac s v s'). Qed.

(* C01: with plane contacts an accepted call has no undefined behaviour. *)
Theorem C01_defined : forall names ops s jac v,
  crun zero_row (cinit names) ops = Some s ->
  Forall (fun c => c_type c = CONTACT_6D) (s_cc s) ->
  (forall k, List.length (jac k) = 6) ->
  List.length v <= List.length (s_cc s) ->
  exists s', cstep zero_row s (OSet jac v) = Some s'.
Proof.
  intros names ops s jac v H T J L.
  destruct (cstep zero_row s (OSet jac v)) as [s'|] eqn:E; [eauto|].
  exfalso. revert E. apply SetContact_defined; auto.
  eapply crun_CInv; [apply cinit_CInv|exact H].
Qed.

(* C01: too many flags. *)
Theorem C01_rejected : forall names ops s jac v s',
  crun zero_row (cinit names) ops = Some s ->
  List.length (s_cc s) < List.length v ->
  cstep zero_row s (OSet jac v) = Some s' ->
  s_names s' = s_names s /\ s_num s' = s_num s /\ s_dof s' = s_dof s /\
  Forall2 (fun c0 c => same_contact c0 c /\ c_on c = c_on c0) (s_cc s) (s_cc s').
Proof. intros names ops s jac v s' _. exact (SetContact_rejected zero_row jac s v s'). Qed.

(* C01: the degrees of freedom and constraint counts the sums are made of. *)
Theorem C01_contact_sizes : forall names ops s,
  crun zero_row (cinit names) ops = Some s ->
  Forall (fun c =>
    (c_type c = CONTACT_6D -> c_dof c = Some 6 /\ c_num c = Some 10) /\
    (c_type c = CONTACT_LINE -> c_dof c = Some 5 /\ c_num c = Some 10) /\
    (c_type c = CONTACT_POINT -> c_dof c = Some 3 /\ c_num c = Some 6)) (s_cc s).
Proof.
  intros names ops s H. destruct (crun_CInv zero_row _ _ _ (cinit_CInv zero_row names) H) as [W _].
  eapply Forall_impl; [|exact W]. cbn. intros c [D [N _]]. rewrite D, N.
  repeat split; match goal with E : c_type c = _ |- _ => rewrite E; reflexivity end.
Qed.

(* C02: no two contacts on one link, and every contact is on an existing link. *)
Theorem C02_one_contact_per_link : forall names ops s,
  crun zero_row (cinit names) ops = Some s ->
  NoDup (map c_link (s_cc s)) /\
  Forall (fun c => (0 <= c_link c < Z.of_nat (List.length (s_names s)))%Z) (s_cc s).
Proof.
  intros names ops s H. destruct (crun_CInv zero_row _ _ _ (cinit_CInv zero_row names) H) as [_ [A B]].
  split; [exact A|]. eapply Forall_impl; [|exact B]. cbn. intros c L. unfold link_at in L.
  destruct (Z.ltb_spec (c_link c) 0); [congruence|].
  apply nth_error_Some in L. lia.
Qed.

(* C02: adding by name. *)
Theorem C02_add_by_name : forall s name t,
  ((forall j x, nth_error (s_names s) j = Some x -> ~ same_name x name) ->
     cstep zero_row s (OAddName name t) = Some s) /\
  (forall k, first_named (s_names s) name k ->
     (In (Z.of_nat k) (map c_link (s_cc s)) -> cstep zero_row s (OAddName name t) = Some s) /\
     (~ In (Z.of_nat k) (map c_link (s_cc s)) ->
        exists s' c, cstep zero_row s (OAddName name t) = Some s' /\
          s_cc s' = (s_cc s ++ [c])%list /\ c_link c = Z.of_nat k /\ c_type c = t /\
          s_names s' = s_names s /\ s_dof s' = s_dof s /\ s_num s' = s_num s /\ s_J s' = s_J s)).
Proof.
  intros s name t. cbn [cstep]. unfold AddContactConstraintByName. split.
  - intros H. destruct (find_link (s_names s) name) as [k|] eqn:E; [|reflexivity].
    exfalso. destruct (find_link_some _ _ _ E) as [[x [A B]] _]. exact (H _ _ A B).
  - intros k F. assert (E : find_link (s_names s) name = Some k).
    { destruct (find_link (s_names s) name) as [k'|] eqn:E.
      - apply find_link_some in E. destruct E as [[x [A B]] C], F as [[x' [A' B']] C'].
        destruct (lt_eq_lt_dec k k') as [[L|L]|L].
        + exfalso. exact (C _ _ L A' B').
        + subst. reflexivity.
        + exfalso. exact (C' _ _ L A B).
      - exfalso. destruct F as [[x [A B]] _]. exact (find_link_none _ _ E _ _ A B). }
    rewrite E. destruct (existsb _ (s_cc s)) eqn:X.
    + split; [reflexivity|]. intros N. exfalso. apply N. apply existsb_exists in X.
      destruct X as [c [Hc Ec]]. apply Z.eqb_eq in Ec. rewrite <- Ec. apply in_map, Hc.
    + split.
      * intros I. exfalso. exact (existsb_link _ _ X I).
      * intros _. do 2 eexists. split; [reflexivity|]. cbn. repeat split; reflexivity.
Qed.

(* C02: adding by index. *)
Theorem C02_add_by_index : forall s k t,
  (0 <= k < Z.of_nat (List.length (s_names s)))%Z ->
  (In k (map c_link (s_cc s)) -> cstep zero_row s (OAdd k t) = Some s) /\
  (~ In k (map c_link (s_cc s)) ->
     exists s' c, cstep zero_row s (OAdd k t) = Some s' /\
       s_cc s' = (s_cc s ++ [c])%list /\ c_link c = k /\ c_type c = t /\
       s_names s' = s_names s /\ s_dof s' = s_dof s /\ s_num s' = s_num s /\ s_J s' = s_J s).
Proof.
  intros s k t K. cbn [cstep]. unfold AddContactConstraint.
  assert (L : exists x, link_at (s_names s) k = Some x).
  { unfold link_at. destruct (Z.ltb_spec k 0); [lia|].
    destruct (nth_error (s_names s) (Z.to_nat k)) eqn:E; [eauto|]. apply nth_error_None in E. lia. }
  destruct L as [x ->]. destruct (existsb _ (s_cc s)) eqn:X.
  - split; [reflexivity|]. intros N. exfalso. apply N. apply existsb_exists in X.
    destruct X as [c [Hc Ec]]. apply Z.eqb_eq in Ec. rewrite <- Ec. apply in_map, Hc.
  - split.
    + intros I. exfalso. exact (existsb_link _ _ X I).
    + intros _. do 2 eexists. split; [reflexivity|]. cbn. repeat split; reflexivity.
Qed.

(* C06: J_C after an accepted SetContact. *)
Theorem C06_contact_jacobian : forall names ops s jac v s',
  crun zero_row (cinit names) ops = Some s ->
  List.length v <= List.length (s_cc s) ->
  cstep zero_row s (OSet jac v) = Some s' ->
  s_J s' = flat_map (fun c => linear_first (jac (c_link c))) (filter active (s_cc s')) /\
  s_dof s' = Some (List.length (s_J s')).
Proof.
  intros names ops s jac v s' H. apply SetContact_J.
  eapply crun_CInv; [apply cinit_CInv|exact H].
Qed.

(* C10 (activation part), refuted: any registered point contact makes every SetContact
   undefined; activating a line contact is undefined. *)
Theorem C10_point_contact_undefined : forall s jac v,
  Exists (fun c => c_type c = CONTACT_POINT) (s_cc s) -> cstep zero_row s (OSet jac v) = None.
Proof. intros s jac v. exact (SetContact_point_undefined zero_row jac s v). Qed.

Theorem C10_line_contact_undefined : forall names ops s jac v i c,
  crun zero_row (cinit names) ops = Some s ->
  nth_error (s_cc s) i = Some c -> c_type c = CONTACT_LINE -> nth i v false = true ->
  List.length v <= List.length (s_cc s) ->
  cstep zero_row s (OSet jac v) = None.
Proof.
  intros names ops s jac v i c H. apply SetContact_line_undefined.
  eapply crun_CInv; [apply cinit_CInv|exact H].
Qed.
End Props.

(* C61, refuted: a rejected SetContact made before any accepted one reads uninitialised
   members, and so does one made after a further contact was registered. *)
Theorem C61_rejected_call_refuted :
  exists (Row : Type) (z : Row) names ops s jac v,
    crun z (cinit names) ops = Some s /\
    Forall (fun c => c_type c = CONTACT_6D) (s_cc s) /\
    List.length (s_cc s) < List.length v /\
    s_dof s <> None /\
    (forall k, List.length (jac k) = 6) /\
    cstep z s (OSet jac v) = None.
Proof.
  exists tag_row, zrow, names4,
    [OAdd 1%Z CONTACT_6D; OSet tag_jac [true]; OAdd 2%Z CONTACT_6D].
  eexists. exists tag_jac, [true; true; true].
  split; [reflexivity|]. split; [repeat constructor|]. split; [cbn; lia|]. split; [discriminate|].
  split; [intros k; reflexivity|reflexivity].
Qed.

(* ---- examples: the hypotheses are met by a concrete registry ---- *)
Example Con_ex_history : crun zrow (cinit names4) hist1 = Some reg1 /\
  map c_link (s_cc reg1) = [1; 2; 3]%Z /\ map c_on (s_cc reg1) = [Some true; Some false; Some false] /\
  s_dof reg1 = Some 6 /\ s_num reg1 = Some 1.
Proof. repeat split. Qed.

Example Con_ex_accepted : exists s', cstep zrow reg1 (OSet tag_jac [true; false; true]) = Some s' /\
  s_dof s' = Some 12 /\ s_num s' = Some 2 /\
  s_J s' = (map (fun i => (1%Z, i)) [3; 4; 5; 0; 1; 2] ++ map (fun i => (3%Z, i)) [3; 4; 5; 0; 1; 2])%list.
Proof. eexists. split; [reflexivity|]. repeat split. Qed.

Example Con_ex_rejected : exists s', cstep zrow reg1 (OSet tag_jac [true; true; true; true]) = Some s' /\
  map c_on (s_cc s') = [Some true; Some false; Some false] /\ s_dof s' = Some 6.
Proof. eexists. split; [reflexivity|]. repeat split. Qed.

Example Con_ex_plane : Forall (fun c => c_type c = CONTACT_6D) (s_cc reg1) /\
  forall k, List.length (tag_jac k) = 6.
Proof. split; [repeat constructor|reflexivity]. Qed.

Example Con_ex_first_named : first_named names4 "l_FOOT" 1 /\
  (forall j x, nth_error names4 j = Some x -> ~ same_name x "nosuch").
Proof.
  split.
  - split; [exists "L_Foot"; split; reflexivity|].
    intros [|i] x L H; [|lia]. injection H as <-. vm_compute. discriminate.
  - intros j x H. do 4 (destruct j as [|j]; [injection H as <-; vm_compute; discriminate|]).
    destruct j; discriminate.
Qed.

Example Con_ex_point : exists s, crun zrow (cinit names4) point_hist = Some s /\
  Exists (fun c => c_type c = CONTACT_POINT) (s_cc s).
Proof. eexists. split; [reflexivity|]. cbn. apply Exists_cons_tl, Exists_cons_hd. reflexivity. Qed.

Example Con_ex_line : exists s c, crun zrow (cinit names4) line_hist = Some s /\
  nth_error (s_cc s) 1 = Some c /\ c_type c = CONTACT_LINE.
Proof. do 2 eexists. split; [reflexivity|]. split; reflexivity. Qed.

Print Assumptions C01_accepted.
Print Assumptions C01_defined.
Print Assumptions C01_rejected.
Print Assumptions C01_contact_sizes.
Print Assumptions C02_one_contact_per_link.
Print Assumptions C02_add_by_name.
Print Assumptions C02_add_by_index.
Print Assumptions C06_contact_jacobian.
Print Assumptions C10_point_contact_undefined.
Print Assumptions C10_line_contact_undefined.
Print Assumptions C61_rejected_call_refuted.
