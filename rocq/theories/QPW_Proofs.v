From Coq Require Import List Arith ZArith Bool Lia.
From Verif Require Import QPW_Model QPW_Spec.
Import ListNotations.
Local Open Scope nat_scope.

Section Proofs.
Context {E : Type} (zero : E).
Context {S : Type} (snew : nat -> nat -> S) (sdefault : S)
        (srun : kind -> S -> opts -> @call E -> Z -> S * bool * Z) (ssol : S -> bool * vec E).
Local Notation op := (@op E).
Local Notation ev := (@ev E).
Local Notation qpw := (@qpw E S).
Local Notation step := (@step E zero S snew srun ssol).
Local Notation exec := (@exec E zero S snew srun ssol).
Local Notation SolveQPoases := (@SolveQPoases E S snew srun ssol).

Lemma exec_app w a b : exec w (a ++ b) =
  match exec w a with
  | None => None
  | Some (w1, t1) => match exec w1 b with None => None | Some (w2, t2) => Some (w2, t1 ++ t2) end
  end.
Proof.
  revert w; induction a as [|o a IH]; intros w; cbn.
  - destruct (exec w b) as [[w2 t2]|]; reflexivity.
  - destruct (step w o) as [[w1 t1]|]; [|reflexivity]. rewrite IH.
    destruct (exec w1 a) as [[w2 t2]|]; [|reflexivity].
    destruct (exec w2 b) as [[w3 t3]|]; [|reflexivity]. now rewrite app_assoc.
Qed.

(* what a solve does to the state and which events it makes *)
Lemma solve_inv w n mpc w' t : SolveQPoases w n mpc = Some (w', t) ->
  exists a s2 ok2 scs x evs, arguments w = Some a /\ w' = setSolver w s2 true /\
    ssol s2 = (scs, x) /\ t = evs ++ [ESol scs; ERet (if ok2 && scs then 1 else 0)%Z x] /\
    let o := if mpc then OptMPC else OptReliable in
    let k := if w_init w then KHot else KInit in
    (exists n1, srun k (w_s w) o a n = (s2, true, n1) /\ ok2 = true /\ evs = [ECall k o a n true]) \/
    (exists s1 n1 n3, srun k (w_s w) o a n = (s1, false, n1) /\
       srun KInit (snew (w_nv w) (w_nc w)) OptReliable a (n1 * 10)%Z = (s2, ok2, n3) /\
       evs = [ECall k o a n false; ENew (w_nv w) (w_nc w); ECall KInit OptReliable a (n1 * 10)%Z ok2]).
Proof.
  unfold QPW_Model.SolveQPoases. destruct (arguments w) as [a|] eqn:ea; [|discriminate].
  destruct (srun _ _ _ a n) as [[s1 ok1] n1] eqn:e1; destruct ok1.
  - destruct (ssol s1) as [scs x] eqn:es. intros H; inversion H; subst; clear H.
    exists a, s1, true, scs, x, [ECall (if w_init w then KHot else KInit) (if mpc then OptMPC else OptReliable) a n true].
    repeat (split; [reflexivity || assumption|]). left. exists n1. auto.
  - destruct (srun KInit _ _ a _) as [[s2 ok2] n3] eqn:e2. destruct (ssol s2) as [scs x] eqn:es.
    intros H; inversion H; subst; clear H.
    exists a, s2, ok2, scs, x.
    exists [ECall (if w_init w then KHot else KInit) (if mpc then OptMPC else OptReliable) a n false;
            ENew (w_nv w) (w_nc w); ECall KInit OptReliable a (n1 * 10)%Z ok2].
    repeat (split; [reflexivity || assumption|]). right. exists s1, n1, n3. auto.
Qed.

Lemma msized_ok M r c : msized (E:=E) M r c = true <-> rows M = r /\ cols M = c.
Proof. unfold msized. now rewrite andb_true_iff, !Nat.eqb_eq. Qed.
Lemma vsized_ok v n : vsized (E:=E) v n = true <-> vsize v = n.
Proof. unfold vsized. now rewrite Nat.eqb_eq. Qed.

(* the arguments, described *)
Lemma arguments_inv (w : qpw) a : arguments w = Some a ->
  k_H a = w_H w /\ k_g a = w_g w /\ call_fits (w_nv w) (w_nc w) a /\
  exists ax x, w_ax w = Some ax /\ w_x w = Some x /\
    (if x then k_lb a = Ptr (w_lb w) /\ k_ub a = Ptr (w_ub w) else k_lb a = Null /\ k_ub a = Null) /\
    (if ax then k_A a = Some (w_A w) /\ k_ubA a = Ptr (w_ubA w) /\
                exists u, w_axub w = Some u /\ k_lbA a = if u then Garbage else Ptr (w_lbA w)
     else k_A a = None /\ k_lbA a = Null /\ k_ubA a = Null).
Proof.
  unfold arguments. destruct (msized (w_H w) _ _ && _) eqn:e1; [|discriminate].
  apply andb_true_iff in e1 as [e1 e2]. apply msized_ok in e1 as [e1 e1']. apply vsized_ok in e2.
  destruct (w_ax w) as [ax|]; [|discriminate]. destruct (w_x w) as [x|]; [|discriminate].
  destruct (if x then _ else true) eqn:ex; [|discriminate].
  assert (hx : x = true -> vsize (w_lb w) = w_nv w /\ vsize (w_ub w) = w_nv w).
  { intros ->. apply andb_true_iff in ex as [h1 h2]. split; now apply vsized_ok. }
  destruct ax.
  - destruct (w_axub w) as [u|]; [|discriminate].
    destruct (msized (w_A w) _ _ && _ && _) eqn:e3; [|discriminate].
    apply andb_true_iff in e3 as [e3 e4]. apply andb_true_iff in e3 as [e3 e5].
    apply msized_ok in e3 as [e3 e3']. apply vsized_ok in e5.
    intros H; inversion H; subst; clear H; cbn.
    split; [reflexivity|]. split; [reflexivity|]. split.
    + unfold call_fits; cbn. split; [auto|]. split; [auto|]. split; [auto|]. split; [|split].
      * intros A HA; inversion HA; subst; auto.
      * intros v [H|H]; destruct x; inversion H; subst; now apply hx.
      * intros v [H|H]; [|inversion H; subst; assumption].
        destruct u; inversion H; subst. apply orb_true_iff in e4 as [e4|e4]; [discriminate|now apply vsized_ok].
    + exists true, x. repeat split; auto; [destruct x; auto|]. exists u; auto.
  - intros H; inversion H; subst; clear H; cbn.
    split; [reflexivity|]. split; [reflexivity|]. split.
    + unfold call_fits; cbn. split; [auto|]. split; [auto|]. split; [auto|]. split; [discriminate|split].
      * intros v [H|H]; destruct x; inversion H; subst; now apply hx.
      * intros v [H|H]; discriminate.
    + exists false, x. repeat split; auto. destruct x; auto.
Qed.

(* the members hold what was last supplied *)
Definition holds (nv nc : nat) (h : list op) (w : qpw) : Prop :=
  w_nv w = nv /\ w_nc w = nc /\ w_axub w = Some false /\
  (w_H w, w_g w) = last_min zero nv h /\
  match last_ax h with
  | Some (A, l, u) => w_ax w = Some true /\ w_A w = A /\ w_lbA w = l /\ w_ubA w = u
  | None => w_ax w = Some false
  end /\
  match last_x h with
  | Some (l, u) => w_x w = Some true /\ w_lb w = l /\ w_ub w = u
  | None => w_x w = Some false
  end.

Lemma holds_step nv nc h w o w' t : holds nv nc h w -> plain o -> step w o = Some (w', t) ->
  holds nv nc (o :: h) w'.
Proof.
  intros (h1 & h2 & h3 & h4 & h5 & h6) p e. unfold holds.
  destruct o; cbn in p, e |- *; try contradiction;
    try (inversion e; subst; clear e; cbn; repeat split; auto; fail).
  - destruct (solve_inv _ _ _ _ _ e) as (a & s2 & ok2 & scs & x & evs & _ & -> & _). cbn.
    repeat split; auto.
Qed.

Lemma holds_exec nv nc os : forall h w w' t, holds nv nc h w -> Forall plain os ->
  exec w os = Some (w', t) -> holds nv nc (rev os ++ h) w'.
Proof.
  induction os as [|o os IH]; intros h w w' t hh p e; cbn in e.
  - inversion e; subst; exact hh.
  - inversion p; subst. destruct (step w o) as [[w1 t1]|] eqn:e1; [|discriminate].
    destruct (exec w1 os) as [[w2 t2]|] eqn:e2; [|discriminate]. inversion e; subst.
    cbn. rewrite <- app_assoc. cbn. eapply IH; eauto. eapply holds_step; eauto.
Qed.

Lemma holds_init nv nc : holds nv nc [] (InitializeProblemSize zero snew nv nc).
Proof. unfold holds; cbn; repeat split; auto. Qed.

(* hotstart invariant: a trace and the state after it *)
Definition inited (w : qpw) (t : list ev) : Prop :=
  w_init w = true -> exists p0 p1 o' a' n' ok' p2,
    t = p0 ++ ENew (w_nv w) (w_nc w) :: p1 ++ ECall KInit o' a' n' ok' :: p2 /\
    Forall (fun e => ~ is_new e) (p1 ++ p2).
(* the last ENew in the trace has the current sizes *)
Definition created (w : qpw) (t : list ev) : Prop :=
  exists p0 p1, t = p0 ++ ENew (w_nv w) (w_nc w) :: p1 /\ Forall (fun e => ~ is_new e) p1.

Lemma hot_app (t1 t2 : list ev) :
  hotstarts_ok t1 ->
  (forall pre post o a n ok, t2 = pre ++ ECall KHot o a n ok :: post ->
     exists p0 nv nc p1 o' a' n' ok' p2,
     t1 ++ pre = p0 ++ ENew nv nc :: p1 ++ ECall KInit o' a' n' ok' :: p2 /\
     Forall (fun e => ~ is_new e) (p1 ++ p2) /\ call_fits nv nc a) ->
  hotstarts_ok (t1 ++ t2).
Proof.
  intros h1 h2 pre post o a n ok e.
  destruct (Nat.le_gt_cases (length t1) (length pre)) as [l|l].
  - assert (exists q, pre = t1 ++ q /\ t2 = q ++ ECall KHot o a n ok :: post) as (q & -> & e2).
    { clear h1 h2. revert pre e l; induction t1 as [|x t1 IH]; intros pre e l; cbn in *.
      - exists pre; auto.
      - destruct pre as [|y pre]; cbn in *; [lia|]. inversion e; subst.
        destruct (IH pre H1) as (q & -> & ->); [lia|]. exists q; auto. }
    eapply h2; eauto.
  - assert (exists q, t1 = pre ++ ECall KHot o a n ok :: q) as (q & e2).
    { clear h1 h2. revert pre e l; induction t1 as [|x t1 IH]; intros pre e l; cbn in *; [lia|].
      destruct pre as [|y pre]; cbn in *; inversion e; subst.
      - exists t1; auto.
      - destruct (IH pre H1) as (q & ->); [lia|]. exists q; auto. }
    eapply h1; eauto.
Qed.

Lemma hot_nil (t : list ev) : hotstarts_ok t -> hotstarts_ok (t ++ []).
Proof. now rewrite app_nil_r. Qed.

Definition inv (w : qpw) (t : list ev) : Prop := hotstarts_ok t /\ inited w t /\ created w t.

Lemma not_new_tail scs r x : Forall (fun e : ev => ~ is_new e) [ESol scs; ERet r x].
Proof. repeat constructor; cbn; auto. Qed.

Lemma inv_step w t o w' t' : inv w t -> step w o = Some (w', t') -> inv w' (t ++ t').
Proof.
  intros (h1 & h2 & h3) e.
  destruct o; cbn in e;
    try (inversion e; subst; clear e; split; [now apply hot_nil|split];
         [intros q; cbn in *; rewrite app_nil_r; now apply h2|unfold created; rewrite app_nil_r; exact h3]).
  - inversion e; subst; clear e. split; [|split].
    + apply hot_app; auto. intros pre post o a n ok e. exfalso.
      destruct pre as [|y pre]; [discriminate|]. inversion e. destruct pre; discriminate.
    + intros q; cbn in q; discriminate.
    + exists t, []; auto.
  - destruct (solve_inv _ _ _ _ _ e) as (a & s2 & ok2 & scs & x & evs & ea & -> & es & -> & hd). cbn in hd.
    destruct (arguments_inv _ _ ea) as (_ & _ & cf & _).
    assert (callsame : forall pre post o' a' n' ok', evs = pre ++ ECall KHot o' a' n' ok' :: post ->
        pre = [] /\ a' = a /\ w_init w = true).
    { intros pre post o' a' n' ok' eq.
      destruct hd as [(n1 & _ & _ & he)|(s1 & n1 & n3 & _ & _ & he)]; rewrite he in eq.
      - destruct pre as [|? [|]]; cbn in eq; inversion eq; subst. destruct (w_init w); [auto|discriminate].
      - destruct pre as [|? [|? [|? [|]]]]; cbn in eq; inversion eq; subst.
        destruct (w_init w); [auto|discriminate]. }
    split; [|split].
    + apply hot_app; auto. intros pre post o' a' n' ok' eq.
      assert (exists p', evs = pre ++ ECall KHot o' a' n' ok' :: p') as (p' & eq').
      { clear -eq. revert pre eq; induction evs as [|y q IH]; intros pre eq; cbn in *.
        - destruct pre as [|? [|? [|? ?]]]; discriminate.
        - destruct pre as [|z pre]; cbn in *; inversion eq; subst.
          + exists q; auto.
          + destruct (IH pre H1) as (p' & ->); exists p'; auto. }
      destruct (callsame _ _ _ _ _ _ eq') as (-> & -> & wi).
      destruct (h2 wi) as (p0 & p1 & o2 & a2 & n2 & ok3 & p2 & et & hn).
      exists p0, (w_nv w), (w_nc w), p1, o2, a2, n2, ok3, p2. rewrite app_nil_r. auto.
    + intros _. cbn.
      destruct hd as [(n1 & _ & _ & ->)|(s1 & n1 & n3 & _ & _ & ->)].
      * destruct (w_init w) eqn:wi.
        -- destruct (h2 wi) as (p0 & p1 & o2 & a2 & n2 & ok3 & p2 & -> & hn).
           exists p0, p1, o2, a2, n2, ok3.
           eexists (p2 ++ _ :: _). split.
           ++ rewrite <- !app_assoc. cbn. rewrite <- !app_assoc. reflexivity.
           ++ rewrite app_assoc. apply Forall_app; split; [exact hn|]. repeat constructor; cbn; auto.
        -- destruct h3 as (p0 & p1 & -> & hn).
           eexists p0, p1, _, _, _, _, _. split.
           ++ rewrite <- !app_assoc. cbn. reflexivity.
           ++ apply Forall_app; split; [exact hn|]. repeat constructor; cbn; auto.
      * eexists (t ++ [_]), [], _, _, _, _, _. split.
        -- rewrite <- !app_assoc. cbn. reflexivity.
        -- cbn. repeat constructor; cbn; auto.
    + unfold created; cbn.
      destruct hd as [(n1 & _ & _ & ->)|(s1 & n1 & n3 & _ & _ & ->)].
      * destruct h3 as (p0 & p1 & -> & hn). eexists p0, (p1 ++ _). split.
        -- rewrite <- !app_assoc. cbn. reflexivity.
        -- apply Forall_app; split; [exact hn|]. repeat constructor; cbn; auto.
      * eexists (t ++ [_]), _. split.
        -- rewrite <- !app_assoc. cbn. reflexivity.
        -- repeat constructor; cbn; auto.
Qed.

Lemma inv_exec os : forall w t w' t', inv w t -> exec w os = Some (w', t') -> inv w' (t ++ t').
Proof.
  induction os as [|o os IH]; intros w t w' t' hi e; cbn in e.
  - inversion e; subst. now rewrite app_nil_r.
  - destruct (step w o) as [[w1 t1]|] eqn:e1; [|discriminate].
    destruct (exec w1 os) as [[w2 t2]|] eqn:e2; [|discriminate]. inversion e; subst.
    rewrite app_assoc. eapply IH; eauto. eapply inv_step; eauto.
Qed.

(* solving is defined when all data fits *)
Definition fitting (nv nc : nat) (w : qpw) : Prop :=
  w_nv w = nv /\ w_nc w = nc /\ rows (w_H w) = nv /\ cols (w_H w) = nv /\ vsize (w_g w) = nv /\
  rows (w_A w) = nc /\ cols (w_A w) = nv /\ vsize (w_lbA w) = nc /\ vsize (w_ubA w) = nc /\
  vsize (w_lb w) = nv /\ vsize (w_ub w) = nv /\
  w_ax w <> None /\ w_axub w <> None /\ w_x w <> None.

Lemma fitting_args nv nc w : fitting nv nc w -> exists a, arguments w = Some a.
Proof.
  intros (e1 & e2 & h1 & h2 & h3 & h4 & h5 & h6 & h7 & h8 & h9 & n1 & n2 & n3). unfold arguments.
  rewrite e1, e2.
  rewrite (proj2 (msized_ok _ _ _) (conj h1 h2)), (proj2 (vsized_ok _ _) h3). cbn.
  destruct (w_ax w) as [ax|]; [|contradiction]. destruct (w_x w) as [x|]; [|contradiction].
  rewrite (proj2 (vsized_ok _ _) h8), (proj2 (vsized_ok _ _) h9). cbn.
  replace (if x then true else true) with true by now destruct x.
  destruct ax; [|eauto]. destruct (w_axub w) as [u|]; [|contradiction].
  rewrite (proj2 (msized_ok _ _ _) (conj h4 h5)), (proj2 (vsized_ok _ _) h7), (proj2 (vsized_ok _ _) h6).
  cbn. rewrite orb_true_r. eauto.
Qed.

Lemma fitting_step nv nc w o : fitting nv nc w -> no_reinit o -> fits nv nc o ->
  exists w' t, step w o = Some (w', t) /\ fitting nv nc w'.
Proof.
  intros hf nr f. assert (hf' := hf).
  destruct hf as (h0 & h0' & h1 & h2 & h3 & h4 & h5 & h6 & h7 & h8 & h9 & n1 & n2 & n3).
  destruct o; cbn in nr, f |- *; try contradiction.
  1-6: eexists _, _; split; [reflexivity|]; unfold fitting; cbn; intuition (try assumption; try discriminate).
  - unfold QPW_Model.SolveQPoases. destruct (fitting_args _ _ _ hf') as (a & ->).
    destruct (srun _ _ _ a n) as [[s1 ok1] m1]. destruct ok1.
    + destruct (ssol s1) as [scs x]. eexists _, _; split; [reflexivity|]. exact hf'.
    + destruct (srun KInit _ _ a _) as [[s2 ok2] m2]. destruct (ssol s2) as [scs x].
      eexists _, _; split; [reflexivity|]. exact hf'.
Qed.

Lemma fitting_exec nv nc os : forall w, fitting nv nc w -> Forall no_reinit os -> Forall (fits nv nc) os ->
  exists w' t, exec w os = Some (w', t) /\ fitting nv nc w'.
Proof.
  induction os as [|o os IH]; intros w hf nr f.
  - exists w, []; auto.
  - inversion nr; inversion f; subst. destruct (fitting_step nv nc w o hf) as (w1 & t1 & e1 & hf1); auto.
    destruct (IH w1 hf1) as (w2 & t2 & e2 & hf2); auto.
    exists w2, (t1 ++ t2). cbn. now rewrite e1, e2.
Qed.

Lemma fitting_init nv nc : fitting nv nc (InitializeProblemSize zero snew nv nc).
Proof. unfold fitting; cbn; repeat split; auto; discriminate. Qed.
End Proofs.
