(* C34, C73: the QP wrapper. *)
From Coq Require Import List Arith ZArith Bool Lia.
From Verif Require Import QPW_Model QPW_Spec QPW_Proofs.
Import ListNotations.
Local Open Scope nat_scope.

Section Props.
Context {E : Type} (zero : E).
Context {S : Type} (snew : nat -> nat -> S) (sdefault : S)
        (srun : kind -> S -> opts -> @call E -> Z -> S * bool * Z) (ssol : S -> bool * vec E).
Local Notation op := (@op E).
Local Notation ev := (@ev E).
Local Notation exec := (@exec E zero S snew srun ssol).
Local Notation step := (@step E zero S snew srun ssol).
Local Notation fresh := (@fresh E zero S sdefault).

(* C34, the data.  Missing: UpdateSubjectToAxUb, see the refutations below.  Whatever happened to the
   object before its last InitializeProblemSize, every call to qpOASES made by a solve carries
   exactly what was last supplied. *)
Theorem C34_data_partial (pre os : list op) (nv nc : nat) (n : Z) (mpc : bool) w t w' t' :
  Forall plain os -> exec fresh (pre ++ OInit nv nc :: os) = Some (w, t) ->
  step w (OSolve n mpc) = Some (w', t') ->
  forall k o a m ok, In (ECall k o a m ok) t' -> carries zero nv (rev os) a.
Proof.
  intros p e es. rewrite exec_app in e.
  destruct (exec fresh pre) as [[w0 t0]|]; [|discriminate]. cbn in e.
  destruct (exec (InitializeProblemSize zero snew nv nc) os) as [[w1 t1]|] eqn:e1; [|discriminate].
  inversion e; subst; clear e.
  pose proof (holds_exec zero snew srun ssol nv nc os [] _ _ _ (holds_init zero snew nv nc) p e1) as hh.
  rewrite app_nil_r in hh. destruct hh as (h1 & h2 & h3 & h4 & h5 & h6).
  cbn in es. destruct (solve_inv snew srun ssol _ _ _ _ _ es) as (b & s2 & ok2 & scs & x & evs & ea & _ & _ & -> & hd).
  intros k o a m ok hin.
  assert (a = b) as ->.
  { apply in_app_or in hin as [hin|hin].
    - cbn in hd. destruct hd as [(n1 & _ & _ & ->)|(s1 & n1 & n3 & _ & _ & ->)]; cbn in hin;
        repeat (destruct hin as [hin|hin]; [inversion hin; reflexivity|]); contradiction.
    - cbn in hin. destruct hin as [hin|[hin|[]]]; discriminate. }
  destruct (arguments_inv _ _ ea) as (eH & eg & _ & ax & xx & eax & ex & hx & ha).
  unfold carries. rewrite eH, eg. split; [exact h4|]. split.
  - destruct (last_ax (rev os)) as [[[A l] u]|].
    + destruct h5 as (k1 & <- & <- & <-). rewrite k1 in eax; inversion eax; subst.
      destruct ha as (a1 & a2 & v & a3 & a4). rewrite h3 in a3; inversion a3; subst. auto.
    + rewrite h5 in eax; inversion eax; subst. exact ha.
  - destruct (last_x (rev os)) as [[l u]|].
    + destruct h6 as (k1 & <- & <-). rewrite k1 in ex; inversion ex; subst. exact hx.
    + rewrite h6 in ex; inversion ex; subst. exact hx.
Qed.

(* C34, no undefined behaviour when the data has the announced sizes *)
Theorem C34_defined (w0 : @qpw E S) (os : list op) (nv nc : nat) :
  Forall no_reinit os -> Forall (fits nv nc) os ->
  exists w t, exec w0 (OInit nv nc :: os) = Some (w, t).
Proof.
  intros h1 h2. destruct (fitting_exec zero snew sdefault srun ssol nv nc os _ (fitting_init zero snew nv nc) h1 h2)
    as (w & t & e & _).
  exists w, (ENew nv nc :: t). cbn. now rewrite e.
Qed.

(* C34, hotstart: for every sequence of calls after InitializeProblemSize, whatever the solver does *)
Theorem C34_hotstart_after_init (nv nc : nat) (os : list op) w t :
  exec fresh (OInit nv nc :: os) = Some (w, t) -> hotstarts_ok t.
Proof.
  intros e. cbn in e.
  destruct (exec (InitializeProblemSize zero snew nv nc) os) as [[w1 t1]|] eqn:e1; [|discriminate].
  inversion e; subst; clear e.
  assert (i0 : inv (InitializeProblemSize zero snew nv nc) [ENew nv nc]).
  { split; [|split].
    - intros pre post o a n ok eq. destruct pre as [|y pre]; [discriminate|].
      inversion eq. destruct pre; discriminate.
    - intros q; discriminate.
    - exists [], []; auto. }
  change (ENew nv nc :: t1) with ([ENew nv nc] ++ t1).
  apply (inv_exec zero snew srun ssol os _ _ _ _ i0 e1).
Qed.

(* C34, the result: 1 exactly when the last call to the solver and the read-out succeeded; the
   vector is the solver's; a failed first attempt is followed by one attempt from scratch with the
   same data on a new problem object. *)
Theorem C34_result (w : @qpw E S) (n : Z) (mpc : bool) w' t : step w (OSolve n mpc) = Some (w', t) ->
  exists evs k o a m ok scs r x,
    t = evs ++ [ECall k o a m ok; ESol scs; ERet r x] /\
    (r = 1%Z /\ ok = true /\ scs = true \/ r = 0%Z /\ (ok = false \/ scs = false)) /\
    ssol (w_s w') = (scs, x) /\
    (evs = [] /\ ok = true /\ m = n \/
     exists k1 o1, evs = [ECall k1 o1 a n false; ENew (w_nv w) (w_nc w)] /\ k = KInit).
Proof.
  intros e. cbn in e.
  destruct (solve_inv snew srun ssol _ _ _ _ _ e) as (a & s2 & ok2 & scs & x & evs & ea & -> & es & -> & hd).
  assert (rr : (if ok2 && scs then 1 else 0)%Z = 1%Z /\ ok2 = true /\ scs = true \/
               (if ok2 && scs then 1 else 0)%Z = 0%Z /\ (ok2 = false \/ scs = false)).
  { destruct ok2, scs; auto. }
  cbn in hd. destruct hd as [(n1 & _ & -> & ->)|(s1 & n1 & n3 & _ & _ & ->)].
  - eexists [], _, _, _, _, true, scs, _, x. split; [reflexivity|]. split; [exact rr|]. auto.
  - eexists [_; _], _, _, _, _, ok2, scs, _, x. split; [reflexivity|]. split; [exact rr|].
    split; [exact es|]. right. eauto.
Qed.

(* C34 for the way the library uses the object: one cycle after any number of earlier ones. *)
Theorem C34_cycle (pre os : list op) (nv0 nc0 : nat) (init : bool) (nv nc : nat) H g A lb ub n mpc w t w' t' :
  Forall plain os -> exec fresh (pre ++ OInit nv0 nc0 :: os) = Some (w, t) ->
  exec w (cycle w init nv nc H g A lb ub n mpc) = Some (w', t') ->
  (forall k o a m ok, In (ECall k o a m ok) t' ->
     a = Call H g (Some A) Null Null (Ptr lb) (Ptr ub)) /\
  w_nv w' = nv /\ w_nc w' = nc.
Proof.
  intros p e ec.
  assert (core : forall w2 pre2 os2 t2, Forall plain os2 ->
    exec fresh (pre2 ++ OInit nv nc :: os2) = Some (w2, t2) -> w_nv w2 = nv -> w_nc w2 = nc ->
    forall w3 t3, exec w2 [OMin H g; OAx A lb ub; ODelX; OSolve n mpc] = Some (w3, t3) ->
    (forall k o a m ok, In (ECall k o a m ok) t3 -> a = Call H g (Some A) Null Null (Ptr lb) (Ptr ub)) /\
    w_nv w3 = nv /\ w_nc w3 = nc).
  { intros w2 pre2 os2 t2 p2 e2 s1 s2 w3 t3 e3.
    change [OMin H g; OAx A lb ub; ODelX; OSolve n mpc] with ([OMin H g; OAx A lb ub; ODelX] ++ [OSolve n mpc]) in e3.
    rewrite exec_app in e3.
    destruct (exec w2 [OMin H g; OAx A lb ub; ODelX]) as [[w4 t4]|] eqn:e4; [|discriminate].
    cbn in e4. inversion e4; subst w4 t4; clear e4.
    set (w4 := DeleteSubjectToX _) in e3. cbn in e3.
    destruct (SolveQPoases snew srun ssol w4 n mpc) as [[w5 t5]|] eqn:e5; [|discriminate].
    inversion e3; subst w3 t3; clear e3. rewrite app_nil_r.
    split.
    - intros k o a m ok hin.
      assert (e6 : exec fresh (pre2 ++ OInit nv nc :: (os2 ++ [OMin H g; OAx A lb ub; ODelX])) = Some (w4, t2)).
      { change (pre2 ++ OInit nv nc :: (os2 ++ [OMin H g; OAx A lb ub; ODelX]))
          with (pre2 ++ (OInit nv nc :: os2) ++ [OMin H g; OAx A lb ub; ODelX]).
        rewrite app_assoc, exec_app, e2. cbn. now rewrite app_nil_r. }
      assert (p6 : Forall plain (os2 ++ [OMin H g; OAx A lb ub; ODelX])).
      { apply Forall_app; split; [exact p2|repeat constructor]. }
      pose proof (C34_data_partial pre2 _ nv nc n mpc w4 t2 w5 t5 p6 e6 e5 k o a m ok hin) as hc.
      rewrite rev_app_distr in hc. destruct hc as (c1 & c2 & c3). cbn in c1, c2, c3.
      destruct a; cbn in *. inversion c1. destruct c2 as (-> & -> & ->), c3 as (-> & ->). reflexivity.
    - destruct (solve_inv snew srun ssol _ _ _ _ _ e5) as (b & s3 & ok2 & scs & x & evs & _ & -> & _). cbn. auto. }
  assert (hw : w_nv w = nv0 /\ w_nc w = nc0).
  { rewrite exec_app in e. destruct (exec fresh pre) as [[w0 t0]|]; [|discriminate]. cbn in e.
    destruct (exec (InitializeProblemSize zero snew nv0 nc0) os) as [[w1 t1]|] eqn:e1; [|discriminate].
    inversion e; subst; clear e.
    pose proof (holds_exec zero snew srun ssol nv0 nc0 os [] _ _ _ (holds_init zero snew nv0 nc0) p e1) as hh.
    destruct hh as (h1 & h2 & _). auto. }
  unfold cycle in ec. destruct (CheckProblemSize w nv nc && negb init) eqn:ck.
  - apply andb_true_iff in ck as [ck _]. unfold CheckProblemSize in ck.
    apply andb_true_iff in ck as [c1 c2]. apply Nat.eqb_eq in c1, c2.
    destruct hw as [v1 v2]. rewrite c1 in v1. rewrite c2 in v2. rewrite <- v1, <- v2 in e.
    apply (core w pre os t p e c1 c2 w' t' ec).
  - rewrite exec_app in ec.
    destruct (exec w [OInit nv nc]) as [[w2 t2]|] eqn:e2; [|discriminate].
    destruct (exec w2 _) as [[w3 t3]|] eqn:e3; [|discriminate]. inversion ec; subst; clear ec.
    assert (ee : exec fresh ((pre ++ OInit nv0 nc0 :: os) ++ OInit nv nc :: []) = Some (w2, t ++ t2)).
    { rewrite exec_app, e, e2. reflexivity. }
    cbn in e2. inversion e2; subst; clear e2.
    destruct (core _ _ [] _ (Forall_nil _) ee eq_refl eq_refl w' t3 e3) as (q1 & q2).
    split; [|exact q2]. intros k o a m ok hin. apply in_app_or in hin as [hin|hin]; [|eauto].
    cbn in hin. destruct hin as [hin|[]]; discriminate.
Qed.
End Props.

(* a solver that always succeeds with the zero vector, and one that always fails *)
Definition ok_run (_ : kind) (s : unit) (_ : opts) (_ : @call Z) (n : Z) : unit * bool * Z := (s, true, 0%Z).
Definition bad_run (_ : kind) (s : unit) (_ : opts) (_ : @call Z) (n : Z) : unit * bool * Z := (s, false, 0%Z).
Definition u_new (_ _ : nat) : unit := tt.
Definition u_sol (_ : unit) : bool * vec Z := (true, Vec 1 (fun _ => 0%Z)).
Definition one : mat Z := Mat 1 1 (fun _ _ => 1%Z).
Definition v1 (z : Z) : vec Z := Vec 1 (fun _ => z).

(* C34, refuted for UpdateSubjectToAxUb: the lower bound handed over is an array nobody wrote; and
   the flag stays, so that a later UpdateSubjectToAx has its lower bound ignored. *)
Theorem C34_upper_bound_only_refuted :
  exists os w t, exec 0%Z u_new ok_run u_sol (fresh 0%Z tt) (OInit 1 1 :: os) = Some (w, t) /\
  Forall (fits 1 1) os /\ last_ax (rev os) <> None /\
  exists w' t' k o a n, step 0%Z u_new ok_run u_sol w (OSolve 100 true) = Some (w', t') /\
    In (ECall k o a n true) t' /\ k_lbA a = Garbage.
Proof.
  exists [OMin one (v1 0); OAxUb one (v1 5); OAx one (v1 2) (v1 5)].
  eexists _, _. split; [reflexivity|].
  split; [repeat constructor|]. split; [discriminate|].
  eexists _, _, _, _, _, _. split; [reflexivity|]. split; [left; reflexivity|]. reflexivity.
Qed.

(* C34, refuted for a successful initialisation: after a solve in which both attempts to initialise
   failed, the next solve hot-starts. *)
Theorem C34_hotstart_after_failure_refuted :
  exists os w t, exec 0%Z u_new bad_run u_sol (fresh 0%Z tt) (OInit 1 1 :: os) = Some (w, t) /\
  Forall plain os /\ (exists o a n, In (ECall KHot o a n false) t) /\
  forall o a n, ~ In (ECall KInit o a n true) t.
Proof.
  exists [OMin one (v1 0); OSolve 100 true; OSolve 100 true].
  eexists _, _. split; [reflexivity|]. split; [repeat constructor|]. split.
  - eexists _, _, _. cbn. do 6 right. left. reflexivity.
  - intros o a n hin. cbn in hin.
    repeat (destruct hin as [hin|hin]; [discriminate|]). exact hin.
Qed.

(* C73, refuted: the second attempt is given ten times the number of iterations the first one
   performed, not ten times the budget: qpOASES writes that number to nWSR.  If the first attempt
   fails before its first iteration the second one may not iterate at all. *)
Theorem C73_retry_budget_refuted :
  exists srun w w' t a, step 0%Z u_new srun u_sol w (OSolve 300 true) = Some (w', t) /\
    In (ECall KInit OptMPC a 300 false) t /\ exists b, In (ECall KInit OptReliable b 0 false) t.
Proof.
  exists bad_run.
  exists (UpdateMinProblem (InitializeProblemSize 0%Z u_new 1 1) one (v1 0)).
  eexists _, _, _. split; [reflexivity|]. split; [left; reflexivity|].
  eexists. right; right; left; reflexivity.
Qed.

(* Examples: two cycles, the second hot-started, with bounds deleted in between *)
Example C34_example : exists w t w' t',
  exec 0%Z u_new ok_run u_sol (fresh 0%Z tt)
    ([] ++ OInit 1 1 :: [OMin one (v1 3); OAx one (v1 0) (v1 1); OX (v1 0) (v1 1); OSolve 100 true]) = Some (w, t) /\
  exec 0%Z u_new ok_run u_sol w (cycle w false 1 1 one (v1 4) one (v1 0) (v1 2) 100 false) = Some (w', t') /\
  In (ECall KHot OptReliable (Call one (v1 4) (Some one) Null Null (Ptr (v1 0)) (Ptr (v1 2))) 100 true) t'.
Proof. eexists _, _, _, _. split; [reflexivity|]. split; [reflexivity|]. left; reflexivity. Qed.

Example C34_fits_example : Forall no_reinit [OMin one (v1 3); OAx one (v1 0) (v1 1); OSolve 100 true] /\
  Forall (fits 1 1) [OMin one (v1 3); OAx one (v1 0) (v1 1); OSolve 100 true].
Proof. split; repeat constructor. Qed.

Print Assumptions C34_data_partial.
Print Assumptions C34_defined.
Print Assumptions C34_hotstart_after_init.
Print Assumptions C34_result.
Print Assumptions C34_cycle.
Print Assumptions C34_upper_bound_only_refuted.
Print Assumptions C34_hotstart_after_failure_refuted.
Print Assumptions C73_retry_budget_refuted.
