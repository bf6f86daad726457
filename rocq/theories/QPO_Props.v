(* C164: the treatment of equality conditions *)
From Coq Require Import List Arith ZArith Bool Lia.
From Verif Require Import QPW_Model QPO_Model.
Import ListNotations.

Section Props.
Context {E : Type} (zero : E).
Context {S : Type} (snew : nat -> nat -> S) (sdefault : S)
        (srun : kind -> S -> options -> @call E -> Z -> S * bool * Z) (ssol : S -> bool * vec E).
Local Notation oexec := (@oexec E zero S snew srun ssol).
Local Notation ostep := (@ostep E zero S snew srun ssol).
Local Notation oop := (@oop E).
Local Notation oev := (@oev E).

(* the calls other than the two *)
Definition others (os : list oop) : list oop := filter (fun o => match o with OpOther _ => true | _ => false end) os.
(* what can be seen from outside: everything the solver is given and everything that is returned *)
Definition trace (r : option (@qpo E S * list oev)) : option (list oev) := option_map snd r.

(* one step does not depend on the options *)
Lemma step_blind (w w' : qpo) (o : oop) : fst w = fst w' ->
  match ostep w o, ostep w' o with
  | Some (v, t), Some (v', t') => fst v = fst v' /\ t = t'
  | None, None => True
  | _, _ => False
  end.
Proof.
  destruct w as [q o1], w' as [q' o2]; cbn; intros <-.
  destruct o as [tol| |[]]; cbn; auto.
  destruct (arguments q); [|exact I].
  assert (e : (if mpc then setToMPC o1 else setToReliable o1) = (if mpc then setToMPC o2 else setToReliable o2)) by now destruct mpc.
  rewrite e. destruct (srun _ _ _ _ _) as [[s1 ok1] n1]. destruct ok1.
  - destruct (ssol s1); auto.
  - unfold setToReliable at 1 3. destruct (srun KInit _ _ _ _) as [[s2 ok2] n2].
    destruct (ssol s2); auto.
Qed.

Lemma exec_blind (os : list oop) (w w' : qpo) : fst w = fst w' -> trace (oexec w os) = trace (oexec w' (others os)).
Proof.
  revert w w'; induction os as [|o os IH]; intros w w' h; [reflexivity|].
  destruct o as [tol| |o].
  - change (others (OpEnable tol :: os)) with (others os). rewrite <- (IH (EnableEqualityCondition w tol) w'); [|exact h].
    cbn [QPO_Model.oexec QPO_Model.ostep]. now destruct (oexec _ os) as [[? ?]|].
  - change (others (OpDisable :: os)) with (others os). rewrite <- (IH (DisableEqualityCondition w) w'); [|exact h].
    cbn [QPO_Model.oexec QPO_Model.ostep]. now destruct (oexec _ os) as [[? ?]|].
  - pose proof (step_blind w w' (OpOther o) h) as hs.
    change (others (OpOther o :: os)) with (OpOther o :: others os). cbn [QPO_Model.oexec].
    destruct (ostep w (OpOther o)) as [[v t]|], (ostep w' (OpOther o)) as [[v' t']|]; try contradiction; [|reflexivity].
    destruct hs as [hv ->]. specialize (IH v v' hv).
    destruct (oexec v os) as [[? ?]|], (oexec v' (others os)) as [[? ?]|]; cbn in *; congruence.
Qed.

(* C164: for every history of calls and every solver, with EnableEqualityCondition and DisableEqualityCondition left out
   everywhere the solver is given the same and the caller gets the same *)
Theorem C164_ignored_partial (w : qpo) (os : list oop) : trace (oexec w os) = trace (oexec w (others os)).
Proof. now apply exec_blind. Qed.

(* C164: whether equalities are treated depends only on the argument MPC, and never in the second attempt *)
Theorem C164_mode_partial (w : qpo) (n : Z) (mpc : bool) w' t : ostep w (OpOther (OSolve n mpc)) = Some (w', t) ->
  exists k p a ok t', t = PCall k p a n ok :: t' /\ o_eq p = mpc /\
    (forall k p a n ok, In (PCall k p a n ok) t' -> o_eq p = false).
Proof.
  destruct w as [q o1]. cbn. destruct (arguments q) as [a|]; [|discriminate].
  destruct (srun _ _ _ _ _) as [[s1 ok1] n1]. destruct ok1.
  - destruct (ssol s1) as [scs x]. intros e; inversion e; subst; clear e.
    eexists _, _, _, _, _. split; [reflexivity|]. split; [now destruct mpc|].
    intros ? ? ? ? ? [h|[h|[]]]; discriminate.
  - destruct (srun KInit _ _ _ _) as [[s2 ok2] n2]. destruct (ssol s2) as [scs x].
    intros e; inversion e; subst; clear e.
    eexists _, _, _, _, _. split; [reflexivity|]. split; [now destruct mpc|].
    intros ? ? ? ? ? [h|[h|[h|[h|[]]]]]; try discriminate. now inversion h.
Qed.
End Props.

(* a concrete solver that succeeds exactly when equalities are treated, and returns the number of the call *)
Definition ex_run (k : kind) (s : nat) (o : options) (a : @call nat) (n : Z) : nat * bool * Z := (S s, o_eq o, 0%Z).
Definition ex_sol (s : nat) : bool * vec nat := (true, Vec 1 (fun _ => s)).
Definition ex_ops (mpc : bool) : list (@oop nat) :=
  [OpOther (OInit 1 1); OpDisable; OpOther (OMin (Mat 1 1 (fun _ _ => 2)) (Vec 1 (fun _ => 3))); OpEnable 7; OpOther (OSolve 5 mpc)].
(* the history with EnableEqualityCondition immediately before the solve: both solver calls without equalities, failure *)
Example C164_ignored_ex : exists t x, trace (oexec 0 (fun _ _ => 0) ex_run ex_sol (ofresh 0 0) (ex_ops false)) =
    Some (t ++ [PRet 0%Z x]) /\
  trace (oexec 0 (fun _ _ => 0) ex_run ex_sol (ofresh 0 0) (others (ex_ops false))) = Some (t ++ [PRet 0%Z x]) /\
  others (ex_ops false) <> ex_ops false.
Proof.
  eexists [_; _; _; _; _], _. cbn. split; [reflexivity|]. split; [reflexivity|discriminate].
Qed.
Example C164_mode_ex : exists w' t, ostep 0 (fun _ _ => 0) ex_run ex_sol
  (InitializeProblemSize 0 (fun _ _ => 0) 1 1, Options false 1 OptReliable) (OpOther (OSolve 5 true)) = Some (w', t).
Proof. eexists _, _. cbn. reflexivity. Qed.

(* C164: enabled immediately before the solve, yet no solver call treats equalities; disabled immediately before, yet one does *)
Theorem C164_overwritten_refuted :
  (exists w' t, oexec 0 (fun _ _ => 0) ex_run ex_sol (ofresh 0 0) [OpOther (OInit 1 1); OpEnable 7; OpOther (OSolve 5 false)] = Some (w', t) /\
     (exists k p a n ok, In (PCall k p a n ok) t) /\ forall k p a n ok, In (PCall k p a n ok) t -> o_eq p = false) /\
  (exists w' t, oexec 0 (fun _ _ => 0) ex_run ex_sol (ofresh 0 0) [OpOther (OInit 1 1); OpDisable; OpOther (OSolve 5 true)] = Some (w', t) /\
     exists k p a n ok, In (PCall k p a n ok) t /\ o_eq p = true).
Proof.
  split.
  - eexists _, _. split; [cbn; reflexivity|]. split.
    + eexists _, _, _, _, _. right; left; reflexivity.
    + intros k p a n ok h. repeat (destruct h as [h|h]; [inversion h; reflexivity|]). destruct h.
  - eexists _, _. split; [cbn; reflexivity|]. eexists _, _, _, _, _. split; [right; left; reflexivity|reflexivity].
Qed.

Print Assumptions C164_overwritten_refuted.
Print Assumptions C164_ignored_partial.
Print Assumptions C164_mode_partial.
