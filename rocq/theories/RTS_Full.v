(* The hierarchical torque of the full robot: accelerations. *)
From mathcomp Require Import all_ssreflect all_algebra.
From Verif Require Import LinAlg Dyn_Model Dyn_Spec Dyn_Proofs RTS_Acc.
Set Implicit Arguments.
Unset Strict Implicit.
Unset Printing Implicit Defensive.
Import Order.TTheory GRing.Theory Num.Theory.
Local Open Scope ring_scope.

Section Full.
Variable R : realFieldType.
Variables (m n : nat) (A : 'M[R]_(6 + n)) (J : 'M[R]_(m, 6 + n)) (cs : contact_space R m n).
Hypotheses (hA : posdef A) (hJ : row_free J) (hb : contacts_fix_base J).
Hypothesis ecs : CalculateContactConstraint J (invmx A) = Some cs.
Local Notation M := (cs_AinvNC cs).
Implicit Type k : task R n.

Definition tlam k : 'M[R]_(tk_dof k) := invmx (tk_J k *m M *m (tk_J k)^T).
Fixpoint accs (P : 'M[R]_(6 + n)) (l : seq (task R n)) : 'cV[R]_(6 + n) :=
  if l is k :: l' then
    P *m (M *m ((tk_J k)^T *m (tlam k *m tk_fstar k))) + accs (P *m (1%:M - M *m (tk_J k)^T *m tlam k *m tk_J k)) l'
  else 0.

Lemma full_levels l : forall prev N P tau, (if prev is Some N' then N' = N else N = 1%:M /\ tau = 0) ->
  rsubmx M *m N = P *m rsubmx M ->
  List.Forall (fun k => tk_J k *m M *m (tk_J k)^T \in unitmx) l ->
  exists ls, [/\ CalcTaskSpace (invmx A) cs prev l = Some ls, 
    rsubmx M *m TaskTorqueLoop (fun v => tk_fstar (lv_task v)) prev tau ls = rsubmx M *m tau + accs P l,
    map (@lv_task R n) ls = l &
    List.Forall (fun v => lv_Lambda v = tlam (lv_task v)) ls].
Proof.
elim: l => [|k l IH] prev N P tau hp hN hu /=; first by exists [::]; rewrite addr0.
case/List.Forall_cons_iff: hu => u hu.
have [_ _ _ e4 _] := ccE ecs.
have [Jkt ejk] : exists Jkt, CalculateJKT (tk_J k) (invmx A) (cs_NC cs) (cs_Winv cs) = Some (Jkt, tlam k).
  rewrite /CalculateJKT; have -> : tk_J k *m invmx A *m cs_NC cs = tk_J k *m M by rewrite e4 mulmxA.
  by rewrite inverseE //; eexists.
rewrite ejk; set pn := if prev is Some _ then _ else _.
have epn : pn = N by move: hp; rewrite /pn; case: (prev) => [N'|[]].
rewrite epn; set Nu := CalculateTaskNullSpace _ _ _ _ _.
pose P' := P *m (1%:M - M *m (tk_J k)^T *m tlam k *m tk_J k).
pose tau' := tau + N *m (Jkt *m tlam k *m tk_fstar k).
have hN' : rsubmx M *m Nu = P' *m rsubmx M := null_acc hA hJ hb ecs ejk hN.
have [ls [-> h2 h3 h4]] := IH (Some Nu) Nu P' tau' erefl hN' hu.
exists (@Level R n k Jkt (tlam k) Nu :: ls); split; [by []| |by rewrite /= h3|by constructor].
rewrite /=.
have -> : (if prev is Some N0 then tau + N0 *m (Jkt *m tlam k *m tk_fstar k) else Jkt *m tlam k *m tk_fstar k) = tau'.
  by move: hp; rewrite /tau'; case: (prev) => [N' ->|[-> ->]] //; rewrite mul1mx add0r.
rewrite h2 /tau' [rsubmx M *m (tau + _)]mulmxDr -addrA; congr (_ + (_ + _)).
rewrite mulmxA hN -mulmxA; congr (_ *m _); rewrite mulmxA (task_acc hA hJ hb ecs ejk).
by rewrite -!mulmxA.
Qed.

(* the acceleration under the gravity torque and the task torque *)
Lemma full_acc G rb l ls a f : UpdateRobot A J G = Some rb -> rb_cs rb = cs ->
  CalcTaskSpace (invmx A) cs None l = Some ls -> List.Forall (fun k => tk_J k *m M *m (tk_J k)^T \in unitmx) l ->
  contact_motion A J G (rb_tgrav rb + CalcTaskControlTorque ls) a f -> a = accs 1%:M l.
Proof.
move=> hrb ers els hu hmo.
have [ls' [e1 e2 _ _]] := full_levels (prev := None) (N := 1%:M) (P := 1%:M) (tau := 0) (conj erefl erefl) (etrans (mulmx1 _) (esym (mul1mx _))) hu.
have ? : ls' = ls by move: e1; rewrite els => -[].
subst ls'.
have [ag [fg hg]] := rb_motion_ex hA hJ hrb (rb_tgrav rb).
have [ea _] := proj1 (rb_motion hA hJ hrb _ _ _) hmo.
have [eg _] := proj1 (rb_motion hA hJ hrb _ _ _) hg.
have [_ /(_ hb) [a0 _]] := rb_grav hA hJ hrb hg.
have : a - ag = rsubmx M *m CalcTaskControlTorque ls.
  rewrite ea eg ers /acc_of.
  rewrite -mulmxBr opprB addrA subrK.
  rewrite -mul_actuate; congr (_ *m _).
  by rewrite /actuate opp_col_mx add_col_mx subrr addrAC subrr add0r.
by rewrite a0 subr0 /CalcTaskControlTorque e2 mulmx0 add0r.
Qed.
End Full.
