(* A small robot with two plane contacts (and one with one contact) for the examples. *)
From mathcomp Require Import all_ssreflect all_algebra.
From Verif Require Import DMat DMatL Cone_Model Cone_Spec Cone_Ex QP_Model QP_Spec.
Set Implicit Arguments.
Unset Strict Implicit.
Unset Printing Implicit Defensive.
Import Order.TTheory GRing.Theory Num.Theory.
Local Open Scope ring_scope.

(* m = 2 joints, K = 2 contacts, pressing force -P_C with z components -10; the joint
   torques and the redistribution act on the two vertical forces *)
Definition exJ (K : nat) : dm Q := DM (6 * K) 8 (fun i j => ((i == 2%N) && (j == 6%N))%:R).
Definition exP (K : nat) : dm Q := DM (6 * K) 1 (fun i _ => if (i %% 6 == 2)%N then 10%:R else 0).
Definition exW : dm Q := DM 2 6 (fun i j => (i == j)%:R).
Definition exlim : dm Q := DM 2 1 (fun _ _ => 3%:R).
Definition extask : tspace Q :=
  TS (DM 1 1 (fun _ _ => 2%:R)) (DM 2 1 (fun i _ => (i == 0%N)%:R)) (DM 1 1 (fun _ _ => 1))
     (dzero Q 0 0) (dzero Q 1 1) (dzero Q 0 1) (dzero Q 2 1) false.

Definition exrd : rdata Q :=
  RD 2 [:: plane1 true; plane1 false; plane1 true] 2 true exlim exW (exJ 2) (exP 2)
     (dzero Q 2 1) (dzero Q 2 1) (DM 2 1 (fun _ _ => 1)) [:: extask].

(* one active contact: NwJw is 2 x 2 *)
Definition exrd1 : rdata Q :=
  RD 2 [:: plane1 true; plane1 false] 1 true exlim (dzero Q 2 2) (exJ 1) (exP 1)
     (dzero Q 2 1) (dzero Q 2 1) (dzero Q 2 1) [:: extask].

Lemma plane_all (l : seq bool) : List.Forall (fun c => p_on c -> plane c) [seq plane1 b | b <- l].
Proof. by elim: l => [|b l IH] /=; [exact: List.Forall_nil|apply: List.Forall_cons]. Qed.

Lemma ex_sized : rd_sized exrd 2 2.
Proof.
split=> //; first exact: (plane_all [:: true; false; true]).
Qed.
Lemma ex_sized1 : rd_sized exrd1 2 1.
Proof. split=> //; first exact: (plane_all [:: true; false]). Qed.
Lemma ex_ts : ts_sized 2 1 extask.
Proof. by []. Qed.

(* no change of torque: (2, 0) is within the limits and the contacts press with 8 and 10 *)
Definition tau2 : 'cV[Q]_2 := \col_i (if i == 0 :> 'I_2 then 2%:R else 0).

Lemma ex_force (j : nat) : (j < 12)%N -> contact_force exrd 2 tau2 j =
  (if j == 2%N then 2%:R else 0) - (if (j %% 6 == 2)%N then 10%:R else 0).
Proof.
move=> lj; rewrite /contact_force (of_mxO _ (lj : (j < 6 * 2)%N) (isT : (0 < 1)%N)) !mxE /=.
congr (_ - _); rewrite big_split_ord big1 => [|k _]; last by rewrite col_mxEu [X in _ * X]mxE mulr0.
rewrite /= add0r !big_ord_recl big_ord0 addr0 /= !col_mxEd !mxE /=.
by case: (j == 2%N); rewrite /= ?mul1r ?mul0r ?addr0.
Qed.

Lemma ex_adm : admissible exrd (plane1 true) 2 tau2.
Proof.
split=> [_ i|k lk]; first by rewrite mxE /=; case: ifP.
have -> : nth (plane1 true) (actives (r_cc exrd)) k = plane1 true by case: k lk => [|[|]].
rewrite /in_cone /= trmx1 !mul1mx /vx /vy /vz !mxE !ex_force; case: k lk => [|[|k]] //.
Qed.

(* a solver that tries only the zero vector *)
Definition zsolver (i : nat) (q : qp Q) : option (nat -> Q) :=
  if all (fun i => (if lent (q_lb q) i is Some l then l <= rowdot (q_A q) i (fun=> 0) else true) &&
                   (rowdot (q_A q) i (fun=> 0) <= ent (q_ub q) i 0)) (iota 0 (nr (q_A q)))
  then Some (fun=> 0) else None.

Lemma zsolver_ok i q : (exists x, zsolver i q = Some x) <-> qp_feasible q (fun=> 0).
Proof.
rewrite /zsolver; split=> [|fs].
  case: allP => [h _|_ [x]//] j lj.
  have /andP[] := h j ltac:(by rewrite mem_iota); case: (lent _ j) => [l|] h1 h2; split=> //.
  by move=> ? [<-].
case: allP => [_|[]]; first by eexists.
move=> j; rewrite mem_iota /= add0n => lj; have [h1 h2] := fs j lj.
by rewrite h2 andbT; case e: (lent _ j) => [l|] //; apply: h1.
Qed.

Lemma zsolver_sound i q x : zsolver i q = Some x -> qp_feasible q x.
Proof.
move=> e; have h : qp_feasible q (fun=> 0) by apply/(zsolver_ok i); exists x.
by move: e; rewrite /zsolver; case: ifP => // _ [<-].
Qed.
