(* A robot standing on one foot with one joint: the concrete instance of the theorems about the
   acceleration-level QPs. *)
From mathcomp Require Import all_ssreflect all_algebra.
From mathcomp Require Import zify.
From mathcomp.algebra_tactics Require Import ring.
From Verif Require Import DMat DMatL Cone_Model Cone_Spec Cone_Props QP_Model QP_Proofs Jacc_Model Jacc_Spec Jacc_Proofs Jacc_Thm Jacc_Run.
Set Implicit Arguments.
Unset Strict Implicit.
Unset Printing Implicit Defensive.
Import Order.TTheory GRing.Theory Num.Theory.
Local Open Scope ring_scope.

Section Ex.
Variable R : realFieldType.
Local Notation dm := (dm R).

Definition xfoot : pcontact R := PContact true 6 10 1%:M (1 / 10%:R) (1 / 10%:R) (1 / 2%:R) (1 / 2%:R) 0.
(* unit inertia; weight 10; the joint carries 50; the foot is the base *)
Definition xA : dm := dident R 7.
Definition xG : dm := vec 7 (fun i => if (i == 2)%N then 10%:R else if (i == 6)%N then 50%:R else 0).
Definition xJC : dm := DM 6 7 (fun i j => (i == j)%:R).
(* the joint acceleration is to be f *)
Definition xtask (h : nat) (f : R) : jtask R :=
  JT h 1 (DM 1 7 (fun _ j => (j == 6)%N%:R)) (vec 1 (fun _ => f)) (dzero R 0 1) (dzero R 0 1) (dzero R 0 1) (dzero R 0 1) (dzero R 0 1)
     (Some 0%N).
Definition xrob (lset : bool) (lim : R) (ts : seq (jtask R)) : jrobot R :=
  JR 7 1 6 1 xA xG xJC [:: xfoot] lset (vec 1 (fun _ => lim)) ts 2 0 0 (dzero R 0 0) (dzero R 0 0) (dzero R 0 0) (dzero R 0 0)
     0 0 (dzero R 0 0) (dzero R 0 0) [::].

Lemma sum_pick n (f : nat -> R) i : \sum_(0 <= j < n) (i == j)%:R * f j = if (i < n)%N then f i else 0.
Proof.
case: ifP => h.
  rewrite (@sum_window _ i 1); [|lia|by move=> j lj hj; rewrite (_ : (i == j) = false) ?mul0r //; lia].
  by rewrite big_nat1 addn0 eqxx mul1r.
by apply: sum_nat0 => j lj; rewrite (_ : (i == j) = false) ?mul0r //; lia.
Qed.
Lemma sum_pick' n (f : nat -> R) i : \sum_(0 <= j < n) (j == i)%:R * f j = if (i < n)%N then f i else 0.
Proof. by rewrite -sum_pick; apply: eq_bigr => j _; rewrite eq_sym. Qed.

Local Notation D ls l ts := (dataJ (xrob ls l ts)).

Lemma xD_ok ls l ts : jd_ok (D ls l ts) 1 6.
Proof. by []. Qed.

Lemma xcontacts ls l ts : contacts_ok (xrob ls l ts).
Proof. by split=> //; constructor; [|constructor]. Qed.

Lemma xlevels ls l f0 f1 : levels_ok (xrob ls l [:: xtask 0 f0; xtask 1 f1]) 7.
Proof. by split=> // -[|[|[|k]]] s // [<-]. Qed.

Lemma xrob_ok ls l f0 f1 : jrobot_ok (xrob ls l [:: xtask 0 f0; xtask 1 f1]) 1.
Proof. by split; [apply: xcontacts|apply: xD_ok|apply: xlevels]. Qed.

Lemma xenergy ls l ts x : energy (D ls l ts) x = \sum_(0 <= i < 7) x i ^+ 2.
Proof.
rewrite /energy /=; apply: sum_nat_eq => i li.
rewrite (@sum_nat_eq _ 7 _ (fun j => (i == j)%:R * (x i * x j))); last by move=> j _; ring.
by rewrite sum_pick li expr2.
Qed.

Lemma xspd ls l ts : spd (D ls l ts).
Proof.
split=> [i j li lj|x [i li nz]]; first by rewrite /= eq_sym.
rewrite /= in li; rewrite xenergy sum_ord (bigD1 (Ordinal li)) //=.
apply: ltr_paddr; first by apply: sumr_ge0 => j _; rewrite exprn_even_ge0.
by rewrite exprn_even_gt0.
Qed.

(* the plan with joint acceleration a, and deviation s *)
Definition xplan (a s : R) : nat -> R := fun i =>
  if (i == 6)%N then a else if (i == 7)%N then 50%:R + a else if (i == 10)%N then - 10%:R else if (i == 14)%N then s else 0.

Lemma xplan_ok ls l ts a s : `|a| <= 10%:R -> plan (D ls l ts) [:: xfoot] 1 (xplan a s).
Proof.
move=> ha; split.
- move=> i li; rewrite /= in li; rewrite /jaccel /= sum_pick li sum_pick'.
  by do 7 (case: i li => [|i] li; first by rewrite /gravity /frc /trq /xplan /=; ring).
- by move=> r lr; rewrite /= in lr; rewrite /jaccel /= sum_pick; do 6 (case: r lr => [|r] lr //).
- move=> c0 [|k] // _; rewrite /in_cone /= trmx1 !mul1mx /vx /vy /vz !mxE /frc /=.
  have e5 : `|0 : R| <= - (1 / 10%:R * (- 10%:R : R)).
    by rewrite normr0 mulrN opprK mulr_ge0 ?ler0n // divr_ge0 ?ler01 ?ler0n.
  have e6 : `|0 : R| <= - (1 / 2%:R * (- 10%:R : R)).
    by rewrite normr0 mulrN opprK mulr_ge0 ?ler0n // divr_ge0 ?ler01 ?ler0n.
  by split.
- by case=> [|r] // _.
case=> [|r] // _; rewrite /trq /=.
apply: le_trans (ler_norm_add _ _) _; rewrite ger0_norm ?ler0n //.
apply: (@le_trans _ _ (50%:R + 10%:R)); first by rewrite ler_add2l.
by rewrite -natrD ler_nat.
Qed.

(* in every plan the base rests, and the torque is the gravity torque plus the acceleration *)
Lemma xplan_base ls l ts x : plan (D ls l ts) [:: xfoot] 1 x -> (forall i, (i < 6)%N -> x i = 0) /\ x 7%N = x 6%N + 50%:R.
Proof.
case=> h1 h2 _ _ _; split=> [i li|].
  have := h2 i li; rewrite /jaccel /= sum_pick; by have -> : (i < 7)%N by lia.
have := h1 6%N isT; rewrite /jaccel /= sum_pick /= sum_pick' /= addr0 /gravity /= /trq /= => <-; ring.
Qed.

(* the reduced model of a robot: one contact joint and the six virtual ones *)
Definition xrobR (ts : seq (jtask R)) : jrobot R :=
  JR 7 1 6 1 xA xG xJC [:: xfoot] false (dzero R 0 0) ts 2 13 7 (dident R 13)
     (vec 13 (fun i => if (i == 2)%N then 10%:R else if (i == 6)%N then 50%:R else 0))
     (DM 6 13 (fun i j => (i == j)%:R)) (DM 13 7 (fun i j => (i == j)%:R))
     0 0 (dzero R 0 0) (dzero R 0 0) [::].
Definition xplanR : nat -> R := fun i => if (i == 13)%N then 50%:R else if (i == 22)%N then - 10%:R else 0.

Lemma xrobR_ok f0 f1 : jrobotR_ok (xrobR [:: xtask 0 f0; xtask 1 f1]) 7 7.
Proof.
split=> //; first by split=> //; constructor; [|constructor].
by split=> // -[|[|[|k]]] s // [<-].
Qed.

Lemma xplanR_ok ts : plan (dataJR (xrobR ts)) [:: xfoot] 1 xplanR.
Proof.
split.
- move=> i li; rewrite /= in li; rewrite /jaccel /= sum_pick li sum_pick'.
  by do 13 (case: i li => [|i] li; first by rewrite /gravity /frc /trq /xplanR /=; ring).
- by move=> r lr; rewrite /= in lr; rewrite /jaccel /= sum_pick; do 6 (case: r lr => [|r] lr //).
- move=> c0 [|k] // _; rewrite /in_cone /= trmx1 !mul1mx /vx /vy /vz !mxE /frc /=.
  have e5 : `|0 : R| <= - (1 / 10%:R * (- 10%:R : R)).
    by rewrite normr0 mulrN opprK mulr_ge0 ?ler0n // divr_ge0 ?ler01 ?ler0n.
  have e6 : `|0 : R| <= - (1 / 2%:R * (- 10%:R : R)).
    by rewrite normr0 mulrN opprK mulr_ge0 ?ler0n // divr_ge0 ?ler01 ?ler0n.
  by split.
- by move=> r lr; rewrite /= in lr; do 7 (case: r lr => [|r] lr; first by rewrite /xplanR /= normr0 ler0n).
case=> [|r] // _; by rewrite /trq /= ger0_norm ?ler0n // ler_nat.
Qed.

(* one non-contact joint turning the hand about z; the hand is at (1, 0, 0) from the base *)
Definition hand : 'cV[R]_3 := \col_i (val i == 0%N)%:R.
Definition xtaskNC (f : nat -> R) : jtask R :=
  JT 0 6 (DM 6 7 (fun i j => if (j == 6)%N then ((i == 1) || (i == 5))%N%:R else if (i == j)%N then 1
                             else if ((i == 1) && (j == 5))%N then 1 else if ((i == 2) && (j == 4))%N then - 1 else 0)) (vec 6 f)
     (dzero R 0 1) (dzero R 0 1) (dzero R 0 1) (dzero R 0 1) (dzero R 0 1) (Some 1%N).
Definition xrobNC (g : R) (f : nat -> R) : jrobot R :=
  JR 7 1 6 1 xA (vec 7 (fun i => if (i == 6)%N then g else 0)) xJC [:: xfoot] false (dzero R 0 0) [:: xtaskNC f] 2 12 6
     (dzero R 0 0) (dzero R 0 0) (dzero R 0 0) (dzero R 0 0)
     1 6 (dident R 7) (dzero R 6 1) [:: 0; hand].

Lemma xNC_ok g f pa : dims pa 12 1 -> nc_ok (xrobNC g f) (xtaskNC f) pa 1 7 hand 0.
Proof. by move=> dp; split=> //; [split=> //; split=> //; exists 6%N|exists 1%N]. Qed.
End Ex.
