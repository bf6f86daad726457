(* Proofs for Quat *)
From mathcomp Require Import all_ssreflect all_algebra.
From mathcomp.algebra_tactics Require Import ring.
From Verif Require Import LinAlg Geo_Model Geo_Spec Geo_Proofs Quat_Model Quat_Spec.
Set Implicit Arguments.
Unset Strict Implicit.
Unset Printing Implicit Defensive.
Import Order.TTheory GRing.Theory Num.Theory.
Local Open Scope ring_scope.

(* the nine numbers of a rotation *)
Section Nine.
Variable R : rcfType.
Variables m00 m01 m02 m10 m11 m12 m20 m21 m22 : R.
Definition nine : Prop :=
  [/\ [/\ m00 * m00 + m01 * m01 + m02 * m02 = 1,
      m10 * m10 + m11 * m11 + m12 * m12 = 1
    &       m20 * m20 + m21 * m21 + m22 * m22 = 1],
    [/\ m00 * m10 + m01 * m11 + m02 * m12 = 0, m00 * m20 + m01 * m21 + m02 * m22 = 0 & m10 * m20 + m11 * m21 + m12 * m22 = 0],
    [/\ m00 * m00 + m10 * m10 + m20 * m20 = 1, m01 * m01 + m11 * m11 + m21 * m21 = 1 & m02 * m02 + m12 * m12 + m22 * m22 = 1],
    [/\ m00 * m01 + m10 * m11 + m20 * m21 = 0, m00 * m02 + m10 * m12 + m20 * m22 = 0 & m01 * m02 + m11 * m12 + m21 * m22 = 0] &
    [/\ [/\ m11 * m22 - m12 * m21 = m00, m12 * m20 - m10 * m22 = m01 & m10 * m21 - m11 * m20 = m02],
      [/\ m21 * m02 - m22 * m01 = m10, m22 * m00 - m20 * m02 = m11 & m20 * m01 - m21 * m00 = m12] &
      [/\ m01 * m12 - m02 * m11 = m20, m02 * m10 - m00 * m12 = m21 & m00 * m11 - m01 * m10 = m22]]].
Hypothesis h : nine.
Lemma lc0 (x y d : R) : x - y = d -> d = 0 -> x = y.
Proof. by move=> e d0; apply/eqP; rewrite -subr_eq0 e d0. Qed.
Lemma k011 : (m21 - m12) * (m21 - m12) = (1 + m00 + m11 + m22) * (1 + m00 - m11 - m22).
Proof.
case: h => -[rr00 rr11 rr22] [rr01 rr02 rr12] [cc00 cc11 cc22] [cc01 cc02 cc12] [[ad00 ad01 ad02] [ad10 ad11 ad12] [ad20 ad21 ad22]].
apply: (@lc0 _ _ (0 + (m10 * m10 + m11 * m11 + m12 * m12 - 1) + (m20 * m20 + m21 * m21 + m22 * m22 - 1) - (m00 * m00 + m10 * m10 + m20 * m20 - 1) + 2%:R * (m11 * m22 - m12 * m21 - m00))); first by ring.
by rewrite rr11 rr22 cc00 ad00 !subrr ?mulr0 ?subr0 ?addr0.
Qed.
Lemma k012 : (m21 - m12) * (m02 - m20) = (1 + m00 + m11 + m22) * (m01 + m10).
Proof.
case: h => -[rr00 rr11 rr22] [rr01 rr02 rr12] [cc00 cc11 cc22] [cc01 cc02 cc12] [[ad00 ad01 ad02] [ad10 ad11 ad12] [ad20 ad21 ad22]].
apply: (@lc0 _ _ (0 - (m00 * m10 + m01 * m11 + m02 * m12) - (m00 * m01 + m10 * m11 + m20 * m21) + (m12 * m20 - m10 * m22 - m01) + (m21 * m02 - m22 * m01 - m10))); first by ring.
by rewrite rr01 cc01 ad01 ad10 !subrr ?mulr0 ?subr0 ?addr0.
Qed.
Lemma k013 : (m21 - m12) * (m10 - m01) = (1 + m00 + m11 + m22) * (m02 + m20).
Proof.
case: h => -[rr00 rr11 rr22] [rr01 rr02 rr12] [cc00 cc11 cc22] [cc01 cc02 cc12] [[ad00 ad01 ad02] [ad10 ad11 ad12] [ad20 ad21 ad22]].
apply: (@lc0 _ _ (0 - (m00 * m20 + m01 * m21 + m02 * m22) - (m00 * m02 + m10 * m12 + m20 * m22) + (m10 * m21 - m11 * m20 - m02) + (m01 * m12 - m02 * m11 - m20))); first by ring.
by rewrite rr02 cc02 ad02 ad20 !subrr ?mulr0 ?subr0 ?addr0.
Qed.
Lemma k022 : (m02 - m20) * (m02 - m20) = (1 + m00 + m11 + m22) * (1 + m11 - m22 - m00).
Proof.
case: h => -[rr00 rr11 rr22] [rr01 rr02 rr12] [cc00 cc11 cc22] [cc01 cc02 cc12] [[ad00 ad01 ad02] [ad10 ad11 ad12] [ad20 ad21 ad22]].
apply: (@lc0 _ _ (0 + (m00 * m00 + m01 * m01 + m02 * m02 - 1) + (m20 * m20 + m21 * m21 + m22 * m22 - 1) - (m01 * m01 + m11 * m11 + m21 * m21 - 1) + 2%:R * (m22 * m00 - m20 * m02 - m11))); first by ring.
by rewrite rr00 rr22 cc11 ad11 !subrr ?mulr0 ?subr0 ?addr0.
Qed.
Lemma k023 : (m02 - m20) * (m10 - m01) = (1 + m00 + m11 + m22) * (m12 + m21).
Proof.
case: h => -[rr00 rr11 rr22] [rr01 rr02 rr12] [cc00 cc11 cc22] [cc01 cc02 cc12] [[ad00 ad01 ad02] [ad10 ad11 ad12] [ad20 ad21 ad22]].
apply: (@lc0 _ _ (0 - (m10 * m20 + m11 * m21 + m12 * m22) - (m01 * m02 + m11 * m12 + m21 * m22) + (m20 * m01 - m21 * m00 - m12) + (m02 * m10 - m00 * m12 - m21))); first by ring.
by rewrite rr12 cc12 ad12 ad21 !subrr ?mulr0 ?subr0 ?addr0.
Qed.
Lemma k033 : (m10 - m01) * (m10 - m01) = (1 + m00 + m11 + m22) * (1 + m22 - m00 - m11).
Proof.
case: h => -[rr00 rr11 rr22] [rr01 rr02 rr12] [cc00 cc11 cc22] [cc01 cc02 cc12] [[ad00 ad01 ad02] [ad10 ad11 ad12] [ad20 ad21 ad22]].
apply: (@lc0 _ _ (0 - (m20 * m20 + m21 * m21 + m22 * m22 - 1) + (m00 * m00 + m10 * m10 + m20 * m20 - 1) + (m01 * m01 + m11 * m11 + m21 * m21 - 1) + 2%:R * (m00 * m11 - m01 * m10 - m22))); first by ring.
by rewrite rr22 cc00 cc11 ad22 !subrr ?mulr0 ?subr0 ?addr0.
Qed.
Lemma k100 : (m21 - m12) * (m21 - m12) = (1 + m00 - m11 - m22) * (1 + m00 + m11 + m22).
Proof.
case: h => -[rr00 rr11 rr22] [rr01 rr02 rr12] [cc00 cc11 cc22] [cc01 cc02 cc12] [[ad00 ad01 ad02] [ad10 ad11 ad12] [ad20 ad21 ad22]].
apply: (@lc0 _ _ (0 + (m10 * m10 + m11 * m11 + m12 * m12 - 1) + (m20 * m20 + m21 * m21 + m22 * m22 - 1) - (m00 * m00 + m10 * m10 + m20 * m20 - 1) + 2%:R * (m11 * m22 - m12 * m21 - m00))); first by ring.
by rewrite rr11 rr22 cc00 ad00 !subrr ?mulr0 ?subr0 ?addr0.
Qed.
Lemma k102 : (m21 - m12) * (m01 + m10) = (1 + m00 - m11 - m22) * (m02 - m20).
Proof.
case: h => -[rr00 rr11 rr22] [rr01 rr02 rr12] [cc00 cc11 cc22] [cc01 cc02 cc12] [[ad00 ad01 ad02] [ad10 ad11 ad12] [ad20 ad21 ad22]].
apply: (@lc0 _ _ (0 + (m00 * m20 + m01 * m21 + m02 * m22) - (m00 * m02 + m10 * m12 + m20 * m22) + (m10 * m21 - m11 * m20 - m02) - (m01 * m12 - m02 * m11 - m20))); first by ring.
by rewrite rr02 cc02 ad02 ad20 !subrr ?mulr0 ?subr0 ?addr0.
Qed.
Lemma k103 : (m21 - m12) * (m02 + m20) = (1 + m00 - m11 - m22) * (m10 - m01).
Proof.
case: h => -[rr00 rr11 rr22] [rr01 rr02 rr12] [cc00 cc11 cc22] [cc01 cc02 cc12] [[ad00 ad01 ad02] [ad10 ad11 ad12] [ad20 ad21 ad22]].
apply: (@lc0 _ _ (0 - (m00 * m10 + m01 * m11 + m02 * m12) + (m00 * m01 + m10 * m11 + m20 * m21) - (m12 * m20 - m10 * m22 - m01) + (m21 * m02 - m22 * m01 - m10))); first by ring.
by rewrite rr01 cc01 ad01 ad10 !subrr ?mulr0 ?subr0 ?addr0.
Qed.
Lemma k122 : (m01 + m10) * (m01 + m10) = (1 + m00 - m11 - m22) * (1 + m11 - m22 - m00).
Proof.
case: h => -[rr00 rr11 rr22] [rr01 rr02 rr12] [cc00 cc11 cc22] [cc01 cc02 cc12] [[ad00 ad01 ad02] [ad10 ad11 ad12] [ad20 ad21 ad22]].
apply: (@lc0 _ _ (0 - (m20 * m20 + m21 * m21 + m22 * m22 - 1) + (m00 * m00 + m10 * m10 + m20 * m20 - 1) + (m01 * m01 + m11 * m11 + m21 * m21 - 1) - 2%:R * (m00 * m11 - m01 * m10 - m22))); first by ring.
by rewrite rr22 cc00 cc11 ad22 !subrr ?mulr0 ?subr0 ?addr0.
Qed.
Lemma k123 : (m01 + m10) * (m02 + m20) = (1 + m00 - m11 - m22) * (m12 + m21).
Proof.
case: h => -[rr00 rr11 rr22] [rr01 rr02 rr12] [cc00 cc11 cc22] [cc01 cc02 cc12] [[ad00 ad01 ad02] [ad10 ad11 ad12] [ad20 ad21 ad22]].
apply: (@lc0 _ _ (0 + (m10 * m20 + m11 * m21 + m12 * m22) + (m01 * m02 + m11 * m12 + m21 * m22) + (m20 * m01 - m21 * m00 - m12) + (m02 * m10 - m00 * m12 - m21))); first by ring.
by rewrite rr12 cc12 ad12 ad21 !subrr ?mulr0 ?subr0 ?addr0.
Qed.
Lemma k133 : (m02 + m20) * (m02 + m20) = (1 + m00 - m11 - m22) * (1 + m22 - m00 - m11).
Proof.
case: h => -[rr00 rr11 rr22] [rr01 rr02 rr12] [cc00 cc11 cc22] [cc01 cc02 cc12] [[ad00 ad01 ad02] [ad10 ad11 ad12] [ad20 ad21 ad22]].
apply: (@lc0 _ _ (0 + (m00 * m00 + m01 * m01 + m02 * m02 - 1) + (m20 * m20 + m21 * m21 + m22 * m22 - 1) - (m01 * m01 + m11 * m11 + m21 * m21 - 1) - 2%:R * (m22 * m00 - m20 * m02 - m11))); first by ring.
by rewrite rr00 rr22 cc11 ad11 !subrr ?mulr0 ?subr0 ?addr0.
Qed.
Lemma k200 : (m02 - m20) * (m02 - m20) = (1 + m11 - m22 - m00) * (1 + m00 + m11 + m22).
Proof.
case: h => -[rr00 rr11 rr22] [rr01 rr02 rr12] [cc00 cc11 cc22] [cc01 cc02 cc12] [[ad00 ad01 ad02] [ad10 ad11 ad12] [ad20 ad21 ad22]].
apply: (@lc0 _ _ (0 + (m00 * m00 + m01 * m01 + m02 * m02 - 1) + (m20 * m20 + m21 * m21 + m22 * m22 - 1) - (m01 * m01 + m11 * m11 + m21 * m21 - 1) + 2%:R * (m22 * m00 - m20 * m02 - m11))); first by ring.
by rewrite rr00 rr22 cc11 ad11 !subrr ?mulr0 ?subr0 ?addr0.
Qed.
Lemma k201 : (m02 - m20) * (m01 + m10) = (1 + m11 - m22 - m00) * (m21 - m12).
Proof.
case: h => -[rr00 rr11 rr22] [rr01 rr02 rr12] [cc00 cc11 cc22] [cc01 cc02 cc12] [[ad00 ad01 ad02] [ad10 ad11 ad12] [ad20 ad21 ad22]].
apply: (@lc0 _ _ (0 - (m10 * m20 + m11 * m21 + m12 * m22) + (m01 * m02 + m11 * m12 + m21 * m22) - (m20 * m01 - m21 * m00 - m12) + (m02 * m10 - m00 * m12 - m21))); first by ring.
by rewrite rr12 cc12 ad12 ad21 !subrr ?mulr0 ?subr0 ?addr0.
Qed.
Lemma k203 : (m02 - m20) * (m12 + m21) = (1 + m11 - m22 - m00) * (m10 - m01).
Proof.
case: h => -[rr00 rr11 rr22] [rr01 rr02 rr12] [cc00 cc11 cc22] [cc01 cc02 cc12] [[ad00 ad01 ad02] [ad10 ad11 ad12] [ad20 ad21 ad22]].
apply: (@lc0 _ _ (0 + (m00 * m10 + m01 * m11 + m02 * m12) - (m00 * m01 + m10 * m11 + m20 * m21) - (m12 * m20 - m10 * m22 - m01) + (m21 * m02 - m22 * m01 - m10))); first by ring.
by rewrite rr01 cc01 ad01 ad10 !subrr ?mulr0 ?subr0 ?addr0.
Qed.
Lemma k211 : (m01 + m10) * (m01 + m10) = (1 + m11 - m22 - m00) * (1 + m00 - m11 - m22).
Proof.
case: h => -[rr00 rr11 rr22] [rr01 rr02 rr12] [cc00 cc11 cc22] [cc01 cc02 cc12] [[ad00 ad01 ad02] [ad10 ad11 ad12] [ad20 ad21 ad22]].
apply: (@lc0 _ _ (0 - (m20 * m20 + m21 * m21 + m22 * m22 - 1) + (m00 * m00 + m10 * m10 + m20 * m20 - 1) + (m01 * m01 + m11 * m11 + m21 * m21 - 1) - 2%:R * (m00 * m11 - m01 * m10 - m22))); first by ring.
by rewrite rr22 cc00 cc11 ad22 !subrr ?mulr0 ?subr0 ?addr0.
Qed.
Lemma k213 : (m01 + m10) * (m12 + m21) = (1 + m11 - m22 - m00) * (m02 + m20).
Proof.
case: h => -[rr00 rr11 rr22] [rr01 rr02 rr12] [cc00 cc11 cc22] [cc01 cc02 cc12] [[ad00 ad01 ad02] [ad10 ad11 ad12] [ad20 ad21 ad22]].
apply: (@lc0 _ _ (0 + (m00 * m20 + m01 * m21 + m02 * m22) + (m00 * m02 + m10 * m12 + m20 * m22) + (m10 * m21 - m11 * m20 - m02) + (m01 * m12 - m02 * m11 - m20))); first by ring.
by rewrite rr02 cc02 ad02 ad20 !subrr ?mulr0 ?subr0 ?addr0.
Qed.
Lemma k233 : (m12 + m21) * (m12 + m21) = (1 + m11 - m22 - m00) * (1 + m22 - m00 - m11).
Proof.
case: h => -[rr00 rr11 rr22] [rr01 rr02 rr12] [cc00 cc11 cc22] [cc01 cc02 cc12] [[ad00 ad01 ad02] [ad10 ad11 ad12] [ad20 ad21 ad22]].
apply: (@lc0 _ _ (0 + (m10 * m10 + m11 * m11 + m12 * m12 - 1) + (m20 * m20 + m21 * m21 + m22 * m22 - 1) - (m00 * m00 + m10 * m10 + m20 * m20 - 1) - 2%:R * (m11 * m22 - m12 * m21 - m00))); first by ring.
by rewrite rr11 rr22 cc00 ad00 !subrr ?mulr0 ?subr0 ?addr0.
Qed.
Lemma k300 : (m10 - m01) * (m10 - m01) = (1 + m22 - m00 - m11) * (1 + m00 + m11 + m22).
Proof.
case: h => -[rr00 rr11 rr22] [rr01 rr02 rr12] [cc00 cc11 cc22] [cc01 cc02 cc12] [[ad00 ad01 ad02] [ad10 ad11 ad12] [ad20 ad21 ad22]].
apply: (@lc0 _ _ (0 - (m20 * m20 + m21 * m21 + m22 * m22 - 1) + (m00 * m00 + m10 * m10 + m20 * m20 - 1) + (m01 * m01 + m11 * m11 + m21 * m21 - 1) + 2%:R * (m00 * m11 - m01 * m10 - m22))); first by ring.
by rewrite rr22 cc00 cc11 ad22 !subrr ?mulr0 ?subr0 ?addr0.
Qed.
Lemma k301 : (m10 - m01) * (m02 + m20) = (1 + m22 - m00 - m11) * (m21 - m12).
Proof.
case: h => -[rr00 rr11 rr22] [rr01 rr02 rr12] [cc00 cc11 cc22] [cc01 cc02 cc12] [[ad00 ad01 ad02] [ad10 ad11 ad12] [ad20 ad21 ad22]].
apply: (@lc0 _ _ (0 + (m10 * m20 + m11 * m21 + m12 * m22) - (m01 * m02 + m11 * m12 + m21 * m22) - (m20 * m01 - m21 * m00 - m12) + (m02 * m10 - m00 * m12 - m21))); first by ring.
by rewrite rr12 cc12 ad12 ad21 !subrr ?mulr0 ?subr0 ?addr0.
Qed.
Lemma k302 : (m10 - m01) * (m12 + m21) = (1 + m22 - m00 - m11) * (m02 - m20).
Proof.
case: h => -[rr00 rr11 rr22] [rr01 rr02 rr12] [cc00 cc11 cc22] [cc01 cc02 cc12] [[ad00 ad01 ad02] [ad10 ad11 ad12] [ad20 ad21 ad22]].
apply: (@lc0 _ _ (0 - (m00 * m20 + m01 * m21 + m02 * m22) + (m00 * m02 + m10 * m12 + m20 * m22) + (m10 * m21 - m11 * m20 - m02) - (m01 * m12 - m02 * m11 - m20))); first by ring.
by rewrite rr02 cc02 ad02 ad20 !subrr ?mulr0 ?subr0 ?addr0.
Qed.
Lemma k311 : (m02 + m20) * (m02 + m20) = (1 + m22 - m00 - m11) * (1 + m00 - m11 - m22).
Proof.
case: h => -[rr00 rr11 rr22] [rr01 rr02 rr12] [cc00 cc11 cc22] [cc01 cc02 cc12] [[ad00 ad01 ad02] [ad10 ad11 ad12] [ad20 ad21 ad22]].
apply: (@lc0 _ _ (0 + (m00 * m00 + m01 * m01 + m02 * m02 - 1) + (m20 * m20 + m21 * m21 + m22 * m22 - 1) - (m01 * m01 + m11 * m11 + m21 * m21 - 1) - 2%:R * (m22 * m00 - m20 * m02 - m11))); first by ring.
by rewrite rr00 rr22 cc11 ad11 !subrr ?mulr0 ?subr0 ?addr0.
Qed.
Lemma k312 : (m02 + m20) * (m12 + m21) = (1 + m22 - m00 - m11) * (m01 + m10).
Proof.
case: h => -[rr00 rr11 rr22] [rr01 rr02 rr12] [cc00 cc11 cc22] [cc01 cc02 cc12] [[ad00 ad01 ad02] [ad10 ad11 ad12] [ad20 ad21 ad22]].
apply: (@lc0 _ _ (0 + (m00 * m10 + m01 * m11 + m02 * m12) + (m00 * m01 + m10 * m11 + m20 * m21) + (m12 * m20 - m10 * m22 - m01) + (m21 * m02 - m22 * m01 - m10))); first by ring.
by rewrite rr01 cc01 ad01 ad10 !subrr ?mulr0 ?subr0 ?addr0.
Qed.
Lemma k322 : (m12 + m21) * (m12 + m21) = (1 + m22 - m00 - m11) * (1 + m11 - m22 - m00).
Proof.
case: h => -[rr00 rr11 rr22] [rr01 rr02 rr12] [cc00 cc11 cc22] [cc01 cc02 cc12] [[ad00 ad01 ad02] [ad10 ad11 ad12] [ad20 ad21 ad22]].
apply: (@lc0 _ _ (0 + (m10 * m10 + m11 * m11 + m12 * m12 - 1) + (m20 * m20 + m21 * m21 + m22 * m22 - 1) - (m00 * m00 + m10 * m10 + m20 * m20 - 1) - 2%:R * (m11 * m22 - m12 * m21 - m00))); first by ring.
by rewrite rr11 rr22 cc00 ad00 !subrr ?mulr0 ?subr0 ?addr0.
Qed.
End Nine.

Section P.
Variable R : rcfType.
Local Notation quat := (quat R).
Implicit Types (Q : 'M[R]_3) (q p : quat).

Definition nineQ Q : Prop :=
  nine (cf Q 0 0) (cf Q 0 1) (cf Q 0 2) (cf Q 1 0) (cf Q 1 1) (cf Q 1 2) (cf Q 2 0) (cf Q 2 1) (cf Q 2 2).

Lemma rot_nine Q : rotation Q -> nineQ Q.
Proof.
move=> rQ; have [h d] := rQ; have h' := mulmx1C h.
have E (M : 'M[R]_3) : M = 1%:M -> forall i j : nat, (i < 3)%N -> (j < 3)%N -> M (inord i) (inord j) = (i == j)%:R.
  by move=> -> i j hi hj; rewrite mxE -val_eqE /= !inordK.
have C j1 j2 j : crossp (Q *m delta_mx (inord j1) 0) (Q *m delta_mx (inord j2) 0) = Q *m delta_mx (inord j) 0 ->
    [/\ cf Q 1 j1 * cf Q 2 j2 - cf Q 2 j1 * cf Q 1 j2 = cf Q 0 j,
        cf Q 2 j1 * cf Q 0 j2 - cf Q 0 j1 * cf Q 2 j2 = cf Q 1 j &
        cf Q 0 j1 * cf Q 1 j2 - cf Q 1 j1 * cf Q 0 j2 = cf Q 2 j].
  have D i k : (Q *m delta_mx (inord i) (0 : 'I_1)) (inord k) 0 = cf Q k i by rewrite -colE mxE.
  move=> e; split; [have := congr1 (fun v => X v) e|have := congr1 (fun v => Y v) e|have := congr1 (fun v => Z v) e];
    by rewrite !xyz /X /Y /Z !D.
have cr (a b c : nat) : crossp (delta_mx (inord a) 0 : 'cV[R]_3) (delta_mx (inord b) 0) = delta_mx (inord c) 0 ->
    crossp (Q *m delta_mx (inord a) 0) (Q *m delta_mx (inord b) 0) = Q *m delta_mx (inord c) 0.
  by move=> e; rewrite cross_rot //; congr (Q *m _); exact: e.
have dx (k : nat) : (k < 3)%N -> [/\ X (delta_mx (inord k) 0 : 'cV[R]_3) = (k == 0%N)%:R,
    Y (delta_mx (inord k) 0 : 'cV[R]_3) = (k == 1%N)%:R & Z (delta_mx (inord k) 0 : 'cV[R]_3) = (k == 2%N)%:R].
  by case: k => [|[|[|//]]] _; rewrite /X /Y /Z !mxE -!val_eqE /= !inordK.
have [[x0 y0 z0] [x1 y1 z1] [x2 y2 z2]] := (And3 (dx 0%N isT) (dx 1%N isT) (dx 2%N isT)).
have [a1 a2 a3] := C 1%N 2%N 0%N (cr 1%N 2%N 0%N (ltac:(by apply: vecP; rewrite !xyz ?x0 ?y0 ?z0 ?x1 ?y1 ?z1 ?x2 ?y2 ?z2 /=; ring))).
have [b1 b2 b3] := C 2%N 0%N 1%N (cr 2%N 0%N 1%N (ltac:(by apply: vecP; rewrite !xyz ?x0 ?y0 ?z0 ?x1 ?y1 ?z1 ?x2 ?y2 ?z2 /=; ring))).
have [c1 c2 c3] := C 0%N 1%N 2%N (cr 0%N 1%N 2%N (ltac:(by apply: vecP; rewrite !xyz ?x0 ?y0 ?z0 ?x1 ?y1 ?z1 ?x2 ?y2 ?z2 /=; ring))).
have r i j : (i < 3)%N -> (j < 3)%N -> cf Q i 0 * cf Q j 0 + cf Q i 1 * cf Q j 1 + cf Q i 2 * cf Q j 2 = (i == j)%:R.
  by move=> hi hj; have := E _ h' i j hi hj; rewrite mxE sum3 !mxE.
have c i j : (i < 3)%N -> (j < 3)%N -> cf Q 0 i * cf Q 0 j + cf Q 1 i * cf Q 1 j + cf Q 2 i * cf Q 2 j = (i == j)%:R.
  by move=> hi hj; have := E _ h i j hi hj; rewrite mxE sum3 !mxE.
split; [split; exact: r|split; exact: r|split; exact: c|split; exact: c|].
split; split.
- by rewrite -a1; ring.
- by rewrite -b1; ring.
- by rewrite -c1; ring.
- by rewrite -a2; ring.
- by rewrite -b2; ring.
- by rewrite -c2; ring.
- by rewrite -a3; ring.
- by rewrite -b3; ring.
- by rewrite -c3; ring.
Qed.

(* the ten products *)
Definition prods Q q : Prop :=
  [/\ [/\ 4%:R * (q_w q * q_w q) = 1 + cf Q 0 0 + cf Q 1 1 + cf Q 2 2, 4%:R * (q_x q * q_x q) = 1 + cf Q 0 0 - cf Q 1 1 - cf Q 2 2,
          4%:R * (q_y q * q_y q) = 1 + cf Q 1 1 - cf Q 2 2 - cf Q 0 0 & 4%:R * (q_z q * q_z q) = 1 + cf Q 2 2 - cf Q 0 0 - cf Q 1 1],
      [/\ 4%:R * (q_w q * q_x q) = cf Q 2 1 - cf Q 1 2, 4%:R * (q_w q * q_y q) = cf Q 0 2 - cf Q 2 0 &
          4%:R * (q_w q * q_z q) = cf Q 1 0 - cf Q 0 1] &
      [/\ 4%:R * (q_x q * q_y q) = cf Q 0 1 + cf Q 1 0, 4%:R * (q_x q * q_z q) = cf Q 0 2 + cf Q 2 0 &
          4%:R * (q_y q * q_z q) = cf Q 1 2 + cf Q 2 1]].

Lemma pu (t u : R) : t != 0 -> 4%:R * (2%:R^-1 * t * (u * (2%:R^-1 / t))) = u.
Proof. by move=> n; field; rewrite n. Qed.
Lemma pu' (t u : R) : t != 0 -> 4%:R * (u * (2%:R^-1 / t) * (2%:R^-1 * t)) = u.
Proof. by move=> n; field; rewrite n. Qed.
Lemma ptt (t k : R) : t ^+ 2 = k -> 4%:R * (2%:R^-1 * t * (2%:R^-1 * t)) = k.
Proof. by move=> <-; field. Qed.
Lemma puv (t k u v w : R) : t != 0 -> t ^+ 2 = k -> u * v = k * w -> 4%:R * (u * (2%:R^-1 / t) * (v * (2%:R^-1 / t))) = w.
Proof.
move=> n tk e; have -> : 4%:R * (u * (2%:R^-1 / t) * (v * (2%:R^-1 / t))) = u * v / t ^+ 2 by field; rewrite n.
by rewrite e -tk mulrC mulKf // expf_neq0.
Qed.

Lemma argmaxP Q : let i := argmax_diag Q in
  [/\ (i < 3)%N, cf Q 0 0 <= cf Q i i, cf Q 1 1 <= cf Q i i & cf Q 2 2 <= cf Q i i].
Proof.
rewrite /argmax_diag; case: (ltrP (cf Q 0 0) (cf Q 1 1)) => h1; case: ltrP => h2; split=> //; try exact: ltW; try by [].
  exact: ltW (lt_trans h1 h2).
exact: ltW (le_lt_trans h1 h2).
Qed.

Lemma GetQuat_prods Q : rotation Q -> prods Q (GetQuat Q).
Proof.
move=> rQ; have N := rot_nine rQ; rewrite /nineQ in N; rewrite /GetQuat /prods.
case: (ltrP 0 (cf Q 0 0 + cf Q 1 1 + cf Q 2 2)) => t0 /=.
  set t := Num.sqrt _; have tp : 0 < cf Q 0 0 + cf Q 1 1 + cf Q 2 2 + 1 by rewrite addr_gt0 ?ltr01.
  have tk : t ^+ 2 = 1 + cf Q 0 0 + cf Q 1 1 + cf Q 2 2 by rewrite sqr_sqrtr ?(ltW tp) //; ring.
  have nt : t != 0 by rewrite gt_eqF // sqrtr_gt0.
  split; split; try (by rewrite pu); try (exact: ptt); apply: (puv nt tk).
  - exact: k011 N.
  - exact: k022 N.
  - exact: k033 N.
  - exact: k012 N.
  - exact: k013 N.
  - exact: k023 N.
have P (a b c d : R) : a + b + c <= 0 -> a <= d -> b <= d -> c <= d -> 0 < 1 - (a + b + c) + (d + d).
  move=> s0 ad bd cd; have d0 : a + b + c <= d + d + d by rewrite !ler_add.
  rewrite -(pmulr_rgt0 _ (_ : 0 < 3%:R :> R)) ?ltr0n //.
  have -> : 3%:R * (1 - (a + b + c) + (d + d)) = 3%:R + (- (a + b + c) + 2%:R * (d + d + d - (a + b + c))) by ring.
  by rewrite ltr_paddr ?ltr0n // addr_ge0 ?oppr_ge0 // mulr_ge0 ?ler0n ?subr_ge0.
have [] := argmaxP Q; case: (argmax_diag Q) => [|[|[|//]]] _ h0 h1 h2 /=;
  rewrite -?[((0 + 1) %% 3)%N]/(1%N) -?[((1 + 1) %% 3)%N]/(2%N) -?[((2 + 1) %% 3)%N]/(0%N) -?[((0 + 1) %% 3)%N]/(1%N) /=; set t := Num.sqrt _.
- have p : 0 < cf Q 0 0 - cf Q 1 1 - cf Q 2 2 + 1.
    by have := P _ _ _ _ t0 h0 h1 h2; rewrite (_ : 1 - _ + _ = cf Q 0 0 - cf Q 1 1 - cf Q 2 2 + 1) //; ring.
  have tk : t ^+ 2 = 1 + cf Q 0 0 - cf Q 1 1 - cf Q 2 2 by rewrite sqr_sqrtr ?(ltW p) //; ring.
  have nt : t != 0 by rewrite gt_eqF // sqrtr_gt0.
  split; split; try (first [by rewrite pu|by rewrite pu'|by rewrite pu // addrC|by rewrite pu' // addrC]); try (exact: ptt); apply: (puv nt tk).
  + exact: k100 N.
  + by rewrite -[RHS](k122 N); ring.
  + by rewrite -[RHS](k133 N); ring.
  + by rewrite -[RHS](k102 N); ring.
  + by rewrite -[RHS](k103 N); ring.
  + by rewrite -[RHS](k123 N); ring.
- have p : 0 < cf Q 1 1 - cf Q 2 2 - cf Q 0 0 + 1.
    by have := P _ _ _ _ t0 h0 h1 h2; rewrite (_ : 1 - _ + _ = cf Q 1 1 - cf Q 2 2 - cf Q 0 0 + 1) //; ring.
  have tk : t ^+ 2 = 1 + cf Q 1 1 - cf Q 2 2 - cf Q 0 0 by rewrite sqr_sqrtr ?(ltW p) //; ring.
  have nt : t != 0 by rewrite gt_eqF // sqrtr_gt0.
  split; split; try (first [by rewrite pu|by rewrite pu'|by rewrite pu // addrC|by rewrite pu' // addrC]); try (exact: ptt); apply: (puv nt tk).
  + by rewrite -[RHS](k200 N); ring.
  + by rewrite -[RHS](k211 N); ring.
  + by rewrite -[RHS](k233 N); ring.
  + by rewrite -[RHS](k201 N); ring.
  + by rewrite -[RHS](k203 N); ring.
  + by rewrite -[RHS](k213 N); ring.
- have p : 0 < cf Q 2 2 - cf Q 0 0 - cf Q 1 1 + 1.
    by have := P _ _ _ _ t0 h0 h1 h2; rewrite (_ : 1 - _ + _ = cf Q 2 2 - cf Q 0 0 - cf Q 1 1 + 1) //; ring.
  have tk : t ^+ 2 = 1 + cf Q 2 2 - cf Q 0 0 - cf Q 1 1 by rewrite sqr_sqrtr ?(ltW p) //; ring.
  have nt : t != 0 by rewrite gt_eqF // sqrtr_gt0.
  split; split; try (first [by rewrite pu|by rewrite pu'|by rewrite pu // addrC|by rewrite pu' // addrC]); try (exact: ptt); apply: (puv nt tk).
  + by rewrite -[RHS](k300 N); ring.
  + by rewrite -[RHS](k311 N); ring.
  + by rewrite -[RHS](k322 N); ring.
  + by rewrite -[RHS](k301 N); ring.
  + by rewrite -[RHS](k302 N); ring.
  + by rewrite -[RHS](k312 N); ring.
Qed.

Lemma quatP q p : q_w q = q_w p -> q_x q = q_x p -> q_y q = q_y p -> q_z q = q_z p -> q = p.
Proof. by case: q p => [? ? ? ?] [? ? ? ?] /= -> -> -> ->. Qed.

Lemma mulQ Q v : [/\ X (Q *m v) = cf Q 0 0 * X v + cf Q 0 1 * Y v + cf Q 0 2 * Z v,
  Y (Q *m v) = cf Q 1 0 * X v + cf Q 1 1 * Y v + cf Q 1 2 * Z v &
  Z (Q *m v) = cf Q 2 0 * X v + cf Q 2 1 * Y v + cf Q 2 2 * Z v].
Proof. by rewrite /X /Y /Z /cf !mxE !sum3. Qed.

Lemma n4 : (4%:R : R) != 0.
Proof. by rewrite pnatr_eq0. Qed.

Lemma prods_unit Q q : prods Q q -> unit q.
Proof.
case=> -[ww xx yy zz] _ _; apply: (mulfI n4).
have -> : 4%:R * (q_w q ^+ 2 + q_x q ^+ 2 + q_y q ^+ 2 + q_z q ^+ 2) =
  4%:R * (q_w q * q_w q) + 4%:R * (q_x q * q_x q) + 4%:R * (q_y q * q_y q) + 4%:R * (q_z q * q_z q) by ring.
by rewrite ww xx yy zz; ring.
Qed.

Lemma prods_rep Q q : prods Q q -> represents q Q.
Proof.
case=> -[ww xx yy zz] [wx wy wz] [xy xz yz] v; have [ex ey ez] := mulQ Q v; apply: quatP => /=; rewrite ?ex ?ey ?ez.
- by ring.
- apply: (mulfI n4); set V := X v; set W := Y v; set U := Z v.
  transitivity ((4%:R * (q_w q * q_w q) + 4%:R * (q_x q * q_x q) - 4%:R * (q_y q * q_y q) - 4%:R * (q_z q * q_z q)) * V
    + 2%:R * (4%:R * (q_x q * q_y q) - 4%:R * (q_w q * q_z q)) * W + 2%:R * (4%:R * (q_x q * q_z q) + 4%:R * (q_w q * q_y q)) * U).
    by ring.
  by rewrite ww xx yy zz xy wz xz wy; ring.
- apply: (mulfI n4); set V := X v; set W := Y v; set U := Z v.
  transitivity ((4%:R * (q_w q * q_w q) - 4%:R * (q_x q * q_x q) + 4%:R * (q_y q * q_y q) - 4%:R * (q_z q * q_z q)) * W
    + 2%:R * (4%:R * (q_x q * q_y q) + 4%:R * (q_w q * q_z q)) * V + 2%:R * (4%:R * (q_y q * q_z q) - 4%:R * (q_w q * q_x q)) * U).
    by ring.
  by rewrite ww xx yy zz xy wz yz wx; ring.
- apply: (mulfI n4); set V := X v; set W := Y v; set U := Z v.
  transitivity ((4%:R * (q_w q * q_w q) - 4%:R * (q_x q * q_x q) - 4%:R * (q_y q * q_y q) + 4%:R * (q_z q * q_z q)) * U
    + 2%:R * (4%:R * (q_x q * q_z q) - 4%:R * (q_w q * q_y q)) * V + 2%:R * (4%:R * (q_y q * q_z q) + 4%:R * (q_w q * q_x q)) * W).
    by ring.
  by rewrite ww xx yy zz xz wy yz wx; ring.
Qed.

Lemma cfE Q q : represents q Q ->
  [/\ [/\ cf Q 0 0 = q_w q ^+ 2 + q_x q ^+ 2 - q_y q ^+ 2 - q_z q ^+ 2, cf Q 0 1 = 2%:R * (q_x q * q_y q - q_w q * q_z q) &
           cf Q 0 2 = 2%:R * (q_x q * q_z q + q_w q * q_y q)],
      [/\ cf Q 1 0 = 2%:R * (q_x q * q_y q + q_w q * q_z q), cf Q 1 1 = q_w q ^+ 2 - q_x q ^+ 2 + q_y q ^+ 2 - q_z q ^+ 2 &
           cf Q 1 2 = 2%:R * (q_y q * q_z q - q_w q * q_x q)] &
      [/\ cf Q 2 0 = 2%:R * (q_x q * q_z q - q_w q * q_y q), cf Q 2 1 = 2%:R * (q_y q * q_z q + q_w q * q_x q) &
           cf Q 2 2 = q_w q ^+ 2 - q_x q ^+ 2 - q_y q ^+ 2 + q_z q ^+ 2]].
Proof.
move=> h.
have E (a b c : R) : [/\ X (vec3 a b c) = a, Y (vec3 a b c) = b & Z (vec3 a b c) = c] by rewrite !xyz.
have G (a b c : R) := (h (vec3 a b c), mulQ Q (vec3 a b c), E a b c).
split; split.
- by have [[e [ex _ _]] [X1 Y1 Z1]] := G 1 0 0; have := congr1 (@q_x R) e; rewrite /= ex X1 Y1 Z1 !mulr0 !mulr1 ?addr0 ?add0r => <-; ring.
- by have [[e [ex _ _]] [X1 Y1 Z1]] := G 0 1 0; have := congr1 (@q_x R) e; rewrite /= ex X1 Y1 Z1 !mulr0 !mulr1 ?addr0 ?add0r => <-; ring.
- by have [[e [ex _ _]] [X1 Y1 Z1]] := G 0 0 1; have := congr1 (@q_x R) e; rewrite /= ex X1 Y1 Z1 !mulr0 !mulr1 ?addr0 ?add0r => <-; ring.
- by have [[e [_ ex _]] [X1 Y1 Z1]] := G 1 0 0; have := congr1 (@q_y R) e; rewrite /= ex X1 Y1 Z1 !mulr0 !mulr1 ?addr0 ?add0r => <-; ring.
- by have [[e [_ ex _]] [X1 Y1 Z1]] := G 0 1 0; have := congr1 (@q_y R) e; rewrite /= ex X1 Y1 Z1 !mulr0 !mulr1 ?addr0 ?add0r => <-; ring.
- by have [[e [_ ex _]] [X1 Y1 Z1]] := G 0 0 1; have := congr1 (@q_y R) e; rewrite /= ex X1 Y1 Z1 !mulr0 !mulr1 ?addr0 ?add0r => <-; ring.
- by have [[e [_ _ ex]] [X1 Y1 Z1]] := G 1 0 0; have := congr1 (@q_z R) e; rewrite /= ex X1 Y1 Z1 !mulr0 !mulr1 ?addr0 ?add0r => <-; ring.
- by have [[e [_ _ ex]] [X1 Y1 Z1]] := G 0 1 0; have := congr1 (@q_z R) e; rewrite /= ex X1 Y1 Z1 !mulr0 !mulr1 ?addr0 ?add0r => <-; ring.
- by have [[e [_ _ ex]] [X1 Y1 Z1]] := G 0 0 1; have := congr1 (@q_z R) e; rewrite /= ex X1 Y1 Z1 !mulr0 !mulr1 ?addr0 ?add0r => <-; ring.
Qed.

Lemma rep_prods Q q : unit q -> represents q Q -> prods Q q.
Proof.
rewrite /unit => u /cfE [[c00 c01 c02] [c10 c11 c12] [c20 c21 c22]].
have e1 k : 1 + k = q_w q ^+ 2 + q_x q ^+ 2 + q_y q ^+ 2 + q_z q ^+ 2 + k by rewrite u.
by split; split; rewrite ?e1 ?c00 ?c01 ?c02 ?c10 ?c11 ?c12 ?c20 ?c21 ?c22; ring.
Qed.

Lemma prods_pm Q q p : prods Q q -> prods Q p -> p = q \/ p = qneg q.
Proof.
move=> [[ww xx yy zz] [wx wy wz] [xy xz yz]] [[ww' xx' yy' zz'] [wx' wy' wz'] [xy' xz' yz']].
have c (a b k : R) : 4%:R * a = k -> 4%:R * b = k -> b = a by move=> h1 h2; apply: (mulfI n4); rewrite h1 h2.
have {ww ww'} ww := c _ _ _ ww ww'; have {xx xx'} xx := c _ _ _ xx xx'; have {yy yy'} yy := c _ _ _ yy yy'.
have {zz zz'} zz := c _ _ _ zz zz'; have {wx wx'} wx := c _ _ _ wx wx'; have {wy wy'} wy := c _ _ _ wy wy'.
have {wz wz'} wz := c _ _ _ wz wz'; have {xy xy'} xy := c _ _ _ xy xy'; have {xz xz'} xz := c _ _ _ xz xz'.
have {yz yz'} yz := c _ _ _ yz yz'.
have pm (a b : R) : a * a = b * b -> a = b \/ a = - b.
  by move=> /eqP; rewrite -!expr2 eqf_sqr => /orP[]/eqP; [left|right].
have z (a b : R) : a * a = b * b -> b = 0 -> a = 0 by move=> e b0; apply/eqP; rewrite -sqrf_eq0 expr2 e b0 mulr0.
have nx (a b a' b' : R) : b != 0 -> b' = b -> b' * a' = b * a -> a' = a.
  by move=> nb -> /(mulfI nb).
have nn (a b a' b' : R) : b != 0 -> b' = - b -> b' * a' = b * a -> a' = - a.
  by move=> nb -> e; apply: (mulfI nb); rewrite mulrN -e mulNr opprK.
have C (a b : R) : a * b = b * a by rewrite mulrC.
case: (q_w q =P 0) => [w0|/eqP nw]; last first.
  case: (pm _ _ ww) => h; [left|right]; apply: quatP => //=; first [exact: nx nw h _|exact: nn nw h _].
case: (q_x q =P 0) => [x0|/eqP nX]; last first.
  case: (pm _ _ xx) => h; [left|right]; apply: quatP => //=.
  - by rewrite (z _ _ ww w0) w0.
  - exact: nx nX h xy.
  - exact: nx nX h xz.
  - by rewrite (z _ _ ww w0) w0 oppr0.
  - exact: nn nX h xy.
  - exact: nn nX h xz.
case: (q_y q =P 0) => [y0|/eqP nY]; last first.
  case: (pm _ _ yy) => h; [left|right]; apply: quatP => //=.
  - by rewrite (z _ _ ww w0) w0.
  - by rewrite (z _ _ xx x0) x0.
  - exact: nx nY h yz.
  - by rewrite (z _ _ ww w0) w0 oppr0.
  - by rewrite (z _ _ xx x0) x0 oppr0.
  - exact: nn nY h yz.
case: (pm _ _ zz) => h; [left|right]; apply: quatP => //=.
- by rewrite (z _ _ ww w0) w0.
- by rewrite (z _ _ xx x0) x0.
- by rewrite (z _ _ yy y0) y0.
- by rewrite (z _ _ ww w0) w0 oppr0.
- by rewrite (z _ _ xx x0) x0 oppr0.
- by rewrite (z _ _ yy y0) y0 oppr0.
Qed.
End P.
