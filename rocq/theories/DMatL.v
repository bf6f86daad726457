(* Reading a dynamically sized matrix as a statically sized one, and back. *)
From mathcomp Require Import all_ssreflect all_algebra.
From Verif Require Import DMat.
Set Implicit Arguments.
Unset Strict Implicit.
Unset Printing Implicit Defensive.
Import Order.TTheory GRing.Theory Num.Theory.
Local Open Scope ring_scope.

Section DMatL.
Variable R : realFieldType.

(* M has m rows and n columns *)
Definition dims (M : dm R) (m n : nat) : Prop := nr M = m /\ nc M = n.

(* the entries of M as a matrix of the given size *)
Definition mx_of m n (M : dm R) : 'M[R]_(m, n) := \matrix_(i, j) ent M i j.

(* the first n entries of a function as a column *)
Definition col_of n (x : nat -> R) : 'cV[R]_n := \col_i x i.

Lemma mx_of_mx m n (A : 'M[R]_(m, n)) : mx_of m n (of_mx A) = A.
Proof. by apply/matrixP => i j; rewrite mxE of_mxE. Qed.

Lemma dims_of m n (A : 'M[R]_(m, n)) : dims (of_mx A) m n.
Proof. by []. Qed.

Lemma dmul_mx X Y m k n : dims X m k -> dims Y k n ->
  exists Z, [/\ dmul X Y = Some Z, dims Z m n & mx_of m n Z = mx_of m k X *m mx_of k n Y].
Proof.
move=> [rX cX] [rY cY]; rewrite /dmul cX rY eqxx; eexists; split; [by []|by rewrite /dims /= rX cY|].
apply/matrixP => i j; rewrite !mxE /= sum_ord.
by apply: eq_bigr => l _; rewrite !mxE.
Qed.

Lemma dmul_some X Y Z : dmul X Y = Some Z -> nc X = nr Y /\ dims Z (nr X) (nc Y).
Proof. by case/dmulP => -> [h1 h2 _]. Qed.

Lemma dadd_mx X Y m n : dims X m n -> dims Y m n ->
  exists Z, [/\ dadd X Y = Some Z, dims Z m n & mx_of m n Z = mx_of m n X + mx_of m n Y].
Proof.
move=> [rX cX] [rY cY]; rewrite /dadd rX rY cX cY !eqxx; eexists; split=> //.
by apply/matrixP => i j; rewrite !mxE.
Qed.

Lemma dopp_dims X m n : dims X m n -> dims (dopp X) m n.
Proof. by []. Qed.

Lemma dopp_mx X m n : mx_of m n (dopp X) = - mx_of m n X.
Proof. by apply/matrixP => i j; rewrite !mxE. Qed.

Lemma dsub_mx X Y m n : dims X m n -> dims Y m n ->
  exists Z, [/\ dsub X Y = Some Z, dims Z m n & mx_of m n Z = mx_of m n X - mx_of m n Y].
Proof. by move=> h1 h2; rewrite -dopp_mx; apply: dadd_mx. Qed.

Lemma rowdot_mx M m n (x : nat -> R) (i : 'I_m) : nc M = n ->
  rowdot M i x = (mx_of m n M *m col_of n x) i 0.
Proof. by move=> e; rewrite /rowdot e mxE sum_ord; apply: eq_bigr => j _; rewrite !mxE. Qed.

Lemma ent_mx M m n (i : 'I_m) (j : 'I_n) : ent M i j = mx_of m n M i j.
Proof. by rewrite mxE. Qed.

Lemma col_of_add a b (x : nat -> R) :
  col_of (a + b) x = col_mx (col_of a x) (col_of b (fun j => x (a + j)%N)).
Proof.
apply/matrixP => i j; rewrite -(splitK i) mxE; case: (split i) => k /=.
  by rewrite col_mxEu mxE.
by rewrite col_mxEd mxE.
Qed.
End DMatL.
