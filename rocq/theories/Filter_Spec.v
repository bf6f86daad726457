(* Specification vocabulary: y is the response of a filter to the input sequence x. *)
From Coq Require Import Reals Lra.
From Verif Require Import Spline_Model Filter_Model.
Local Open Scope R_scope.

Definition response (fc d hz : R) (x y : nat -> R) : Prop := forall k : nat,
  secondOrderLowPassFilter (x (S (S k))) (x (S k)) (x k) (y (S k)) (y k) fc d hz = Some (y (S (S k))).

(* complex multiplication, for the statement about poles *)
Definition cmul (a b : R * R) : R * R := (fst a * fst b - snd a * snd b, fst a * snd b + snd a * fst b).
Definition modulus2 (a : R * R) : R := fst a * fst a + snd a * snd a.
(* z is a pole: the sequence z^k is a free response (input zero) *)
Fixpoint cpow (z : R * R) (k : nat) : R * R := match k with O => (1, 0) | S k => cmul z (cpow z k) end.
Definition pole (fc d hz : R) (z : R * R) : Prop :=
  response fc d hz (fun _ => 0) (fun k => fst (cpow z k)) /\ response fc d hz (fun _ => 0) (fun k => snd (cpow z k)).
