(* Specification vocabulary: one-sided derivatives and continuity of partial functions of time. *)
From Coq Require Import Reals Lra.
Local Open Scope R_scope.

(* f has right (left) derivative l at x *)
Definition right_deriv (f : R -> R) (x l : R) : Prop :=
  forall eps, 0 < eps -> exists delta, 0 < delta /\
    forall h, 0 < h < delta -> Rabs ((f (x + h) - f x) / h - l) < eps.
Definition left_deriv (f : R -> R) (x l : R) : Prop :=
  forall eps, 0 < eps -> exists delta, 0 < delta /\
    forall h, - delta < h < 0 -> Rabs ((f (x + h) - f x) / h - l) < eps.

(* non-decreasing / between *)
Definition nondecreasing (f : R -> R) : Prop := forall s t, s <= t -> f s <= f t.
Definition nonincreasing (f : R -> R) : Prop := forall s t, s <= t -> f t <= f s.
Definition between (a b x : R) : Prop := Rmin a b <= x <= Rmax a b.

(* value of an outcome known to be defined *)
Definition agrees {A B : Type} (f : A -> option B) (g : A -> B) : Prop := forall a, f a = Some (g a).
