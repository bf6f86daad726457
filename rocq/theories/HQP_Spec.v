(* Specification vocabulary for the hierarchical QP: the levels read as matrices over n decision
   variables, what a null-space basis is, what OSQP's problem means. *)
From mathcomp Require Import all_ssreflect all_algebra.
From Verif Require Import DMat DMatL Cone_Model QP_Model QP_Spec HQP_Model.
Set Implicit Arguments.
Unset Strict Implicit.
Unset Printing Implicit Defensive.
Import Order.TTheory GRing.Theory Num.Theory.
Local Open Scope ring_scope.

Section HQPSpec.
Variable R : realFieldType.
Local Notation dm := (dm R).
Local Notation level := (level R).
Variable n : nat.     (* decision variables *)

(* the members of a level as matrices *)
Definition Am (l : level) : 'M[R]_(l_nin l, n) := mx_of _ _ (l_A l).
Definition av (l : level) : 'cV[R]_(l_nin l) := mx_of _ _ (l_a l).
Definition Bm (l : level) : 'M[R]_(l_neq l, n) := mx_of _ _ (l_B l).
Definition bv (l : level) : 'cV[R]_(l_neq l) := mx_of _ _ (l_b l).
Definition Hm (l : level) : 'M[R]_n := mx_of _ _ (l_H l).
Definition gv (l : level) : 'cV[R]_n := mx_of _ _ (l_g l).
Definition Zm (l : level) : 'M[R]_(n, l_ns l) := mx_of _ _ (l_Z l).
Definition yv (l : level) : 'cV[R]_n := mx_of _ _ (l_y l).
Definition vv (l : level) : 'cV[R]_(l_nin l) := mx_of _ _ (l_v l).
Definition wv (l : level) : 'cV[R]_(l_neq l) := mx_of _ _ (l_w l).

(* what the user supplied: matrices of the announced sizes *)
Definition shaped (l : level) : Prop :=
  [/\ dims (l_B l) (l_neq l) n, dims (l_b l) (l_neq l) 1,
      ((0 < l_nin l)%N -> [/\ dims (l_A l) (l_nin l) n, dims (l_a l) (l_nin l) 1 & nc (l_V l) = l_nin l]),
      (l_cost l -> dims (l_H l) n n) &
      dims (l_y l) n 1 /\ dims (l_v l) (l_nin l) 1].

(* the user's data, the null-space basis and the sizes agree *)
Definition same_data (l l' : level) : Prop :=
  [/\ l_nin l' = l_nin l, l_neq l' = l_neq l, l_A l' = l_A l, l_a l' = l_a l &
  [/\ l_B l' = l_B l, l_b l' = l_b l, l_cost l' = l_cost l, l_H l' = l_H l &
  [/\ l_V l' = l_V l, l_W l' = l_W l & l_g l' = l_g l]]].

(* the columns of N are in the kernel of M and span it *)
Definition kernel_basis m k j (M : 'M[R]_(m, k)) (N : 'M[R]_(k, j)) : Prop :=
  M *m N = 0 /\ forall x : 'cV[R]_k, M *m x = 0 -> exists u : 'cV[R]_j, x = N *m u.

(* getNullSpace does what its name says *)
Definition null_space_ok (f : dm -> dm) : Prop :=
  forall M, nr (f M) = nc M /\
    kernel_basis (mx_of (nr M) (nc M) M) (mx_of (nc M) (nc (f M)) (f M)).

(* Z_ of level i spans exactly the changes that keep all B_k, k <= i *)
Definition prepared (d : level) (hs : seq level) : Prop :=
  forall i, (i < size hs)%N ->
    [/\ dims (l_Z (nth d hs i)) n (l_ns (nth d hs i)),
        forall k, (k <= i)%N -> Bm (nth d hs k) *m Zm (nth d hs i) = 0 &
        forall x : 'cV[R]_n, (forall k, (k <= i)%N -> Bm (nth d hs k) *m x = 0) ->
          exists u, x = Zm (nth d hs i) *m u].

(* entrywise order *)
Definition lec m (x y : 'cV[R]_m) : Prop := forall i, x i 0 <= y i 0.

(* A x <= ub for OSQP's problem; 1/2 x'Hx + g'x *)
Definition oqp_feasible (q : oqp R) (x : nat -> R) : Prop :=
  forall i, (i < nr (o_A q))%N -> rowdot (o_A q) i x <= ent (o_ub q) i 0.
Definition oqp_cost (q : oqp R) (x : nat -> R) : R :=
  1 / 2%:R * (\sum_(0 <= i < nr (o_H q)) \sum_(0 <= j < nc (o_H q)) x i * ent (o_H q) i j * x j)
  + \sum_(0 <= i < nr (o_g q)) ent (o_g q) i 0 * x i.
Definition oqp_optimal (q : oqp R) (x : nat -> R) : Prop :=
  oqp_feasible q x /\ forall y, oqp_feasible q y -> oqp_cost q x <= oqp_cost q y.

(* the answer of the level's solve, as a function *)
Definition ans_of (l : level) : nat -> R := fun i => ent (l_ans l) i 0.

(* sparseView changes nothing: no non-zero entry is below its threshold *)
Definition nothing_dropped (M : dm) : Prop :=
  forall i j, (i < nr M)%N -> (j < nc M)%N -> `|ent M i j| <= sparse_tol R -> ent M i j = 0.

(* x'Hx + |By + b|^2 + |v|^2: twice what a level should minimise *)
Definition level_objective (l : level) (y : 'cV[R]_n) (v : 'cV[R]_(l_nin l)) : R :=
  sqnorm (Bm l *m y + bv l) + sqnorm v + (if l_cost l then (y^T *m Hm l *m y) 0 0 else 0).

(* total number of inequality rows of levels 0 .. *)
Definition rows_of (hs : seq level) : nat := sumn [seq l_nin l | l <- hs].

(* the QP matrices left by an earlier solve with the same sizes: right sizes, and zero in the
   blocks that a later solve with init = false does not write *)
Definition qp_ready (above : seq level) (p l : level) : Prop :=
  let nv := (l_ns p + l_nin l)%N in
  let ncon := (rows_of above + l_nin l)%N in
  [/\ dims (l_qH l) nv nv, dims (l_qg l) nv 1, dims (l_qA l) ncon nv, dims (l_qub l) ncon 1 &
      (forall a b, (a < l_ns p)%N -> (l_ns p <= b < nv)%N -> ent (l_qH l) a b = 0 /\ ent (l_qH l) b a = 0) /\
      (forall a b, (l_nin l <= a < ncon)%N -> (l_ns p <= b < nv)%N -> ent (l_qA l) a b = 0)].
Definition all_ready (d : level) (hs : seq level) : Prop :=
  forall i, (0 < i < size hs)%N -> qp_ready (take i hs) (nth d hs i.-1) (nth d hs i).
End HQPSpec.
Arguments level_objective {R n} l y v.
