(* Specification for Llt: the joint space inertia matrix of a set of links *)
From mathcomp Require Import all_ssreflect all_algebra.
From Verif Require Import LinAlg.
Set Implicit Arguments.
Unset Strict Implicit.
Unset Printing Implicit Defensive.
Import GRing.Theory Num.Theory.
Local Open Scope ring_scope.

Section LltSpec.
Variables (R : rcfType) (n : nat).

(* a link: its 6x6 spatial inertia and its 6xn Jacobian *)
Definition link := ('M[R]_6 * 'M[R]_(6, n))%type.
(* the matrix that makes 1/2 v^T A v the kinetic energy *)
Definition inertia_of (ls : seq link) : 'M[R]_n := \sum_(l <- ls) l.2^T *m l.1 *m l.2.
(* every motion of the coordinates moves some link *)
Definition no_idle_motion (ls : seq link) : Prop := forall x : 'cV[R]_n, x != 0 -> exists2 l, l \in ls & l.2 *m x != 0.
(* every link has mass and rotational inertia *)
Definition all_massive (ls : seq link) : Prop := forall l, l \in ls -> posdef l.1.
(* no link has negative mass or inertia *)
Definition none_negative (ls : seq link) : Prop := forall l, l \in ls -> psd l.1.
(* a motion that moves no mass: every link it moves is without inertia in that direction *)
Definition massless_motion (ls : seq link) (x : 'cV[R]_n) : Prop := x != 0 /\ forall l, l \in ls -> l.1 *m (l.2 *m x) = 0.
End LltSpec.
