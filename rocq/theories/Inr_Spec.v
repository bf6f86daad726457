(* Specification vocabulary for rigid bodies: inertia about a point, rigid displacement, momentum. *)
From mathcomp Require Import all_ssreflect all_algebra.
From Verif Require Import Geo_Model Geo_Spec Inr_Model.
Set Implicit Arguments.
Unset Strict Implicit.
Unset Printing Implicit Defensive.
Import GRing.Theory.
Local Open Scope ring_scope.

Section InrSpec.
Variable R : fieldType.

(* inertia tensor of a point mass at u about the origin: |u|^2 1 - u u^T *)
Definition point_inertia (u : 'cV[R]_3) : 'M[R]_3 := (u^T *m u) 0 0 *: 1%:M - u *m u^T.
(* parallel axis theorem *)
Definition inertia_about (b : body R) (p : 'cV[R]_3) : 'M[R]_3 :=
  inertia b + mass b *: point_inertia (com b - p).
(* the body seen after a rigid displacement *)
Definition moved (b : body R) (Q : 'M[R]_3) (x : 'cV[R]_3) : body R :=
  Body (mass b) (Q *m com b + x) (Q *m inertia b *m Q^T).

(* the links of a kinematic tree: parents precede children, and the child lists are exactly the
   inverse of the parent relation *)
Definition well_formed (links : seq (tlink R)) : Prop :=
  (forall i l, onth links i = Some l -> (0 < i)%N -> exists2 p, parent_id l = Some p & (p < i)%N) /\
  (forall p l c, onth links p = Some l -> c \in child_id l <->
     exists lc, [/\ onth links c = Some lc, (0 < c)%N & parent_id lc = Some p]) /\
  (forall p l, onth links p = Some l -> uniq (child_id l)).
(* pose of every link in the frame of link 0: the joint transforms composed along the tree *)
Definition poses (links : seq (tlink R)) (Q : nat -> 'M[R]_3) (x : nat -> 'cV[R]_3) : Prop :=
  Q 0%N = 1%:M /\ x 0%N = 0 /\
  forall i l p, onth links i = Some l -> (0 < i)%N -> parent_id l = Some p ->
    Q i = Q p *m jrot l /\ x i = Q p *m jtrans l + x p.

Variable n : nat.
(* world position and velocity of a link's centre of mass, its world inertia *)
Definition xi (l : link R n) : 'cV[R]_3 := xpos l + rotm l *m com (bd l).
Definition world_inertia (l : link R n) : 'M[R]_3 := rotm l *m inertia (bd l) *m (rotm l)^T.
Definition com_velocity (l : link R n) (vel omega : 'cV[R]_3) : 'cV[R]_3 := vel + crossp omega (rotm l *m com (bd l)).
(* angular momentum of a link about the point p: spin plus orbital *)
Definition angular_momentum (l : link R n) (vel omega p : 'cV[R]_3) : 'cV[R]_3 :=
  world_inertia l *m omega + crossp (xi l - p) (mass (bd l) *: com_velocity l vel omega).
(* every link of the list satisfies P *)
Fixpoint all_links (P : link R n -> Prop) (s : seq (link R n)) : Prop :=
  if s is l :: s' then P l /\ all_links P s' else True.
End InrSpec.
