(* Specification vocabulary for the QP wrapper: what the caller last supplied, read off the history
   of calls, newest first. *)
From Coq Require Import List Arith ZArith Bool Lia.
From Verif Require Import QPW_Model.
Import ListNotations.
Local Open Scope nat_scope.

Section Spec.
Context {E : Type} (zero : E).
Local Notation op := (@op E).
Local Notation ev := (@ev E).

(* the cost last supplied; zero after InitializeProblemSize *)
Fixpoint last_min (nv : nat) (h : list op) : mat E * vec E :=
  match h with
  | [] => (Mat nv nv (fun _ _ => zero), Vec nv (fun _ => zero))
  | OMin H g :: _ => (H, g)
  | _ :: h' => last_min nv h'
  end.

(* a two-sided row constraint is in force, and with which data *)
Fixpoint last_ax (h : list op) : option (mat E * vec E * vec E) :=
  match h with
  | [] => None
  | OAx A l u :: _ => Some (A, l, u)
  | ODelAx :: _ => None
  | _ :: h' => last_ax h'
  end.

(* bounds on the variables *)
Fixpoint last_x (h : list op) : option (vec E * vec E) :=
  match h with
  | [] => None
  | OX l u :: _ => Some (l, u)
  | ODelX :: _ => None
  | _ :: h' => last_x h'
  end.

(* the arguments carry exactly this *)
Definition carries (nv : nat) (h : list op) (a : @call E) : Prop :=
  (k_H a, k_g a) = last_min nv h /\
  match last_ax h with
  | Some (A, l, u) => k_A a = Some A /\ k_lbA a = Ptr l /\ k_ubA a = Ptr u
  | None => k_A a = None /\ k_lbA a = Null /\ k_ubA a = Null
  end /\
  match last_x h with
  | Some (l, u) => k_lb a = Ptr l /\ k_ub a = Ptr u
  | None => k_lb a = Null /\ k_ub a = Null
  end.

(* operations between two InitializeProblemSize, without UpdateSubjectToAxUb *)
Definition plain (o : op) : Prop :=
  match o with OInit _ _ => False | OAxUb _ _ => False | _ => True end.
Definition no_reinit (o : op) : Prop := match o with OInit _ _ => False | _ => True end.

(* data of the announced sizes *)
Definition fits (nv nc : nat) (o : op) : Prop :=
  match o with
  | OMin H g => rows H = nv /\ cols H = nv /\ vsize g = nv
  | OAx A l u => rows A = nc /\ cols A = nv /\ vsize l = nc /\ vsize u = nc
  | OAxUb A u => rows A = nc /\ cols A = nv /\ vsize u = nc
  | OX l u => vsize l = nv /\ vsize u = nv
  | _ => True
  end.

(* sizes of the matrices in a solver call *)
Definition call_fits (nv nc : nat) (a : @call E) : Prop :=
  rows (k_H a) = nv /\ cols (k_H a) = nv /\ vsize (k_g a) = nv /\
  (forall A, k_A a = Some A -> rows A = nc /\ cols A = nv) /\
  (forall v, k_lb a = Ptr v \/ k_ub a = Ptr v -> vsize v = nv) /\
  (forall v, k_lbA a = Ptr v \/ k_ubA a = Ptr v -> vsize v = nc).

Definition is_new (e : ev) : Prop := match e with ENew _ _ => True | _ => False end.

(* every hotstart in the trace happens on a problem object of the size of the data on which init
   was called after the object was created *)
Definition hotstarts_ok (t : list ev) : Prop :=
  forall pre post o a n ok, t = pre ++ ECall KHot o a n ok :: post ->
  exists p0 nv nc p1 o' a' n' ok' p2,
    pre = p0 ++ ENew nv nc :: p1 ++ ECall KInit o' a' n' ok' :: p2 /\
    Forall (fun e => ~ is_new e) (p1 ++ p2) /\ call_fits nv nc a.
End Spec.
