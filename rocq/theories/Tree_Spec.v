(* Specification vocabulary for the link tree. *)
From Coq Require Import String.
From mathcomp Require Import all_ssreflect all_algebra.
From Verif Require Import Tree_Model.
Set Implicit Arguments.
Unset Strict Implicit.
Unset Printing Implicit Defensive.
Import GRing.Theory.
Local Open Scope ring_scope.

Section TreeSpec.
Variable R : zmodType.
Variables (B T : Type) (bmass : B -> R).
Local Notation state := (state R B T).

(* parent_id_ of link i *)
Definition par (s : state) (i : nat) : nat := if get (st_links s) i is Some l then l_parent l else 0%N.
(* link x is link a or one of its descendants *)
Definition below (s : state) (a x : nat) : Prop := exists n, iter n (par s) x = a.

(* The link tree and the RBDL model agree; link k is RBDL body off + k (the bodies before off carry no
   mass: world and, for a floating base, the translational part of the base joint):
   - link_id_ is the position, the root is its own parent, parents precede children, and child lists are
     the inverse of the parent relation;
   - the RBDL name map, body table, parent and child arrays describe the same tree;
   - q_index are the prefix sums of the degrees of freedom;
   - total_mass_ is the sum of the link masses, and there is one joint per link *)
Record wf (off : nat) (s : state) : Prop := Wf {
  wf_link : forall k l, get (st_links s) k = Some l ->
    [/\ l_id l = k, l_body l = (off + k)%N, (if (0 < k)%N then l_parent l < k else l_parent l == 0)%N &
        l_child l = [seq i <- iota 1 (size (st_links s)).-1 | par s i == k]];
  wf_joints : size (st_joints s) = size (st_links s);
  wf_mass : st_total_mass s = \sum_(l <- st_links s) bmass (l_bd l);
  wf_names : forall k l, get (st_links s) k = Some l -> lookup (r_names (st_model s)) (l_name l) = Some (off + k)%N;
  wf_bodies : forall k l, get (st_links s) k = Some l -> get (r_bodies (st_model s)) (off + k) = Some (l_bd l);
  wf_lambda : forall k l, get (st_links s) k = Some l -> (0 < k)%N ->
    get (r_lambda (st_model s)) (off + k) = Some (off + l_parent l)%N;
  wf_mu : forall k l, get (st_links s) k = Some l ->
    get (r_mu (st_model s)) (off + k) = Some [seq (off + c)%N | c <- l_child l];
  wf_sizes : forall N, N = (off + size (st_links s))%N ->
    [/\ size (r_bodies (st_model s)) = N, size (r_frames (st_model s)) = N, size (r_lambda (st_model s)) = N,
        size (r_mu (st_model s)) = N & size (r_dofs (st_model s)) = N];
  wf_base : forall b, (b <= off)%N -> forall x, get (r_lambda (st_model s)) b = Some x -> (x <= off)%N;
  wf_base_mu : forall b, (b < off)%N -> forall c, get (r_mu (st_model s)) b = Some c -> all (fun x => x <= off)%N c;
  wf_q_index : r_q_index (st_model s) = mkseq (fun b => sumn (take b (r_dofs (st_model s)))) (off + size (st_links s));
  wf_dof_count : r_dof_count (st_model s) = sumn (r_dofs (st_model s));
  wf_base_dof : (6 <= sumn (take off.+1 (r_dofs (st_model s))))%N;
  wf_dof : forall k d, (0 < k)%N -> get (r_dofs (st_model s)) (off + k) = Some d -> (0 < d)%N }.

(* s' is s without the links a and below: phi gives the old index of each remaining link, in the old order;
   names, bodies, joint data and the tree relation are the old ones *)
Definition pruned (s s' : state) (a : nat) : Prop :=
  exists phi : nat -> nat,
  [/\ forall j k, (j < k)%N -> (phi j < phi k)%N,
      forall i, (i < size (st_links s))%N -> ~ below s a i <-> exists2 k, (k < size (st_links s'))%N & phi k = i,
      forall k, (k < size (st_links s'))%N -> (phi k < size (st_links s))%N /\ get (st_joints s') k = get (st_joints s) (phi k) &
      forall k l', get (st_links s') k = Some l' -> exists l, get (st_links s) (phi k) = Some l /\
        [/\ l_name l' = l_name l, l_bd l' = l_bd l, l_orig l' = l_orig l, phi (l_parent l') = l_parent l &
            forall c, (c < size (st_links s'))%N -> (c \in l_child l') = (phi c \in l_child l)]].

(* An RBDL model as the URDF reader builds it, every body past the base carrying mass: the bodies before off
   are massless, the others massive and attached to a body between off and themselves; children lists are
   in increasing order; names are the inverse of the name map *)
Record rbdl_tree (off : nat) (m : rbdl B T) (body_names : nat -> string) : Prop := RbdlTree {
  rt_sizes : [/\ size (r_frames m) = size (r_bodies m), size (r_lambda m) = size (r_bodies m),
    size (r_mu m) = size (r_bodies m) & size (r_dofs m) = size (r_bodies m)];
  rt_off : (off <= size (r_bodies m))%N;
  rt_mass : forall i b, get (r_bodies m) i = Some b -> (bmass b != 0) = (off <= i)%N;
  rt_lambda : forall i x, get (r_lambda m) i = Some x -> (if off < i then off <= x < i else (x < i) || (i == 0%N) && (x == 0%N))%N;
  rt_base : (0 < off)%N;
  rt_mu : forall i c, get (r_mu m) i = Some c -> c = [seq j <- iota 1 (size (r_bodies m)).-1 | nth 0%N (r_lambda m) j == i];
  rt_q_index : r_q_index m = mkseq (fun b => sumn (take b (r_dofs m))) (size (r_bodies m));
  rt_dof_count : r_dof_count m = sumn (r_dofs m);
  rt_base_dof : (6 <= sumn (take off.+1 (r_dofs m)))%N;
  rt_dof : forall i d, (off < i)%N -> get (r_dofs m) i = Some d -> (0 < d)%N;
  rt_names : forall i, (off <= i < size (r_bodies m))%N -> lookup (r_names m) (body_names i) = Some i }.
End TreeSpec.
