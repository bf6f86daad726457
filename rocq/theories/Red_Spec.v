(* Vocabulary of the theorems on the reduced model's index lists *)
From mathcomp Require Import all_ssreflect.
From Verif Require Import Red_Model.
Set Implicit Arguments.
Unset Strict Implicit.
Unset Printing Implicit Defensive.

(* k lies on the path from i to the base (the base itself excluded) *)
Definition carries (x : red_in) (k i : nat) : Prop :=
  k != 0 /\ exists t, iter t (nth 0 (ri_parent x)) i = k.

(* A tree with n links, the base 0 first, parents before children; its joints other than the base's own the m
   coordinates 6 .. m + 5, each once; link_num_ current; contacts on existing links *)
Record red_wf (x : red_in) (m : nat) : Prop := {
  rw_num : size (ri_parent x) = ri_link_num x;
  rw_size : size (ri_jid x) = ri_link_num x;
  rw_pos : 0 < ri_link_num x;
  rw_root : nth 0 (ri_parent x) 0 = 0;
  rw_par : forall i, 0 < i < ri_link_num x -> nth 0 (ri_parent x) i < i;
  rw_jid : perm_eq (behead (ri_jid x)) (iota 6 m);
  rw_cc : forall c l, (c, l) \in ri_cc x -> l < ri_link_num x }.

Definition active (x : red_in) : seq nat := [seq c.2 | c <- ri_cc x & c.1].
(* i carries an active contact *)
Definition in_contact (x : red_in) (i : nat) : Prop := exists2 l, l \in active x & carries x i l.

(* no link but the base carries two contacts, and the same link is not a contact twice *)
Definition chains_disjoint (x : red_in) : Prop :=
  uniq [seq l <- active x | l != 0] /\
  forall l1 l2 k, l1 \in active x -> l2 \in active x -> carries x k l1 -> carries x k l2 -> l1 = l2.
(* no link that carries no contact hangs below one that does, except below the base *)
Definition chains_end (x : red_in) : Prop :=
  forall i k, i < ri_link_num x -> ~ in_contact x i -> carries x k i -> ~ in_contact x k.
