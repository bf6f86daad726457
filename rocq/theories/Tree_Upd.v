(* C169: UpdateKinematics after the link tree has been modified. *)
From Coq Require Import String.
From mathcomp Require Import all_ssreflect all_algebra zify.
From Verif Require Con_Model.
From Verif Require Import Tree_Model Tree_Spec Tree_Proofs Tree_Thm Tree_Init Tree_More Tree_Ex Tree_Props.
Set Implicit Arguments.
Unset Strict Implicit.
Unset Printing Implicit Defensive.
Local Open Scope string_scope.

Section Upd.
Variable R : zmodType.
Variables (B T : Type) (bmass : B -> R) (join : B -> B -> T -> B).
Local Notation state := (state R B T).

(* what recording the frames should do: every joint gets the present frame of the body of its own link; nothing else changes *)
Definition frames_recorded (s s' : state) (x : nat -> T) : Prop :=
  [/\ st_links s' = st_links s, size (st_joints s') = size (st_joints s),
      forall k l j, get (st_links s) k = Some l -> get (st_joints s) k = Some j ->
        get (st_joints s') k = Some (MJoint (j_frame j) (Some (x (l_body l))) (j_id j)),
      forall k, size (st_links s) <= k -> get (st_joints s') k = get (st_joints s) k &
      [/\ st_tasks s' = st_tasks s, st_qp s' = st_qp s, st_contacts s' = st_contacts s, st_total_mass s' = st_total_mass s &
          [/\ st_com_mass s' = st_com_mass s, st_link_num s' = st_link_num s, st_limit s' = st_limit s,
              st_limit_set s' = st_limit_set s & st_model s' = st_model s]]].

Lemma get_mapz (A C : Type) (f : nat * A -> C) (s : seq A) k :
  get [seq f kj | kj <- zip (iota 0 (size s)) s] k = omap (fun a => f (k, a)) (get s k).
Proof. by rewrite get_map get_zip; case: (get s k). Qed.

(* exactly when there is a joint for every link is the loop defined *)
Theorem C169_defined (s : state) x : size (st_links s) <= size (st_joints s) <-> exists s', record_frames s x = Some s'.
Proof.
rewrite /record_frames; case: ltnP => h; split=> //; [by case|by move=> _; eexists].
Qed.
Theorem C169_recorded (s s' : state) x : record_frames s x = Some s' -> frames_recorded s s' x.
Proof.
rewrite /record_frames; case: ltnP => // h [<-]; split=> //=.
- by rewrite size_map size_zip size_iota minnn.
- by move=> k l j hl hj; rewrite get_mapz hj /= hl.
move=> k hk; rewrite get_mapz; case hj: (get _ k) => [j|] //=.
have -> : get (st_links s) k = None by rewrite /get drop_oversize.
by case: j {hj}.
Qed.

(* C169, what holds: in a well formed tree, in particular after any deletion, the loop is defined and every joint gets
   the frame of its own link's body *)
Theorem C169_wf_partial off (s : state) x : wf bmass off s -> exists s', record_frames s x = Some s' /\
  frames_recorded s s' x /\ wf bmass off s'.
Proof.
move=> W; have [s' e] : exists s', record_frames s x = Some s' by apply/C169_defined; rewrite (wf_joints W).
have fr := C169_recorded e; exists s'; split=> //; split=> //.
case: fr => el ej _ _ [_ _ _ em [_ _ _ _ eM]].
case: W => *; split; rewrite /par ?el ?ej ?em ?eM //.
Qed.
Theorem C169_delete_partial off fuel (s s1 : state) a x : wf bmass off s -> 0 < a -> DeleteLink bmass fuel s a = Some s1 ->
  exists s', record_frames s1 x = Some s' /\ frames_recorded s1 s' x /\ wf bmass off s'.
Proof. by move=> W a0 h; have [W1 _ _] := C49_delete W a0 h; apply: C169_wf_partial W1. Qed.

(* C169 refuted: after AddLink with a revolute joint the loop writes past the end of joint_ *)
Theorem C169_add_refuted off (s : state) p lp name f b : wf bmass off s ->
  get (st_links s) p = Some lp -> lookup (r_names (st_model s)) name = None ->
  exists s', AddLinkTo join s p name JRevolute f b = Some s' /\ forall x, record_frames s' x = None.
Proof.
move=> W hp fr.
have [s' [[h1 h2 h3 h4 _] [h5 [h6 _]]]] := @add_revolute _ _ _ bmass join off s p lp name f b (MJoint f None 0) W hp fr.
by exists s'; split=> // x; rewrite /record_frames h3 h5 (wf_joints W) ltnSn.
Qed.
End Upd.

Example C169_ex : wf bm 2 s_plain /\ (exists s1, DeleteLinkByName bm s_plain "c1" = Some s1) /\
  get (st_links s_plain) 3 <> None /\ lookup (r_names (st_model s_plain)) "hand" = None.
Proof. by split; [have [] := C49_ex|split; [eexists; vm_compute|have [_ []] := C78_ex]]. Qed.
Print Assumptions C169_defined.
Print Assumptions C169_recorded.
Print Assumptions C169_wf_partial.
Print Assumptions C169_delete_partial.
Print Assumptions C169_add_refuted.
