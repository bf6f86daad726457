(* The link tree kept by RobotData beside the RBDL model, and the functions that modify it:
   InitModelData, DeleteLink, AddLink, InitAfterModelMod, ChangeLinkToFixedJoint (src/dwbc.cpp).
   Simplifications: the COM entry, always the last element of link_, is kept apart (its mass is
   st_com_mass, its child list is always empty); bodies (mass, centre of mass, inertia) and joint
   frames are abstract; of the RBDL model only the arrays listed in [rbdl] are kept (the per-body work
   arrays, lambda_q, the joint update order and the fixed-body table are not).  Out-of-range accesses,
   reads of never-assigned members and negative sizes are the outcome None. *)
From Coq Require Import String.
From mathcomp Require Import all_ssreflect all_algebra.
From Verif Require Con_Model.
Set Implicit Arguments.
Unset Strict Implicit.
Unset Printing Implicit Defensive.
Import GRing.Theory.
Local Open Scope ring_scope.

Section TreeModel.
Variable R : zmodType.
(* bodies with their mass; joint frames; RigidBodyDynamics::Body::Join, which merges a body placed at a
   frame into another (rbdl, external) *)
Variables (B T : Type) (bmass : B -> R) (join : B -> B -> T -> B).

(* include/dwbc_link.h:44-86, the members used for the tree *)
Record mlink := MLink {
  l_name : string; l_body : nat; l_parent : nat; l_child : seq nat; l_id : nat; l_orig : nat; l_bd : B }.
(* include/dwbc_link.h:22-40: joint frame, frame in the parent at the current posture (unassigned until
   UpdateKinematics), joint_id_ *)
Record mjoint := MJoint { j_frame : T; j_parent : option T; j_id : nat }.
(* include/dwbc_task.h: heirarchy_, and task_link_[j].link_id_ *)
Record mtask := MTask { t_level : nat; t_links : seq nat }.
(* the RBDL model: mBodies, X_T, lambda, mu, mJoints[].mDoFCount, mJoints[].q_index, mBodyNameMap,
   dof_count, fixed_body_discriminator, mFixedBodies.size() *)
Record rbdl := Rbdl {
  r_bodies : seq B; r_frames : seq T; r_lambda : seq nat; r_mu : seq (seq nat); r_dofs : seq nat; r_q_index : seq nat;
  r_names : seq (string * nat); r_dof_count : nat; r_disc : nat; r_nfixed : nat }.
(* include/dwbc.h:60-140: link_, joint_, ts_, qp_task_ (one label per entry), cc_[i].link_number_,
   total_mass_, link_.back().mass (None: the -1 of Link::Link()), link_num_, system_dof_, model_dof_, torque_limit_, torque_limit_set_, model_ *)
Record state := St {
  st_links : seq mlink; st_joints : seq mjoint; st_tasks : seq mtask; st_qp : seq nat; st_contacts : seq nat;
  st_total_mass : R; st_com_mass : option R; st_link_num : nat; st_system_dof : nat; st_model_dof : nat;
  st_limit : seq R; st_limit_set : bool; st_model : rbdl }.

(* vector access and std::vector::erase(begin() + i) *)
Definition get (A : Type) (s : seq A) (i : nat) : option A := ohead (drop i s).
Definition erase (A : Type) (s : seq A) (i : nat) : option (seq A) :=
  if (i < size s)%N then Some (take i s ++ drop i.+1 s) else None.
(* if (x > i) x--; *)
Definition dec (i x : nat) : nat := if (i < x)%N then x.-1 else x.
(* model_.mBodyNameMap lookup: rbdl Model::GetBodyId; None is the "not found" value, which is no index *)
Fixpoint lookup (m : seq (string * nat)) (k : string) : option nat :=
  if m is (k', v) :: m' then if String.eqb k' k then Some v else lookup m' k else None.

(* src/dwbc.cpp:1822-2026: the edits of the RBDL arrays in DeleteLink(int, bool).  name is
   link_[link_idx].name_. *)
Definition delete_body (m : rbdl) (name : string) : option rbdl :=
  obind (fun id =>
  obind (fun dof =>
  if (r_dof_count m < dof)%N then None else
  obind (fun parent_id =>
  obind (fun mup =>
  let mu1 := set_nth [::] (r_mu m) parent_id (rem id mup) in
  obind (fun bodies =>
  obind (fun frames =>
  obind (fun mu =>
  obind (fun lambda =>
  obind (fun joint_idx =>
  obind (fun q_index =>
  obind (fun dofs =>
  Some (Rbdl bodies frames lambda mu dofs q_index
      [seq (kv.1, dec id kv.2) | kv <- [seq kv <- r_names m | ~~ String.eqb kv.1 name]]
      (r_dof_count m - dof) (r_disc m) (r_nfixed m)))
  (erase (r_dofs m) id))
  (erase [seq if (joint_idx < q)%N then q - dof else q | q <- r_q_index m] id)%N)
  (get (r_q_index m) id))
  (erase [seq dec id x | x <- r_lambda m] id))
  (erase [seq [seq dec id x | x <- s] | s <- mu1] id))
  (erase (r_frames m) id))
  (erase (r_bodies m) id))
  (get (r_mu m) parent_id))
  (get (r_lambda m) id))
  (get (r_dofs m) id))
  (lookup (r_names m) name).

(* src/dwbc.cpp:2219-2229: for i, for j: if ts_[i].task_link_[j].link_id_ == deleted_id, erase ts_[i] and
   go on with j+1 in the task that has moved to position i.  tail is ts_ from position i on; j = None when
   arriving at the head of the outer loop (where i < ts_.size() is tested), Some j inside the inner loop
   (where ts_[i] is read without a test).  Returns the remaining tasks and deleted_task_id. *)
Fixpoint scan_tasks (deleted_id i : nat) (j : option nat) (tail : seq mtask) (deleted_task : option nat) :
    option (seq mtask * option nat) :=
  match tail, j with
  | [::], None => Some ([::], deleted_task)
  | [::], Some _ => None
  | t :: tail', _ =>
      let j0 := odflt 0%N j in
      let rest := drop j0 (t_links t) in
      if deleted_id \in rest then scan_tasks deleted_id i (Some (j0 + index deleted_id rest).+1) tail' (Some i)
      else omap (fun r => (t :: r.1, r.2)) (scan_tasks deleted_id i.+1 None tail' deleted_task)
  end.
(* src/dwbc.cpp:2217-2253 *)
Definition delete_tasks (deleted_id : nat) (ts : seq mtask) (qp : seq nat) : option (seq mtask * seq nat) :=
  obind (fun r =>
    match r.2 with
    | None => Some (r.1, qp)
    | Some d =>
        omap (fun qp' => ([seq MTask (dec d (t_level t)) [seq dec deleted_id l | l <- t_links t] | t <- r.1], qp')) (erase qp d)
    end) (scan_tasks deleted_id 0 None ts None).

(* src/dwbc.cpp:2161-2253 (InitAfterModelMod, mode DELETE_LINK) and 2331-2350; model is already edited *)
Definition mod_delete (s : state) (m : rbdl) (deleted_id : nat) : option state :=
  obind (fun del =>
  if (r_dof_count m < 6)%N then None else
  obind (fun links1 =>
  obind (fun joints =>
  let total_mass := st_total_mass s - bmass (l_bd del) in
  let links2 := [seq MLink (l_name l) (dec (l_body del) (l_body l)) (dec deleted_id (l_parent l)) (l_child l)
                          (dec deleted_id (l_id l)) (l_orig l) (l_bd l) | l <- links1] in
  let unchild k l := if k == l_parent del then rem deleted_id (l_child l) else l_child l in
  let links3 := [seq MLink (l_name kl.2) (l_body kl.2) (l_parent kl.2) [seq dec deleted_id c | c <- unchild kl.1 kl.2]
                          (l_id kl.2) (l_orig kl.2) (l_bd kl.2) | kl <- zip (iota 0 (size links2)) links2] in
  obind (fun tq =>
  Some (St links3 joints tq.1 tq.2 (st_contacts s) total_mass (Some total_mass) (st_link_num s)
      (r_dof_count m) (r_dof_count m - 6) (nseq (r_dof_count m - 6) 0) (st_limit_set s) m))
  (delete_tasks deleted_id (st_tasks s) (st_qp s)))
  (erase (st_joints s) deleted_id))
  (erase (st_links s) deleted_id))
  (get (st_links s) deleted_id).

(* src/dwbc.cpp:1790-2033: as long as link_[link_idx] has children the first of them is deleted (the loop
   index is put back after every deletion), then the link itself.  fuel bounds the depth; link_idx =
   link_.size() - 1 (COM) has no RBDL body. *)
Fixpoint DeleteLink (fuel : nat) (s : state) (link_idx : nat) : option state :=
  if fuel is fuel'.+1 then
    obind (fun l =>
      if l_child l is c :: _ then obind (fun s' => DeleteLink fuel' s' link_idx) (DeleteLink fuel' s c)
      else obind (fun m => mod_delete s m link_idx) (delete_body (st_model s) (l_name l)))
    (get (st_links s) link_idx)
  else None.

(* src/dwbc.cpp:1764-1788; link_ ends with the COM entry *)
Definition link_names (s : state) : seq string := [seq l_name l | l <- st_links s] ++ [:: "COM"%string].
Definition DeleteLinkByName (s : state) (name : string) : option state :=
  match Con_Model.find_link (link_names s) name with
  | None => Some s
  | Some idx => DeleteLink (size (st_links s)).+1 s idx
  end.

(* rbdl Model::AddBody (external) for a one-degree-of-freedom joint: the new body gets the next id *)
Definition add_body_revolute (m : rbdl) (parent : nat) (frame : T) (b : B) (name : string) : option rbdl :=
  if lookup (r_names m) name is Some _ then None else
  obind (fun mup =>
    let id := size (r_bodies m) in
    Some (Rbdl (rcons (r_bodies m) b) (rcons (r_frames m) frame) (rcons (r_lambda m) parent)
               (rcons (set_nth [::] (r_mu m) parent (rcons mup id)) [::]) (rcons (r_dofs m) 1%N)
               (rcons (r_q_index m) (r_dof_count m)) (rcons (r_names m) (name, id)) (r_dof_count m).+1 (r_disc m) (r_nfixed m)))
  (get (r_mu m) parent).
(* ... and for a fixed joint: the body is joined to its parent and listed under an id above the discriminator *)
Definition add_body_fixed (m : rbdl) (parent : nat) (frame : T) (b : B) (name : string) : option rbdl :=
  if lookup (r_names m) name is Some _ then None else
  obind (fun bp =>
    Some (Rbdl (set_nth b (r_bodies m) parent (join bp b frame)) (r_frames m) (r_lambda m) (r_mu m) (r_dofs m) (r_q_index m)
               (rcons (r_names m) (name, (r_disc m + r_nfixed m)%N)) (r_dof_count m) (r_disc m) (r_nfixed m).+1))
  (get (r_bodies m) parent).

Inductive jtype := JFixed | JRevolute.

(* src/dwbc.cpp:2105-2134 with InitAfterModelMod 2152-2159, 2280-2316, 2331-2350 (the JOINT_6DOF
   branch is in Tree_Six).  joint_, total_mass_ and link_num_ are not touched. *)
Definition AddLinkTo (s : state) (parent : nat) (name : string) (ty : jtype) (frame : T) (b : B) : option state :=
  obind (fun lp =>
  match ty with
  | JFixed =>
      obind (fun m =>
      obind (fun bp =>
      if (r_dof_count m < 6)%N then None else
      let lp' := MLink (l_name lp) (l_body lp) (l_parent lp) (l_child lp) (l_id lp) (l_orig lp) bp in
      Some (St (set_nth lp (st_links s) parent lp') (st_joints s) (st_tasks s) (st_qp s) (st_contacts s)
               (st_total_mass s) (st_com_mass s) (st_link_num s) (r_dof_count m) (r_dof_count m - 6)
               (nseq (r_dof_count m - 6) 0) (st_limit_set s) m))
      (get (r_bodies m) (l_body lp)))
      (add_body_fixed (st_model s) (l_body lp) frame b name)
  | JRevolute =>
      obind (fun m =>
      if (r_dof_count m < 6)%N then None else
      let added := size (st_links s) in
      let lp' := MLink (l_name lp) (l_body lp) (l_parent lp) (rcons (l_child lp) added) (l_id lp) (l_orig lp) (l_bd lp) in
      let new := MLink name (size (r_bodies (st_model s))) parent [::] added added b in
      Some (St (rcons (set_nth lp (st_links s) parent lp') new) (st_joints s) (st_tasks s) (st_qp s) (st_contacts s)
               (st_total_mass s) (st_com_mass s) (st_link_num s) (r_dof_count m) (r_dof_count m - 6)
               (nseq (r_dof_count m - 6) 0) (st_limit_set s) m))
      (add_body_revolute (st_model s) (l_body lp) frame b name)
  end) (get (st_links s) parent).
(* src/dwbc.cpp:2049-2093: a fixed joint uses the frame recorded by UpdateKinematics *)
Definition AddLink (s : state) (parent : nat) (name : string) (ty : jtype) (j : mjoint) (b : B) : option state :=
  match ty with
  | JFixed => obind (fun f => AddLinkTo s parent name JFixed f b) (j_parent j)
  | JRevolute => AddLinkTo s parent name JRevolute (j_frame j) b
  end.

(* src/dwbc.cpp:2360-2382; getLinkID is 2384-2397, whose -1 is used as an index *)
Definition ChangeLinkToFixedJoint (s : state) (name : string) : option state :=
  obind (fun idx =>
  obind (fun l =>
  obind (fun j =>
  obind (fun s1 => AddLink s1 (l_parent l) (l_name l) JFixed j (l_bd l))
  (DeleteLinkByName s name))
  (get (st_joints s) idx))
  (get (st_links s) idx))
  (Con_Model.find_link (link_names s) name).

(* src/dwbc.cpp:125-252 with InitializeMatrix 260-277, applied to the RBDL model m; body_names i is
   GetBodyName(i).  Bodies with mass become links; the loops 214-227 look a link's parent up by body id:
   when the RBDL parent is no link, parent_id_ stays 0 and no child entry is made.  joint_ is not cleared
   and torque_limit_set_ not reset.  Simplified: RBDL keeps its arrays at equal length (otherwise None). *)
Definition massive (m : rbdl) : seq nat :=
  [seq i <- iota 0 (size (r_bodies m)) | if get (r_bodies m) i is Some b then bmass b != 0 else false].
Definition parent_link (m : rbdl) (i : nat) : nat := index (nth 0%N (r_lambda m) (nth 0%N (massive m) i)) (massive m).
Definition InitModelData (s : state) (floating : bool) (m : rbdl) (body_names : nat -> string) : option state :=
  let ids := massive m in
  let n := size ids in
  let link k := omap (fun b => MLink (body_names (nth 0%N ids k)) (nth 0%N ids k)
      (if (parent_link m k < n)%N then parent_link m k else 0%N)
      [seq i <- iota 0 n | parent_link m i == k] k k b) (get (r_bodies m) (nth 0%N ids k)) in
  let joint k := omap (fun f => MJoint f None (nth 0%N (r_q_index m) (nth 0%N ids k))) (get (r_frames m) (nth 0%N ids k)) in
  if [&& size (r_frames m) == size (r_bodies m), size (r_lambda m) == size (r_bodies m),
         size (r_q_index m) == size (r_bodies m) & ~~ (floating && (r_dof_count m < 6)%N)] then
    let model_dof := if floating then (r_dof_count m - 6)%N else r_dof_count m in
    Some (St (pmap link (iota 0 n)) (st_joints s ++ pmap joint (iota 0 n)) [::] [::] [::]
             (\sum_(b <- pmap (get (r_bodies m)) ids) bmass b) None n (r_dof_count m) model_dof
             (nseq model_dof 0) (st_limit_set s) m)
  else None.

(* src/dwbc.cpp:254-258 *)
Definition SetTorqueLimit (s : state) (lim : seq R) : state :=
  St (st_links s) (st_joints s) (st_tasks s) (st_qp s) (st_contacts s) (st_total_mass s) (st_com_mass s)
     (st_link_num s) (st_system_dof s) (st_model_dof s) lim true (st_model s).

(* src/dwbc.cpp:313-318, the part of UpdateKinematics that records the frames; x_lambda is the RBDL array *)
Definition record_frames (s : state) (x_lambda : nat -> T) : option state :=
  if (size (st_joints s) < size (st_links s))%N then None else
  let js := [seq MJoint (j_frame kj.2) (if get (st_links s) kj.1 is Some l then Some (x_lambda (l_body l)) else j_parent kj.2) (j_id kj.2)
            | kj <- zip (iota 0 (size (st_joints s))) (st_joints s)] in
  Some (St (st_links s) js (st_tasks s) (st_qp s) (st_contacts s) (st_total_mass s) (st_com_mass s)
     (st_link_num s) (st_system_dof s) (st_model_dof s) (st_limit s) (st_limit_set s) (st_model s)).
End TreeModel.
