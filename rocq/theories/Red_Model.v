(* Model of the index bookkeeping of the reduced model: src/dwbc.cpp:2752-2825
   (ReducedDynamicsCalculate) and the task classification of src/dwbc.cpp:3166-3250
   (ReducedCalcTaskSpace).  None is undefined behaviour (an index outside a vector). *)
From mathcomp Require Import all_ssreflect.
Set Implicit Arguments.
Unset Strict Implicit.
Unset Printing Implicit Defensive.

(* v[i] on a std::vector *)
Definition at_ {A : Type} (v : seq A) (i : nat) : option A := ohead (drop i v).

(* The members read: link_[i].parent_id_, joint_[i].joint_id_, link_num_, and for every element of cc_
   its flag contact and link_number_ *)
Record red_in := RedIn { ri_parent : seq nat; ri_jid : seq nat; ri_link_num : nat; ri_cc : seq (bool * nat) }.

(* The members written: co_link_idx_, co_joint_idx_, nc_link_idx_, nc_joint_idx_, vc_joint_idx_, nc_dof, co_dof, vc_dof,
   reduced_model_dof_, reduced_system_dof_ *)
Record red_out := RedOut { ro_co_link : seq nat; ro_co_joint : seq nat; ro_nc_link : seq nat; ro_nc_joint : seq nat;
  ro_vc_joint : seq nat; ro_nc_dof : nat; ro_co_dof : nat; ro_vc_dof : nat; ro_model_dof : nat; ro_system_dof : nat }.

(* src/dwbc.cpp:2771-2776: the while loop; appends to the pair (co_link_idx_, co_joint_idx_).  A parent relation
   with a cycle would loop forever; the fuel used by the callers, link_.size(), suffices for any other
   and its exhaustion is None. *)
Fixpoint co_climb (fuel : nat) (x : red_in) (i : nat) (acc : seq nat * seq nat) : option (seq nat * seq nat) :=
  if i == 0 then Some acc else
  if fuel is f.+1 then
    obind (fun j => obind (fun p => co_climb f x p (rcons acc.1 i, rcons acc.2 j)) (at_ (ri_parent x) i)) (at_ (ri_jid x) i)
  else None.

(* src/dwbc.cpp:2765-2778 *)
Fixpoint co_loop (x : red_in) (cc : seq (bool * nat)) (acc : seq nat * seq nat) : option (seq nat * seq nat) :=
  if cc is (contact, link) :: cc' then
    if contact then obind (co_loop x cc') (co_climb (size (ri_parent x)) x link acc) else co_loop x cc' acc
  else Some acc.

(* src/dwbc.cpp:2801-2812: the while loop for one non-contact link *)
Fixpoint nc_climb (fuel : nat) (x : red_in) (nc : seq nat) (i : nat) (acc : seq nat) : option (seq nat) :=
  if i == 0 then Some acc else
  if fuel is f.+1 then
    obind (fun j => obind (fun p =>
      let acc' := if j \in acc then acc else rcons acc j in
      if p \in nc then Some acc' else nc_climb f x nc p acc') (at_ (ri_parent x) i)) (at_ (ri_jid x) i)
  else None.

(* src/dwbc.cpp:2798-2813 *)
Fixpoint nc_loop (x : red_in) (nc todo : seq nat) (acc : seq nat) : option (seq nat) :=
  if todo is i :: todo' then obind (nc_loop x nc todo') (nc_climb (size (ri_parent x)) x nc i acc) else Some acc.

(* src/dwbc.cpp:2755-2822 *)
Definition ReducedIndex (x : red_in) : option red_out :=
  obind (fun co : seq nat * seq nat =>
    let co_link := sort leq co.1 in
    let nc_link := [seq i <- iota 0 (ri_link_num x) | i \notin co_link] in
    (* nc_rbdl_idx_ reads link_[i] for each of them *)
    if all (fun i => i < size (ri_parent x)) nc_link then
      let co_joint := sort leq co.2 in
      omap (fun nc_joint0 =>
        let nc_joint := sort leq nc_joint0 in
        RedOut co_link co_joint nc_link nc_joint (iota 0 6 ++ co_joint) (size nc_joint) (size co_joint) (size co_joint + 6)
          (size co_joint + 6) (size co_joint + 6 + 6))
      (nc_loop x nc_link nc_link [::])
    else None) (co_loop x (ri_cc x) ([:: 0], [::])).

(* The flags of one task, include/dwbc_task.h:128-131 *)
Record red_task := RedTask { rt_custom : bool; rt_links : seq nat; rt_noncont : bool; rt_reduced : bool; rt_cmm : bool; rt_nch : nat }.

(* src/dwbc.cpp:3188-3208: one task link.  The ids are compared with link_num_ (COM) and searched in
   co_link_idx_ *)
Definition classify_link (link_num : nat) (co_link : seq nat) (st : red_task * nat) (id : nat) : red_task * nat :=
  let (t, nch) := st in
  if id == link_num then (RedTask (rt_custom t) (rt_links t) (rt_noncont t) (rt_reduced t) true (rt_nch t), nch)
  else if id \in co_link then (RedTask (rt_custom t) (rt_links t) (rt_noncont t) true (rt_cmm t) (rt_nch t), nch)
  else (RedTask (rt_custom t) (rt_links t) true (rt_reduced t) (rt_cmm t) nch, nch.+1).

(* src/dwbc.cpp:3166-3225.  For a custom task the two norms against 1.0E-4 are the booleans given by left and
   right (position of the task) *)
Fixpoint classify (link_num : nat) (co_link : seq nat) (left right : nat -> bool) (i nch : nat) (ts : seq red_task) : seq red_task :=
  if ts is t :: ts' then
    if rt_custom t then
      let r := right i in
      RedTask true (rt_links t) r (left i) false (if r then nch else rt_nch t) ::
        classify link_num co_link left right i.+1 (if r then nch.+1 else nch) ts'
    else let (t', nch') := foldl (classify_link link_num co_link) (t, nch) (rt_links t) in
      t' :: classify link_num co_link left right i.+1 nch' ts'
  else [::].

(* src/dwbc.cpp:3227-3250: which null-space matrix each task ends up with.  NFrom i: that of CalcNullMatrix_R of
   task i; the last task keeps its old one.  ts_[i - 1] with i = 0 is outside the vector. *)
Inductive null_src := NOld | NFrom of nat.
Fixpoint null_loop (i : nat) (prev : option null_src) (ts : seq red_task) : option (seq null_src) :=
  if ts is t :: ts' then
    if nilp ts' then Some [:: NOld] else
    obind (fun s => omap (cons s) (null_loop i.+1 (Some s) ts'))
      (if rt_noncont t then prev else Some (NFrom i))
  else Some [::].

(* src/dwbc.cpp:3255-3432 (ReducedCalcTaskControlTorque), the accesses ts_[i - 1] only: 3319 and 3396 (first
   non-contact task, with and without hqp), 3325/3399 (later ones), 3363/3421 (contact tasks with i > 0) and 3435
   (ts_[first_nc_TaskSpace_idx_ - 1]).  False: some access is outside the vector. *)
Definition torque_accesses_ok (ts : seq red_task) : bool :=
  if ts is t :: _ then ~~ rt_noncont t else true.
