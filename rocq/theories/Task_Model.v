(* Model of the task registry of RobotData: AddTaskSpace (three overloads), AddTaskLink (two),
   ClearTaskSpace, SetTaskSpace, the trajectory flags, UpdateTaskSpace.

   An operation returns None when the C++ code has undefined behaviour on that call
   (out-of-range vector index, Eigen size mismatch, read of an uninitialised member).
   Printing is not modelled; the `verbose` argument is taken false.
   int -> unsigned conversions of link ids and modes are injective on int, so ids and modes
   are integers here. *)
From Coq Require Import List Arith ZArith Bool String Ascii.
From Verif Require Import Con_Model.
Import ListNotations.
Local Open Scope nat_scope.

(* include/dwbc_task.h:23-33 *)
Definition TASK_LINK_6D : Z := 0.
Definition TASK_LINK_6D_COM_FRAME : Z := 1.
Definition TASK_LINK_6D_CUSTOM_FRAME : Z := 2.
Definition TASK_LINK_POSITION : Z := 3.
Definition TASK_LINK_POSITION_COM_FRAME : Z := 4.
Definition TASK_LINK_POSITION_CUSTOM_FRAME : Z := 5.
Definition TASK_LINK_ROTATION : Z := 6.
Definition TASK_LINK_ROTATION_CUSTOM_FRAME : Z := 7.

(* include/dwbc_task.h:13-21 *)
Definition TASK_UNDEFINED : Z := 0.
Definition TASK_CUSTOM : Z := 2.

Section TaskModel.
(* Row: a Jacobian row (system_dof_ doubles).  Val: a double.  Pt: a Vector3d. *)
Context {Row Val Pt : Type} (zero_row : Row) (zero : Val).

(* include/dwbc_task.h:49-62, the members that matter here *)
Record tlink := TLink {
  tl_mode : Z;          (* task_link_mode_ *)
  tl_id : Z;            (* link_id_ *)
  tl_point : Pt;        (* task_point_ *)
  tl_dof : nat;         (* t_dof_ *)
  tl_pos : bool;        (* traj_pos_set *)
  tl_rot : bool         (* traj_rot_set *)
}.

(* src/task.cpp:15-31: t_dof_; None is the default branch, which leaves it uninitialised *)
Definition mode_dof (mode : Z) : option nat :=
  if (Z.eqb mode TASK_LINK_6D || Z.eqb mode TASK_LINK_6D_COM_FRAME
      || Z.eqb mode TASK_LINK_6D_CUSTOM_FRAME)%bool then Some 6
  else if (Z.eqb mode TASK_LINK_POSITION || Z.eqb mode TASK_LINK_POSITION_COM_FRAME
      || Z.eqb mode TASK_LINK_POSITION_CUSTOM_FRAME || Z.eqb mode TASK_LINK_ROTATION
      || Z.eqb mode TASK_LINK_ROTATION_CUSTOM_FRAME)%bool then Some 3
  else None.

(* src/task.cpp:6-32.  None: t_dof_ stays uninitialised, and both callers read it at once. *)
Definition new_tlink (mode id : Z) (pt : Pt) : option tlink :=
  match mode_dof mode with
  | Some d => Some (TLink mode id pt d false false)
  | None => None
  end.

(* include/dwbc_task.h:117-165, the members that matter here *)
Record tspace := TSpace {
  t_dof : nat;          (* task_dof_ *)
  t_h : Z;              (* heirarchy_ *)
  t_nlink : nat;        (* link_size_ *)
  t_type : Z;           (* task_type_ *)
  t_links : list tlink; (* task_link_ *)
  t_J : list Row;       (* J_task_, by rows *)
  t_f : list Val;       (* f_star_ *)
  t_fqp : list Val      (* f_star_qp_ *)
}.

(* src/task.cpp:41-48.  task_dof >= 0 (the int argument is stored in an unsigned). *)
Definition new_tspace_dof (type : Z) (h : Z) (dof : nat) : tspace :=
  TSpace dof h 0 type [] [] [] [].

(* src/task.cpp:52-64 *)
Definition new_tspace_link (mode : Z) (h : Z) (id : Z) (pt : Pt) : option tspace :=
  match new_tlink mode id pt with
  | Some l => Some (TSpace (tl_dof l) h 1 TASK_UNDEFINED [l] [] (repeat zero (tl_dof l)) [])
  | None => None
  end.

(* src/task.cpp:66-75 *)
Definition TaskSpace_AddTaskLink (t : tspace) (mode id : Z) (pt : Pt) : option tspace :=
  match new_tlink mode id pt with
  | Some l =>
      let dof := t_dof t + tl_dof l in
      Some (TSpace dof (t_h t) (S (t_nlink t)) (t_type t) (t_links t ++ [l]) (t_J t)
                   (repeat zero dof) (t_fqp t))
  | None => None
  end.

(* The part of RobotData involved: link names, ts_, number of elements of qp_task_. *)
Record tstate := TState {
  r_names : list string;
  r_ts : list tspace;
  r_qp : nat
}.

Definition tinit (names : list string) : tstate := TState names [] 0.

(* src/dwbc.cpp:515-520, 76-79 *)
Definition ClearTaskSpace (s : tstate) : tstate := TState (r_names s) [] 0.

(* ts_.push_back(..); AddQP();   src/dwbc.cpp:527-529, 81-84 *)
Definition push_task (s : tstate) (t : tspace) : tstate :=
  TState (r_names s) (r_ts s ++ [t]) (S (r_qp s)).

(* src/dwbc.cpp:522-530; the argument `heirarchy` is not used *)
Definition AddTaskSpaceDof (s : tstate) (h type : Z) (dof : nat) : tstate :=
  push_task s (new_tspace_dof type (Z.of_nat (List.length (r_ts s))) dof).

(* the double loop over ts_[i].task_link_[j], j < link_size_: src/dwbc.cpp:536-546, 608-618, 647-657 *)
Definition link_used (s : tstate) (id : Z) : bool :=
  existsb (fun t => existsb (fun l => Z.eqb (tl_id l) id) (firstn (t_nlink t) (t_links t))) (r_ts s).

(* the same with j < task_link_.size(): src/dwbc.cpp:577-587 *)
Definition link_used_all (s : tstate) (id : Z) : bool :=
  existsb (fun t => existsb (fun l => Z.eqb (tl_id l) id) (t_links t)) (r_ts s).

(* src/dwbc.cpp:531-551; the argument `heirarchy` is not used *)
Definition AddTaskSpace (s : tstate) (h mode id : Z) (pt : Pt) : option tstate :=
  if link_used s id
  then match link_at (r_names s) id with         (* the message reads link_[link_number].name_ *)
       | Some _ => Some s
       | None => None
       end
  else match new_tspace_link mode (Z.of_nat (List.length (r_ts s))) id pt with
       | Some t => Some (push_task s t)
       | None => None
       end.

Definition upd {A} (l : list A) (i : nat) (x : A) : list A := firstn i l ++ x :: skipn (S i) l.

(* ts_[h] with an int index *)
Definition task_at (s : tstate) (h : Z) : option tspace :=
  if Z.ltb h 0 then None else nth_error (r_ts s) (Z.to_nat h).

Definition set_task (s : tstate) (h : Z) (t : tspace) : tstate :=
  TState (r_names s) (upd (r_ts s) (Z.to_nat h) t) (r_qp s).

(* ts_[heirarchy].AddTaskLink(..), src/dwbc.cpp:599, 620, 659 *)
Definition add_link_at (s : tstate) (h mode id : Z) (pt : Pt) : option tstate :=
  match task_at s h with
  | Some t => match TaskSpace_AddTaskLink t mode id pt with
              | Some t' => Some (set_task s h t')
              | None => None
              end
  | None => None
  end.

(* src/dwbc.cpp:552-601 *)
Definition AddTaskSpaceByName (s : tstate) (h mode : Z) (name : string) (pt : Pt) : option tstate :=
  match find_link (r_names s) name with
  | None => Some s
  | Some k =>
      let id := Z.of_nat k in
      if link_used_all s id then Some s
      else
        let size := Z.of_nat (List.length (r_ts s)) in
        if Z.eqb size h then
          match new_tspace_link mode h id pt with
          | Some t => Some (push_task s t)
          | None => None
          end
        else if Z.ltb h size then add_link_at s h mode id pt
        else Some s
  end.

(* src/dwbc.cpp:603-621 *)
Definition AddTaskLink (s : tstate) (h mode id : Z) (pt : Pt) : option tstate :=
  if link_used s id
  then match link_at (r_names s) id with Some _ => Some s | None => None end
  else add_link_at s h mode id pt.

(* src/dwbc.cpp:623-660 *)
Definition AddTaskLinkByName (s : tstate) (h mode : Z) (name : string) (pt : Pt) : option tstate :=
  match find_link (r_names s) name with
  | None => Some s
  | Some k => if link_used s (Z.of_nat k) then Some s else add_link_at s h mode (Z.of_nat k) pt
  end.

(* src/dwbc.cpp:662-678.  ts_[heirarchy] is read before heirarchy is compared with the size. *)
Definition SetTaskSpace (s : tstate) (h : Z) (f : list Val) (J : list Row) : option tstate :=
  match task_at s h with
  | Some t => Some (set_task s h (TSpace (t_dof t) (t_h t) (t_nlink t) (t_type t) (t_links t)
                                         J f (repeat zero (List.length f))))
  | None => None
  end.

(* ts_[h].task_link_[j].SetTrajectoryQuintic / SetTrajectoryRotation: the flags only,
   src/task.cpp:223-253 *)
Definition SetTrajectory (s : tstate) (h : Z) (j : nat) (pos rot : bool) : option tstate :=
  match task_at s h with
  | Some t =>
      match nth_error (t_links t) j with
      | Some l =>
          let l' := TLink (tl_mode l) (tl_id l) (tl_point l) (tl_dof l)
                          (tl_pos l || pos) (tl_rot l || rot) in
          Some (set_task s h (TSpace (t_dof t) (t_h t) (t_nlink t) (t_type t)
                                     (upd (t_links t) j l') (t_J t) (t_f t) (t_fqp t)))
      | None => None
      end
  | None => None
  end.

(* What the kinematics supply during UpdateTaskSpace: the six-row (linear first) Jacobians
   jac_, jac_com_ and GetPointJac of a link at the current configuration, and the results of
   GetFstarPosPD / GetFstarRotPD (modelled in PD_Model.v) for a task link. *)
Record kin := Kin {
  k_jac : Z -> list Row;
  k_jac_com : Z -> list Row;
  k_point_jac : Z -> Pt -> list Row;
  k_fpos : tlink -> list Val;
  k_frot : tlink -> list Val
}.

(* the right-hand sides assigned to J_task_.block(..), src/dwbc.cpp:712-783 *)
Definition link_block (k : kin) (l : tlink) : option (nat * list Row) :=
  let m := tl_mode l in
  if Z.eqb m TASK_LINK_6D then Some (6, k_jac k (tl_id l))
  else if Z.eqb m TASK_LINK_6D_COM_FRAME then Some (6, k_jac_com k (tl_id l))
  else if Z.eqb m TASK_LINK_6D_CUSTOM_FRAME then Some (6, k_point_jac k (tl_id l) (tl_point l))
  else if Z.eqb m TASK_LINK_POSITION then Some (3, firstn 3 (k_jac k (tl_id l)))
  else if Z.eqb m TASK_LINK_POSITION_COM_FRAME then Some (3, firstn 3 (k_jac_com k (tl_id l)))
  else if Z.eqb m TASK_LINK_POSITION_CUSTOM_FRAME
       then Some (3, firstn 3 (k_point_jac k (tl_id l) (tl_point l)))
  else if Z.eqb m TASK_LINK_ROTATION then Some (3, skipn 3 (k_jac k (tl_id l)))
  else if Z.eqb m TASK_LINK_ROTATION_CUSTOM_FRAME then Some (3, skipn 3 (k_jac k (tl_id l)))
  else None.

(* the f_star_.segment(..) assignments, src/dwbc.cpp:714-783 *)
Definition link_fstar (k : kin) (l : tlink) (at_ : nat) (f : list Val) : option (list Val) :=
  let m := tl_mode l in
  if Z.leb 0 m && Z.leb m 2 then
    match (if tl_pos l then set_rows f at_ 3 (k_fpos k l) else Some f) with
    | Some f1 => if tl_rot l then set_rows f1 (at_ + 3) 3 (k_frot k l) else Some f1
    | None => None
    end
  else if Z.leb 3 m && Z.leb m 5 then
    (if tl_pos l then set_rows f at_ 3 (k_fpos k l) else Some f)
  else if Z.leb 6 m && Z.leb m 7 then
    (if tl_rot l then set_rows f at_ 3 (k_frot k l) else Some f)
  else Some f.

(* src/dwbc.cpp:700-790, the loop over the links of one task *)
Fixpoint update_links (k : kin) (names : list string) (type : Z) (ls : list tlink) (at_ : nat)
    (J : list Row) (f : list Val) : option (list Row * list Val) :=
  match ls with
  | [] => Some (J, f)
  | l :: ls' =>
      match link_at names (tl_id l) with       (* link_[link_id_] *)
      | None => None
      | Some _ =>
          if Z.eqb type TASK_CUSTOM then update_links k names type ls' at_ J f
          else
            match (match link_block k l with
                   | Some (n, B) => set_rows J at_ n B
                   | None => Some J
                   end) with
            | Some J' =>
                match link_fstar k l at_ f with
                | Some f' => update_links k names type ls' (at_ + tl_dof l) J' f'
                | None => None
                end
            | None => None
            end
      end
  end.

(* src/dwbc.cpp:692-792, one round of the outer loop *)
Definition update_task (k : kin) (names : list string) (t : tspace) : option tspace :=
  let J0 := if 0 <? t_nlink t then repeat zero_row (t_dof t) else t_J t in
  match update_links k names (t_type t) (firstn (t_nlink t) (t_links t)) 0 J0 (t_f t) with
  | Some (J, f) => Some (TSpace (t_dof t) (t_h t) (t_nlink t) (t_type t) (t_links t) J f (t_fqp t))
  | None => None
  end.

(* src/dwbc.cpp:685-793 *)
Definition UpdateTaskSpace (k : kin) (s : tstate) : option tstate :=
  match r_names s with
  | [] => None                                   (* link_[0] *)
  | _ => match map_opt (update_task k (r_names s)) (r_ts s) with
         | Some ts => Some (TState (r_names s) ts (r_qp s))
         | None => None
         end
  end.

(* calls a user can make *)
Inductive top :=
| TAddDof (h type : Z) (dof : nat)
| TAdd (h mode id : Z) (pt : Pt)
| TAddName (h mode : Z) (name : string) (pt : Pt)
| TLinkAdd (h mode id : Z) (pt : Pt)
| TLinkAddName (h mode : Z) (name : string) (pt : Pt)
| TClear
| TSet (h : Z) (f : list Val) (J : list Row)
| TTraj (h : Z) (j : nat) (pos rot : bool)
| TUpdate (k : kin).

Definition tstep (s : tstate) (o : top) : option tstate :=
  match o with
  | TAddDof h type dof => Some (AddTaskSpaceDof s h type dof)
  | TAdd h mode id pt => AddTaskSpace s h mode id pt
  | TAddName h mode name pt => AddTaskSpaceByName s h mode name pt
  | TLinkAdd h mode id pt => AddTaskLink s h mode id pt
  | TLinkAddName h mode name pt => AddTaskLinkByName s h mode name pt
  | TClear => Some (ClearTaskSpace s)
  | TSet h f J => SetTaskSpace s h f J
  | TTraj h j pos rot => SetTrajectory s h j pos rot
  | TUpdate k => UpdateTaskSpace k s
  end.

Fixpoint trun (s : tstate) (os : list top) : option tstate :=
  match os with
  | [] => Some s
  | o :: os' => match tstep s o with Some s' => trun s' os' | None => None end
  end.

End TaskModel.
Arguments tlink : clear implicits.
Arguments tspace : clear implicits.
Arguments tstate : clear implicits.
Arguments kin : clear implicits.
Arguments top : clear implicits.
