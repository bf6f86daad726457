(* Specification vocabulary for the task registry. *)
From Coq Require Import List Arith ZArith Bool String.
From Verif Require Import Con_Model Task_Model.
Import ListNotations.

Section Spec.
Context {Row Val Pt : Type}.
Local Notation tlink := (tlink Pt).
Local Notation tspace := (tspace Row Val Pt).
Local Notation tstate := (tstate Row Val Pt).
Local Notation kin := (kin Row Val Pt).
Local Notation top := (top Row Val Pt).

(* the documented link modes, and what each means *)
Inductive frame := Origin | CenterOfMass | Custom.
Inductive part := Full | Linear | Angular.

Definition mode_meaning (m : Z) : option (frame * part) :=
  match m with
  | 0%Z => Some (Origin, Full)
  | 1%Z => Some (CenterOfMass, Full)
  | 2%Z => Some (Custom, Full)
  | 3%Z => Some (Origin, Linear)
  | 4%Z => Some (CenterOfMass, Linear)
  | 5%Z => Some (Custom, Linear)
  | 6%Z => Some (Origin, Angular)
  | 7%Z => Some (Origin, Angular)     (* same angular rows for every point of the link *)
  | _ => None
  end.

Definition part_dof (p : part) : nat := match p with Full => 6 | _ => 3 end.

(* the Jacobian rows a link contributes to its task (six-row Jacobians are linear first) *)
Definition link_rows (k : kin) (l : tlink) : list Row :=
  match mode_meaning (tl_mode l) with
  | Some (fr, p) =>
      let M := match fr with
               | Origin => k_jac k (tl_id l)
               | CenterOfMass => k_jac_com k (tl_id l)
               | Custom => k_point_jac k (tl_id l) (tl_point l)
               end in
      match p with Full => M | Linear => firstn 3 M | Angular => skipn 3 M end
  | None => []
  end.

(* the reference a link contributes: computed parts where a trajectory is set,
   the previous values elsewhere *)
Definition link_ref (k : kin) (l : tlink) (old : list Val) : list Val :=
  match mode_meaning (tl_mode l) with
  | Some (_, Full) => (if tl_pos l then k_fpos k l else firstn 3 old) ++
                      (if tl_rot l then k_frot k l else skipn 3 old)
  | Some (_, Linear) => if tl_pos l then k_fpos k l else old
  | Some (_, Angular) => if tl_rot l then k_frot k l else old
  | None => old
  end.

Fixpoint task_ref (k : kin) (ls : list tlink) (old : list Val) : list Val :=
  match ls with
  | [] => old
  | l :: ls' => link_ref k l (firstn (tl_dof l) old) ++ task_ref k ls' (skipn (tl_dof l) old)
  end.

(* links used by a task / by all tasks *)
Definition ids (t : tspace) : list Z := map tl_id (t_links t).
Definition all_ids (s : tstate) : list Z := flat_map ids (r_ts s).

Definition links_dof (t : tspace) : nat := list_sum (map tl_dof (t_links t)).

(* histories that build tasks from links only / that never overwrite f_star_ by hand *)
Definition no_custom (o : top) : Prop := match o with TAddDof _ _ _ => False | _ => True end.
Definition no_override (o : top) : Prop := match o with TSet _ _ _ => False | _ => True end.
End Spec.
