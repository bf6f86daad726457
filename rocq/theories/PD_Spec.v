(* Vocabulary for task references: motion of vectors and rotations in time, the law wanted, the calls in force *)
From Coq Require Import Reals ZArith List.
From Verif Require Import Spline_Model Rot_Model Rot_Spec PD_Model.
Import ListNotations.
Local Open Scope R_scope.

(* F has derivative d at t, entry by entry *)
Definition vderiv (F : R -> vec3) (t : R) (d : vec3) : Prop :=
  derivable_pt_lim (fun s => vx (F s)) t (vx d) /\ derivable_pt_lim (fun s => vy (F s)) t (vy d) /\
  derivable_pt_lim (fun s => vz (F s)) t (vz d).
Definition mderiv (F : R -> mat3) (t : R) (d : mat3) : Prop :=
  (derivable_pt_lim (fun s => m00 (F s)) t (m00 d) /\ derivable_pt_lim (fun s => m01 (F s)) t (m01 d) /\ derivable_pt_lim (fun s => m02 (F s)) t (m02 d)) /\
  (derivable_pt_lim (fun s => m10 (F s)) t (m10 d) /\ derivable_pt_lim (fun s => m11 (F s)) t (m11 d) /\ derivable_pt_lim (fun s => m12 (F s)) t (m12 d)) /\
  (derivable_pt_lim (fun s => m20 (F s)) t (m20 d) /\ derivable_pt_lim (fun s => m21 (F s)) t (m21 d) /\ derivable_pt_lim (fun s => m22 (F s)) t (m22 d)).
(* w is the (world) angular velocity of the orientation F at t *)
Definition angular_velocity (F : R -> mat3) (t : R) (w : vec3) : Prop := mderiv F t (mm3 (hat w) (F t)).

(* a link moving with its recorded velocities *)
Definition moving (L : R -> lstate) : Prop :=
  forall t, vderiv (fun s => l_x (L s)) t (l_v (L t)) /\ angular_velocity (fun s => l_R (L s)) t (l_w (L t)) /\
            l_com (L t) = l_com (L 0).

(* f = a_gain acc + p_gain (pos - x) + d_gain (vel - v), axis by axis *)
Definition pd_law (ga gp gd acc pos vel x v f : vec3) : Prop :=
  vx f = vx ga * vx acc + vx gp * (vx pos - vx x) + vx gd * (vx vel - vx v) /\
  vy f = vy ga * vy acc + vy gp * (vy pos - vy x) + vy gd * (vy vel - vy v) /\
  vz f = vz ga * vz acc + vz gp * (vz pos - vz x) + vz gd * (vz vel - vz v).

(* the gains of the last SetTaskGain, zero without one *)
Definition last_gain (cs : list pcall) : gains :=
  fold_left (fun g c => match c with PGain g' => g' | _ => g end) cs (Gains vzero vzero vzero vzero vzero vzero).
(* a call that leaves a position trajectory over [ts, te] alone: not another one, and no rotation trajectory with
   other times *)
Definition leaves (ts te : R) (c : pcall) : Prop :=
  match c with
  | PQuintic _ _ _ _ _ _ => False
  | PRotation ts' te' _ _ _ _ => ts' = ts /\ te' = te
  | _ => True
  end.
Definition not_quintic (c : pcall) : Prop := match c with PQuintic _ _ _ _ _ _ => False | _ => True end.
