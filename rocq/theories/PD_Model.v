(* Model of the task references of a task link: SetTrajectoryQuintic, SetTrajectoryRotation, SetTaskGain,
   SetPDerrorRegulation, GetFstarPosPD, GetFstarRotPD and the arguments UpdateTaskSpace passes to them.
   Over the real numbers (doubles exact).  Members without an initialiser are options; reading one before it is
   set gives None.  Eigen's quaternion operations are modelled from their published algorithm.
   Not modelled: rpy_traj (an Euler angle conversion nothing reads), wr_mat. *)
From Coq Require Import Reals ZArith List.
From Verif Require Import Spline_Model Rot_Model Task_Model.
Import ListNotations.
Local Open Scope R_scope.

Record gains := Gains {
  g_pp : vec3; (* pos_p_gain_ *)  g_pd : vec3; (* pos_d_gain_ *)  g_pa : vec3; (* pos_a_gain_ *)
  g_rp : vec3; (* rot_p_gain_ *)  g_rd : vec3; (* rot_d_gain_ *)  g_ra : vec3  (* rot_a_gain_ *)
}.
Definition vzero : vec3 := V3 0 0 0.

(* include/dwbc_task.h:49-103, the members that take part *)
Record plink := PLink {
  p_mode : Z;                                  (* task_link_mode_ *)
  p_point : vec3;                              (* task_point_ *)
  p_times : option (R * R);                    (* traj_start_time_, traj_end_time_ *)
  p_pos : option (vec3 * vec3 * vec3 * vec3);  (* pos_init_, vel_init_, pos_desired_, vel_deisred_; traj_pos_set *)
  p_rot : option (mat3 * vec3 * mat3 * vec3);  (* rot_init_, w_init_, rot_desired_, w_desired_; traj_rot_set *)
  p_gain : gains;
  p_reg : option (vec3 * vec3 * vec3 * vec3)   (* max_p_error_ (linear, angular), max_d_error_; pd_error_regulation_ *)
}.

(* src/task.cpp:6-14 with the initialisers of include/dwbc_task.h:57-100 *)
Definition new_plink (mode : Z) (pt : vec3) : plink :=
  PLink mode pt None None None (Gains vzero vzero vzero vzero vzero vzero) None.

(* src/task.cpp:223-238 *)
Definition SetTrajectoryQuintic (p : plink) (ts te : R) (x0 v0 xf vf : vec3) : plink :=
  PLink (p_mode p) (p_point p) (Some (ts, te)) (Some (x0, v0, xf, vf)) (p_rot p) (p_gain p) (p_reg p).
(* src/task.cpp:239-253 *)
Definition SetTrajectoryRotation (p : plink) (ts te : R) (r0 : mat3) (w0 : vec3) (rf : mat3) (wf : vec3) : plink :=
  PLink (p_mode p) (p_point p) (Some (ts, te)) (p_pos p) (Some (r0, w0, rf, wf)) (p_gain p) (p_reg p).
(* src/task.cpp:255-266 *)
Definition SetTaskGain (p : plink) (g : gains) : plink :=
  PLink (p_mode p) (p_point p) (p_times p) (p_pos p) (p_rot p) g (p_reg p).
(* src/task.cpp:341-346 *)
Definition SetPDerrorRegulation (p : plink) (m : vec3 * vec3 * vec3 * vec3) : plink :=
  PLink (p_mode p) (p_point p) (p_times p) (p_pos p) (p_rot p) (p_gain p) (Some m).

(* Eigen: cwiseProduct, difference *)
Definition vcmul (a b : vec3) : vec3 := V3 (vx a * vx b) (vy a * vy b) (vz a * vz b).
Definition vsub (a b : vec3) : vec3 := V3 (vx a - vx b) (vy a - vy b) (vz a - vz b).

(* modes 0-5, src/task.cpp:272-277 *)
Definition position_mode (m : Z) : bool := (Z.leb 0 m && Z.leb m 5)%bool.

(* the loop of src/task.cpp:278-288: pos_traj_, vel_traj_, acc_traj_ *)
Definition pos_traj (time ts te : R) (x0 v0 xf vf : vec3) : option (vec3 * vec3 * vec3) :=
  match QuinticSpline time ts te (vx x0) (vx v0) 0 (vx xf) (vx vf) 0,
        QuinticSpline time ts te (vy x0) (vy v0) 0 (vy xf) (vy vf) 0,
        QuinticSpline time ts te (vz x0) (vz v0) 0 (vz xf) (vz vf) 0 with
  | Some a, Some b, Some c => Some (V3 (vx a) (vx b) (vx c), V3 (vy a) (vy b) (vy c), V3 (vz a) (vz b) (vz c))
  | _, _, _ => None
  end.

(* src/task.cpp:268-294 *)
Definition GetFstarPosPD (p : plink) (time : R) (x v : vec3) : option vec3 :=
  if position_mode (p_mode p) then
    match p_times p, p_pos p with
    | Some (ts, te), Some (x0, v0, xf, vf) =>
        match pos_traj time ts te x0 v0 xf vf with
        | Some (pt, vt, at_) =>
            let p_error := vsub pt x in
            let d_error := vsub vt v in
            Some (vadd (vadd (vcmul (g_pa (p_gain p)) at_) (vcmul (g_pp (p_gain p)) p_error)) (vcmul (g_pd (p_gain p)) d_error))
        | None => None
        end
    | _, _ => None
    end
  else Some vzero.

(* Eigen: Quaternion::operator*, inverse (zero for a zero quaternion), dot, toRotationMatrix *)
Definition qmul (a b : quat) : quat :=
  Q4 (qw a * qw b - dot (qv a) (qv b)) (vadd (vadd (vscale (qw a) (qv b)) (vscale (qw b) (qv a))) (cross (qv a) (qv b))).
Definition qinverse (a : quat) : quat :=
  let n2 := qw a * qw a + dot (qv a) (qv a) in
  if Rlt_dec 0 n2 then Q4 (qw a / n2) (vscale (- (1 / n2)) (qv a)) else Q4 0 vzero.
Definition qdot (a b : quat) : R := qw a * qw b + dot (qv a) (qv b).
Definition qmat (q : quat) : mat3 :=
  let w := qw q in let x := vx (qv q) in let y := vy (qv q) in let z := vz (qv q) in
  M3 (1 - (2 * y * y + 2 * z * z)) (2 * y * x - 2 * z * w) (2 * z * x + 2 * y * w)
     (2 * y * x + 2 * z * w) (1 - (2 * x * x + 2 * z * z)) (2 * z * y - 2 * x * w)
     (2 * z * x - 2 * y * w) (2 * z * y + 2 * x * w) (1 - (2 * x * x + 2 * y * y)).
(* Eigen: Quaternion::slerp; one is 1 - epsilon *)
Definition slerp (one : R) (t : R) (a b : quat) : quat :=
  let d := qdot a b in
  let absD := Rabs d in
  let theta := acos absD in
  let scale0 := if Rle_dec one absD then 1 - t else sin ((1 - t) * theta) / sin theta in
  let scale1 := if Rle_dec one absD then t else sin (t * theta) / sin theta in
  let scale1 := if Rlt_dec d 0 then - scale1 else scale1 in
  Q4 (scale0 * qw a + scale1 * qw b) (vadd (vscale scale0 (qv a)) (vscale scale1 (qv b))).

(* src/task.cpp:316-335: rot_traj, w_traj, a_traj *)
Definition rot_traj (one time ts te : R) (r0 rf : mat3) : option (mat3 * vec3 * vec3) :=
  match QuinticSpline time ts te 0 0 0 1 0 0 with
  | Some qs =>
      let rq_init := quat_of_mat r0 in
      let rq_desired := quat_of_mat rf in
      let rq_traj := slerp one (vx qs) rq_init rq_desired in
      let axd := aa_of_quat (qmul rq_desired (qinverse rq_init)) in
      Some (qmat rq_traj, vscale (fst axd * vy qs) (snd axd), vscale (fst axd * vz qs) (snd axd))
  | None => None
  end.

(* src/task.cpp:296-339; the mode is switched on, with no effect *)
Definition GetFstarRotPD (one : R) (p : plink) (time : R) (rot : mat3) (w : vec3) : option vec3 :=
  match p_times p, p_rot p with
  | Some (ts, te), Some (r0, w0, rf, wf) =>
      match rot_traj one time ts te r0 rf with
      | Some (rt, wt, _) =>
          let p_error := GetPhi rot rt in
          let d_error := vsub wt w in
          Some (vadd (vcmul (g_rp (p_gain p)) p_error) (vcmul (g_rd (p_gain p)) d_error))
      | None => None
      end
  | _, _ => None
  end.

(* The members of a link that UpdateTaskSpace reads: xpos, rotm, v, w and com_position_l_ *)
Record lstate := LState { l_x : vec3; l_R : mat3; l_v : vec3; l_w : vec3; l_com : vec3 }.
(* src/link.cpp:84, 94: xipos, vi.  (For the COM entry they are set in UpdateKinematics, src/dwbc.cpp:326-327, 362-366.) *)
Definition l_xi (l : lstate) : vec3 := vadd (l_x l) (mv3 (l_R l) (l_com l)).
Definition l_vi (l : lstate) : vec3 := vadd (l_v l) (cross (l_w l) (mv3 (l_R l) (l_com l))).

(* the position and velocity passed to GetFstarPosPD, src/dwbc.cpp:716, 727, 740-741, 752, 759, 767-768;
   None: modes without a position part *)
Definition fed (mode : Z) (pt : vec3) (l : lstate) : option (vec3 * vec3) :=
  if (Z.eqb mode TASK_LINK_6D || Z.eqb mode TASK_LINK_POSITION)%bool then Some (l_x l, l_v l)
  else if (Z.eqb mode TASK_LINK_6D_COM_FRAME || Z.eqb mode TASK_LINK_POSITION_COM_FRAME)%bool then Some (l_xi l, l_vi l)
  else if (Z.eqb mode TASK_LINK_6D_CUSTOM_FRAME || Z.eqb mode TASK_LINK_POSITION_CUSTOM_FRAME)%bool then
    Some (vadd (l_x l) (mv3 (l_R l) pt), vadd (l_v l) (cross (l_w l) pt))
  else None.

(* the calls on a task link *)
Inductive pcall :=
| PQuintic (ts te : R) (x0 v0 xf vf : vec3)
| PRotation (ts te : R) (r0 : mat3) (w0 : vec3) (rf : mat3) (wf : vec3)
| PGain (g : gains)
| PRegulate (m : vec3 * vec3 * vec3 * vec3).
Definition pstep (p : plink) (c : pcall) : plink :=
  match c with
  | PQuintic ts te x0 v0 xf vf => SetTrajectoryQuintic p ts te x0 v0 xf vf
  | PRotation ts te r0 w0 rf wf => SetTrajectoryRotation p ts te r0 w0 rf wf
  | PGain g => SetTaskGain p g
  | PRegulate m => SetPDerrorRegulation p m
  end.
Definition prun (p : plink) (cs : list pcall) : plink := fold_left pstep cs p.
