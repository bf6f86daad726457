(* Model of the scalar interpolation functions, over the real numbers.
   Simplified: doubles are exact; pow(x, n) is the n-th power.  None: the 3x3 system is singular,
   Eigen's inverse() then divides by zero. *)
From Coq Require Import Reals Lra.
Local Open Scope R_scope.

Record vec3 := V3 { vx : R; vy : R; vz : R }.
Record mat3 := M3 { m00 : R; m01 : R; m02 : R; m10 : R; m11 : R; m12 : R; m20 : R; m21 : R; m22 : R }.

(* Eigen: matrix times vector, determinant and inverse() of a fixed 3x3 matrix (cofactors over the
   determinant) *)
Definition mv3 (M : mat3) (v : vec3) : vec3 :=
  V3 (m00 M * vx v + m01 M * vy v + m02 M * vz v)
     (m10 M * vx v + m11 M * vy v + m12 M * vz v)
     (m20 M * vx v + m21 M * vy v + m22 M * vz v).
Definition det3 (M : mat3) : R :=
  m00 M * (m11 M * m22 M - m12 M * m21 M) - m01 M * (m10 M * m22 M - m12 M * m20 M)
  + m02 M * (m10 M * m21 M - m11 M * m20 M).
Definition inv3 (M : mat3) : option mat3 :=
  if Req_EM_T (det3 M) 0 then None
  else Some (M3
    ((m11 M * m22 M - m12 M * m21 M) / det3 M) ((m02 M * m21 M - m01 M * m22 M) / det3 M) ((m01 M * m12 M - m02 M * m11 M) / det3 M)
    ((m12 M * m20 M - m10 M * m22 M) / det3 M) ((m00 M * m22 M - m02 M * m20 M) / det3 M) ((m02 M * m10 M - m00 M * m12 M) / det3 M)
    ((m10 M * m21 M - m11 M * m20 M) / det3 M) ((m01 M * m20 M - m00 M * m21 M) / det3 M) ((m00 M * m11 M - m01 M * m10 M) / det3 M)).

(* src/math.cpp:127-186; the components of the result are position, velocity, acceleration *)
Definition QuinticSpline (time time_0 time_f x_0 x_dot_0 x_ddot_0 x_f x_dot_f x_ddot_f : R) : option vec3 :=
  if Rlt_dec time time_0 then Some (V3 x_0 x_dot_0 x_ddot_0)
  else if Rlt_dec time_f time then Some (V3 x_f x_dot_f x_ddot_f)
  else
    let time_s := time_f - time_0 in
    let a1 := x_0 in
    let a2 := x_dot_0 in
    let a3 := x_ddot_0 / 2 in
    let Temp := M3 (time_s ^ 3) (time_s ^ 4) (time_s ^ 5)
                   (3 * time_s ^ 2) (4 * time_s ^ 3) (5 * time_s ^ 4)
                   (6 * time_s) (12 * time_s ^ 2) (20 * time_s ^ 3) in
    let R_temp := V3 (x_f - x_0 - x_dot_0 * time_s - x_ddot_0 * time_s ^ 2 / 2)
                     (x_dot_f - x_dot_0 - x_ddot_0 * time_s)
                     (x_ddot_f - x_ddot_0) in
    match inv3 Temp with
    | None => None
    | Some Ti =>
        let RES := mv3 Ti R_temp in
        let a4 := vx RES in
        let a5 := vy RES in
        let a6 := vz RES in
        let time_fs := time - time_0 in
        Some (V3
          (a1 + a2 * time_fs ^ 1 + a3 * time_fs ^ 2 + a4 * time_fs ^ 3 + a5 * time_fs ^ 4 + a6 * time_fs ^ 5)
          (a2 + 2 * a3 * time_fs ^ 1 + 3 * a4 * time_fs ^ 2 + 4 * a5 * time_fs ^ 3 + 5 * a6 * time_fs ^ 4)
          (2 * a3 + 6 * a4 * time_fs ^ 1 + 12 * a5 * time_fs ^ 2 + 20 * a6 * time_fs ^ 3))
    end.

(* src/math.cpp:187-224.  For time_0 = time = time_f the divisions by total_time are by zero: None. *)
Definition cubic (time time_0 time_f x_0 x_f x_dot_0 x_dot_f : R) : option R :=
  if Rlt_dec time time_0 then Some x_0
  else if Rlt_dec time_f time then Some x_f
  else
    let elapsed_time := time - time_0 in
    let total_time := time_f - time_0 in
    let total_time2 := total_time * total_time in
    let total_time3 := total_time2 * total_time in
    let total_x := x_f - x_0 in
    if Req_EM_T total_time 0 then None
    else Some (x_0 + x_dot_0 * elapsed_time
      + (3 * total_x / total_time2 - 2 * x_dot_0 / total_time - x_dot_f / total_time) * elapsed_time * elapsed_time
      + (-2 * total_x / total_time3 + (x_dot_0 + x_dot_f) / total_time2) * elapsed_time * elapsed_time * elapsed_time).
