(* Model of the rotation helpers of src/math.cpp, over the real numbers (doubles exact).
   Eigen's quaternion / angle-axis conversions are modelled from their published algorithm, they are
   not part of /repo. *)
From Coq Require Import Reals Lra.
From Verif Require Import Spline_Model.
Local Open Scope R_scope.

(* Eigen: product, transpose, cross and dot product, scaling of fixed 3-vectors / 3x3 matrices *)
Definition mm3 (A B : mat3) : mat3 := M3
  (m00 A * m00 B + m01 A * m10 B + m02 A * m20 B) (m00 A * m01 B + m01 A * m11 B + m02 A * m21 B) (m00 A * m02 B + m01 A * m12 B + m02 A * m22 B)
  (m10 A * m00 B + m11 A * m10 B + m12 A * m20 B) (m10 A * m01 B + m11 A * m11 B + m12 A * m21 B) (m10 A * m02 B + m11 A * m12 B + m12 A * m22 B)
  (m20 A * m00 B + m21 A * m10 B + m22 A * m20 B) (m20 A * m01 B + m21 A * m11 B + m22 A * m21 B) (m20 A * m02 B + m21 A * m12 B + m22 A * m22 B).
Definition tr3 (A : mat3) : mat3 := M3 (m00 A) (m10 A) (m20 A) (m01 A) (m11 A) (m21 A) (m02 A) (m12 A) (m22 A).
Definition cross (a b : vec3) : vec3 :=
  V3 (vy a * vz b - vz a * vy b) (vz a * vx b - vx a * vz b) (vx a * vy b - vy a * vx b).
Definition dot (a b : vec3) : R := vx a * vx b + vy a * vy b + vz a * vz b.
Definition vadd (a b : vec3) : vec3 := V3 (vx a + vx b) (vy a + vy b) (vz a + vz b).
Definition vscale (k : R) (a : vec3) : vec3 := V3 (k * vx a) (k * vy a) (k * vz a).
(* Eigen: normalized(), which returns its argument unchanged when the squared norm is not positive *)
Definition normalized (a : vec3) : vec3 :=
  if Rlt_dec 0 (dot a a) then vscale (/ sqrt (dot a a)) a else a.

(* src/math.cpp:55-72 *)
Definition rotateWithZ (a : R) : mat3 := M3 (cos a) (- sin a) 0 (sin a) (cos a) 0 0 0 1.
(* src/math.cpp:73-90 *)
Definition rotateWithY (a : R) : mat3 := M3 (cos a) 0 (sin a) 0 1 0 (- sin a) 0 (cos a).
(* src/math.cpp:92-109 *)
Definition rotateWithX (a : R) : mat3 := M3 1 0 0 0 (cos a) (- sin a) 0 (sin a) (cos a).

(* C library atan2 (used by Eigen at src/math.cpp:267) *)
Definition atan2 (y x : R) : R :=
  if Rlt_dec 0 x then atan (y / x)
  else if Rlt_dec x 0 then (if Rlt_dec y 0 then atan (y / x) - PI else atan (y / x) + PI)
  else if Rlt_dec 0 y then PI / 2 else if Rlt_dec y 0 then - (PI / 2) else 0.

(* Eigen::Quaternion: w and the vector part *)
Record quat := Q4 { qw : R; qv : vec3 }.

(* Eigen: Quaternion(Matrix3), used at src/math.cpp:267 (AngleAxis from a matrix) and 325 (Rot2Quat) *)
Definition quat_of_mat (M : mat3) : quat :=
  let t := m00 M + m11 M + m22 M in
  if Rlt_dec 0 t then
    let s := sqrt (t + 1) in
    let k := 1 / 2 / s in
    Q4 (1 / 2 * s) (V3 ((m21 M - m12 M) * k) ((m02 M - m20 M) * k) ((m10 M - m01 M) * k))
  else if Rlt_dec (if Rlt_dec (m00 M) (m11 M) then m11 M else m00 M) (m22 M) then
    (* i = 2, j = 0, k = 1 *)
    let s := sqrt (m22 M - m00 M - m11 M + 1) in
    let k := 1 / 2 / s in
    Q4 ((m10 M - m01 M) * k) (V3 ((m02 M + m20 M) * k) ((m12 M + m21 M) * k) (1 / 2 * s))
  else if Rlt_dec (m00 M) (m11 M) then
    (* i = 1, j = 2, k = 0 *)
    let s := sqrt (m11 M - m22 M - m00 M + 1) in
    let k := 1 / 2 / s in
    Q4 ((m02 M - m20 M) * k) (V3 ((m01 M + m10 M) * k) (1 / 2 * s) ((m21 M + m12 M) * k))
  else
    (* i = 0, j = 1, k = 2 *)
    let s := sqrt (m00 M - m11 M - m22 M + 1) in
    let k := 1 / 2 / s in
    Q4 ((m21 M - m12 M) * k) (V3 (1 / 2 * s) ((m10 M + m01 M) * k) ((m20 M + m02 M) * k)).

(* Eigen: AngleAxis = Quaternion; used at src/math.cpp:267 *)
Definition aa_of_quat (q : quat) : R * vec3 :=
  let n := sqrt (dot (qv q) (qv q)) in
  if Req_EM_T n 0 then (0, V3 1 0 0)
  else
    let angle := 2 * atan2 n (Rabs (qw q)) in
    let n' := if Rlt_dec (qw q) 0 then - n else n in
    (angle, V3 (vx (qv q) / n') (vy (qv q) / n') (vz (qv q) / n')).

(* Eigen: AngleAxis::toRotationMatrix; used at src/math.cpp:119, 269 *)
Definition mat_of_aa (angle : R) (axis : vec3) : mat3 :=
  let s := vscale (sin angle) axis in
  let c := cos angle in
  let c1 := vscale (1 - c) axis in
  M3 (vx c1 * vx axis + c) (vx c1 * vy axis - vz s) (vx c1 * vz axis + vy s)
     (vx c1 * vy axis + vz s) (vy c1 * vy axis + c) (vy c1 * vz axis - vx s)
     (vx c1 * vz axis - vy s) (vy c1 * vz axis + vx s) (vz c1 * vz axis + c).

(* src/math.cpp:111-120.  None: 0/0, a zero argument *)
Definition AxisTransform2V (from to : vec3) : option mat3 :=
  let ori := normalized from in
  let tar := normalized to in
  if Req_EM_T (dot ori ori * dot tar tar) 0 then None
  else Some (mat_of_aa (acos (dot ori tar / (dot ori ori * dot tar tar))) (normalized (cross ori tar))).

(* src/math.cpp:226-274.  None: the scalar interpolation is undefined *)
Definition rotationCubic (time time_0 time_f : R) (rotation_0 rotation_f : mat3) : option mat3 :=
  if Rle_dec time_f time then Some rotation_f
  else if Rlt_dec time time_0 then Some rotation_0
  else
    match cubic time time_0 time_f 0 1 0 0 with
    | None => None
    | Some tau =>
        let ang_diff := aa_of_quat (quat_of_mat (mm3 rotation_f (tr3 rotation_0))) in
        let diff_m := mat_of_aa (fst ang_diff * tau) (snd ang_diff) in
        Some (mm3 diff_m rotation_0)
    end.

(* block<3,1>(0, i), src/math.cpp:283-284 *)
Definition col0 (M : mat3) : vec3 := V3 (m00 M) (m10 M) (m20 M).
Definition col1 (M : mat3) : vec3 := V3 (m01 M) (m11 M) (m21 M).
Definition col2 (M : mat3) : vec3 := V3 (m02 M) (m12 M) (m22 M).

(* src/math.cpp:276-291 *)
Definition GetPhi (current_rotation desired_rotation : mat3) : vec3 :=
  let s0 := cross (col0 current_rotation) (col0 desired_rotation) in
  let s1 := cross (col1 current_rotation) (col1 desired_rotation) in
  let s2 := cross (col2 current_rotation) (col2 desired_rotation) in
  let phi := vadd (vadd s0 s1) s2 in
  let phi := vscale (- (1 / 2)) phi in
  vscale (-1) phi.
