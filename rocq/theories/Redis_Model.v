(* Model of the closed-form two-foot contact force redistribution.

   Numbers are elements of a real closed field, extended with the infinities and NaN of
   IEEE arithmetic wherever the code divides or takes a square root.  Simplified: no
   rounding; the sign of a zero divisor, which decides the sign of an infinite quotient,
   is a parameter `zs`, and overflow is ignored. *)
From mathcomp Require Import all_ssreflect all_algebra.
From Verif Require Import Geo_Model Dyn_Model.
Set Implicit Arguments.
Unset Strict Implicit.
Unset Printing Implicit Defensive.
Import Order.TTheory GRing.Theory Num.Theory.
Local Open Scope ring_scope.

Section RedisModel.
Variable R : rcfType.

(* double: a number, an infinity (true = positive) or NaN *)
Inductive ext := Fin of R | Inf of bool | NaN.

Variable zs : bool.    (* the zero divisor is negative zero *)

(* IEEE <, unary -, +, /, sqrt *)
Definition ltx (x y : ext) : bool :=
  match x, y with
  | Fin a, Fin b => a < b
  | Fin _, Inf s => s
  | Inf s, Fin _ => ~~ s
  | Inf s, Inf t => ~~ s && t
  | _, _ => false
  end.
Definition oppx (x : ext) : ext :=
  match x with Fin a => Fin (- a) | Inf s => Inf (~~ s) | NaN => NaN end.
Definition addx (x y : ext) : ext :=
  match x, y with
  | Fin a, Fin b => Fin (a + b)
  | Inf s, Inf t => if s == t then Inf s else NaN
  | Inf s, Fin _ | Fin _, Inf s => Inf s
  | _, _ => NaN
  end.
Definition divx (x y : ext) : ext :=
  match x, y with
  | Fin a, Fin b => if b == 0 then (if a == 0 then NaN else Inf ((0 < a) (+) zs)) else Fin (a / b)
  | Inf s, Fin b => Inf (s (+) (if b == 0 then zs else b < 0))
  | Fin _, Inf _ => Fin 0
  | _, _ => NaN
  end.
Definition sqrtx (x : ext) : ext :=
  match x with
  | Fin a => if a < 0 then NaN else Fin (Num.sqrt a)
  | Inf s => if s then Inf true else NaN
  | NaN => NaN
  end.

Local Notation "x <x y" := (ltx x y) (at level 70).

(* sol_eta1 (sg = false) and sol_eta2 (sg = true), src/wbd.cpp:297-298, 327-328, 355-356 *)
Definition sol (sg : bool) (a b c : R) : ext :=
  let r := sqrtx (Fin (b * b - 4%:R * a * c)) in
  divx (divx (addx (Fin (- b)) (if sg then oppx r else r)) (Fin 2%:R)) (Fin a).

(* One block of bounds on eta from A, B, C: src/wbd.cpp:294-321, 324-347, 352-373 *)
Definition eta_bound (A B C : R) (lu : ext * ext) : ext * ext :=
  let: (eta_lb, eta_ub) := lu in
  let a := A * A in
  let b := 2%:R * A * B in
  let c := B * B - C * C in
  let sol_eta1 := sol false a b c in
  let sol_eta2 := sol true a b c in
  if sol_eta2 <x sol_eta1 then
    let ub := if sol_eta1 <x eta_ub then sol_eta1 else eta_ub in
    let lb := if eta_lb <x sol_eta2 then sol_eta2 else eta_lb in (lb, ub)
  else
    let ub := if sol_eta2 <x eta_ub then sol_eta2 else eta_ub in
    let lb := if eta_lb <x sol_eta1 then sol_eta1 else eta_lb in (lb, ub).

(* W of src/wbd.cpp:275-281 *)
Definition Wmx (P1 P2 : 'cV[R]_3) : 'M[R]_(3 + 3, (3 + 3) + (3 + 3)) :=
  row_mx (block_mx 1%:M 0 (skew P1) 1%:M) (block_mx 1%:M 0 (skew P2) 1%:M).

(* A and B of the three blocks; lines 291-292, 321-322, 350-351 *)
Definition Ax (P1 P2 f : 'cV[R]_3) := (Z P1 - Z P2) * Y f - (Y P1 - Y P2) * Z f.
Definition Bx (P2 f m : 'cV[R]_3) := X m + Z P2 * Y f - Y P2 * Z f.
Definition Ay (P1 P2 f : 'cV[R]_3) := - (Z P1 - Z P2) * X f + (X P1 - X P2) * Z f.
Definition By (P2 f m : 'cV[R]_3) := Y m - Z P2 * X f + X P2 * Z f.
Definition Az (P1 P2 f : 'cV[R]_3) := - (X P1 - X P2) * Y f + (Y P1 - Y P2) * X f.
Definition Bz (P2 f m : 'cV[R]_3) := Z m + Y P2 * X f - X P2 * Y f.

(* eta of src/wbd.cpp:285-386, from the resultant force f and moment m *)
Definition choose_eta (eta_cust footlength footwidth mu ratio_x ratio_y : R)
    (P1 P2 f m : 'cV[R]_3) : ext :=
  let lu0 := (Fin (1 - eta_cust), Fin eta_cust) in
  let lu1 := eta_bound (Ax P1 P2 f) (Bx P2 f m) (ratio_y * footwidth / 2%:R * `|Z f|) lu0 in
  let lu2 := eta_bound (Ay P1 P2 f) (By P2 f m) (ratio_x * footlength / 2%:R * `|Z f|) lu1 in
  let lu3 := eta_bound (Az P1 P2 f) (Bz P2 f m) (mu * `|Z f|) lu2 in
  let: (eta_lb, eta_ub) := lu3 in
  let eta_s := divx (Fin (- X m - Z P2 * Y f + Y P2 * Z f))
                    (Fin ((Z P1 - Z P2) * Y f - (Y P1 - Y P2) * Z f)) in
  let eta := if eta_ub <x eta_s then eta_ub else if eta_s <x eta_lb then eta_lb else eta_s in
  if (Fin eta_cust <x eta) || (eta <x Fin (1 - eta_cust)) then Fin (1 / 2%:R) else eta.

(* src/wbd.cpp:273-404.  Returns ResultantForce, eta and ForceRedistribution; a NaN or
   infinite eta makes every entry of ForceRedistribution NaN or infinite, represented by
   None. *)
Definition ContactRedistributetwomod (eta_cust footlength footwidth mu ratio_x ratio_y : R)
    (P1 P2 : 'cV[R]_3) (F12 : 'cV[R]_((3 + 3) + (3 + 3)))
  : 'cV[R]_(3 + 3) * ext * option 'cV[R]_((3 + 3) + (3 + 3)) :=
  let ResultantForce := Wmx P1 P2 *m F12 in
  let f := usubmx ResultantForce in
  let m := dsubmx ResultantForce in
  let eta := choose_eta eta_cust footlength footwidth mu ratio_x ratio_y P1 P2 f m in
  let redist :=
    if eta is Fin e then
      let f1 := vec3 (e * X f) (e * Y f) (e * Z f) in
      let m1 := vec3
        (((Z P1 - Z P2) * Y f - (Y P1 - Y P2) * Z f) * e * e + (X m + Z P2 * Y f - Y P2 * Z f) * e)
        ((- (Z P1 - Z P2) * X f + (X P1 - X P2) * Z f) * e * e + (Y m - Z P2 * X f + X P2 * Z f) * e)
        ((- (X P1 - X P2) * Y f + (Y P1 - Y P2) * X f) * e * e + (Z m + Y P2 * X f - X P2 * Y f) * e) in
      let f2 := vec3 ((1 - e) * X f) ((1 - e) * Y f) ((1 - e) * Z f) in
      let m2 := vec3
        ((1 - e) * (((Z P1 - Z P2) * Y f - (Y P1 - Y P2) * Z f) * e + (X m + Z P2 * Y f - Y P2 * Z f)))
        ((1 - e) * ((- (Z P1 - Z P2) * X f + (X P1 - X P2) * Z f) * e + (Y m - Z P2 * X f + X P2 * Z f)))
        ((1 - e) * ((- (X P1 - X P2) * Y f + (Y P1 - Y P2) * X f) * e + (Z m + Y P2 * X f - X P2 * Y f))) in
      Some (col_mx (col_mx f1 m1) (col_mx f2 m2))
    else None in
  (ResultantForce, eta, redist).

(* What the non-QP branch leaves in torque_contact_ *)
Inductive redis_out n :=
| RedisOk of 'cV[R]_n      (* returns 1 with this torque_contact_ *)
| RedisNaN                 (* returns 1, torque_contact_ is not a number *)
| RedisSingular            (* the inverted 6x6 matrix is singular *)
| RedisUB.                 (* inverse of a non-square matrix, or cc_[1] out of range *)

(* force_rot_yaw, src/dwbc.cpp:1581-1586 *)
Definition force_rot_yaw (Q : 'M[R]_3) : 'M[R]_((3 + 3) + (3 + 3)) :=
  block_mx (block_mx Q 0 0 Q) 0 0 (block_mx Q 0 0 Q).

(* The members read by the branch, besides the matrices of Dyn_Model:
   activation and xc_pos of each registered contact (cc_, include/dwbc.h), com_pos, and
   cos and sin of the base yaw link_[0].rpy(2). *)
Record feet := Feet {
  ft_cc : seq (bool * 'cV[R]_3);
  ft_com : 'cV[R]_3;
  ft_c : R; ft_s : R }.

(* src/dwbc.cpp:1573-1610, contact_dof_ == 12.  V2 is the k x n basis filled by PinvCODWB. *)
Definition RedistributeTwo n k (rb : robot R (6 + 6) n) (V2 : 'M[R]_(k, n)) (ft : feet)
    (torque_input : 'cV[R]_n) : redis_out n :=
  if ft_cc ft is c0 :: c1 :: _ then
    let ContactForce := rsubmx (cs_JCinvT (rb_cs rb)) *m torque_input - rb_PC rb in
    let P1 := c0.2 - ft_com ft in
    let P2 := c1.2 - ft_com ft in
    let Rotyaw := rotZ (ft_c ft) (- ft_s ft) in      (* rotateWithZ(-rpy(2)) *)
    let F12 := force_rot_yaw Rotyaw *m ContactForce in
    let: (_, _, res) := ContactRedistributetwomod (99%:R / 100%:R) (26%:R / 100%:R) (1 / 10%:R) 1
      (9%:R / 10%:R) (9%:R / 10%:R) (Rotyaw *m P1) (Rotyaw *m P2) F12 in
    match @eqP _ k 6%N with
    | ReflectT e =>
      let V := castmx (e, erefl n) V2 in
      if res is Some Result then
        let fc_redist := (force_rot_yaw Rotyaw)^T *m Result in
        let desired : 'cV[R]_6 := - dsubmx (ContactForce : 'cV[R]_(6 + 6))
          + dsubmx (fc_redist : 'cV[R]_(6 + 6)) in
        if inverse (dsubmx (rsubmx (cs_JCinvT (rb_cs rb))) *m V^T) is Some Mi
        then RedisOk (V^T *m Mi *m desired) else RedisSingular n
      else RedisNaN n
    | ReflectF _ => RedisUB n
    end
  else RedisUB n.

(* torque_grav_, torque_task_, torque_contact_ *)
Record torques n := Torques { tq_grav : 'cV[R]_n; tq_task : 'cV[R]_n; tq_con : 'cV[R]_n }.
Definition command n (t : torques n) : 'cV[R]_n := tq_grav t + tq_task t + tq_con t.

(* src/dwbc.cpp:1372-1375 and 1570-1612: CalcContactRedistribute(false, init) with
   contact_dof_ = 12.  None: torque_contact_ is not a number or the step is undefined. *)
Definition CalcContactRedistribute12 n k (rb : robot R (6 + 6) n) (V2 : 'M[R]_(k, n)) (ft : feet)
    (t : torques n) : option (torques n) :=
  if RedistributeTwo rb V2 ft (tq_grav t + tq_task t + tq_con t) is RedisOk tc
  then Some (Torques (tq_grav t) (tq_task t) tc) else None.

(* src/dwbc.cpp:1613-1618: any other contact_dof_, returns 0 *)
Definition CalcContactRedistributeElse n (t : torques n) : torques n :=
  Torques (tq_grav t) (tq_task t) 0.

End RedisModel.
Arguments NaN {R}.
