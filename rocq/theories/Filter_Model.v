(* Model of the second-order low-pass filter and of its use in Link, over the real numbers. *)
From Coq Require Import Reals Lra List.
From Verif Require Import Spline_Model.
Import ListNotations.
Local Open Scope R_scope.

(* src/math.cpp:330-347.  None: division by zero (hz = 0, or D = 0) *)
Definition secondOrderLowPassFilter (x_k x_k_1 x_k_2 y_k_1 y_k_2 fc d hz : R) : option R :=
  if Req_EM_T hz 0 then None
  else
    let omega := 2 * PI * fc / hz in
    let D := 4 + 4 * d * omega + omega * omega in
    if Req_EM_T D 0 then None
    else Some ((8 - 2 * omega * omega) / D * y_k_1 - (4 - 4 * d * omega + omega * omega) / D * y_k_2
               + omega * omega / D * (x_k + 2 * x_k_1 + x_k_2)).

(* include/dwbc_link.h:130-144: the fields of Link used by the filter; vp_ and vlpf_ are three-element
   vectors after initialize2lpf *)
Record lpf_link := LpfLink {
  v : vec3;
  vp0 : vec3; vp1 : vec3; vp2 : vec3;
  vlpf0 : vec3; vlpf1 : vec3; vlpf2 : vec3;
  cutoff_freq : R; damping : R; sampling_frequency : R }.

(* src/link.cpp:271-285; v0: the velocity at that moment *)
Definition initialize2lpf (v0 : vec3) (cutoff_freq damping hz : R) : lpf_link :=
  LpfLink v0 v0 v0 v0 v0 v0 v0 cutoff_freq damping hz.

(* src/link.cpp:287-301, preceded by the assignment of the raw velocity v (UpdateVel, src/link.cpp) *)
Definition calc2lpf (raw : vec3) (s : lpf_link) : option lpf_link :=
  let p2 := vp1 s in
  let p1 := vp0 s in
  let p0 := raw in
  let l2 := vlpf1 s in
  let l1 := vlpf0 s in
  let f a b c d e := secondOrderLowPassFilter a b c d e (cutoff_freq s) (damping s) (sampling_frequency s) in
  match f (vx p0) (vx p1) (vx l2) (vx l1) (vx l2),
        f (vy p0) (vy p1) (vy l2) (vy l1) (vy l2),
        f (vz p0) (vz p1) (vz l2) (vz l1) (vz l2) with
  | Some x, Some y, Some z =>
      let l0 := V3 x y z in
      Some (LpfLink l0 p0 p1 p2 l0 l1 l2 (cutoff_freq s) (damping s) (sampling_frequency s))
  | _, _, _ => None
  end.

(* a sequence of raw velocities *)
Fixpoint calc2lpf_run (raws : list vec3) (s : lpf_link) : option lpf_link :=
  match raws with
  | nil => Some s
  | r :: rest => match calc2lpf r s with None => None | Some s' => calc2lpf_run rest s' end
  end.
