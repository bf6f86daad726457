(* Specification vocabulary for rotations: orthogonal with determinant one; the rotation by an angle
   about a unit axis given by Rodrigues' formula I + sin t [a] + (1 - cos t) [a]^2. *)
From Coq Require Import Reals Lra.
From Verif Require Import Spline_Model Rot_Model.
Local Open Scope R_scope.

Definition I3 : mat3 := M3 1 0 0 0 1 0 0 0 1.
Definition rotation (M : mat3) : Prop := mm3 (tr3 M) M = I3 /\ det3 M = 1.
Definition unit_vec (a : vec3) : Prop := vx a * vx a + vy a * vy a + vz a * vz a = 1.

Definition madd (A B : mat3) : mat3 :=
  M3 (m00 A + m00 B) (m01 A + m01 B) (m02 A + m02 B) (m10 A + m10 B) (m11 A + m11 B) (m12 A + m12 B)
     (m20 A + m20 B) (m21 A + m21 B) (m22 A + m22 B).
Definition mscale (k : R) (A : mat3) : mat3 :=
  M3 (k * m00 A) (k * m01 A) (k * m02 A) (k * m10 A) (k * m11 A) (k * m12 A) (k * m20 A) (k * m21 A) (k * m22 A).
Definition hat (a : vec3) : mat3 := M3 0 (- vz a) (vy a) (vz a) 0 (- vx a) (- vy a) (vx a) 0.
Definition rot_about (a : vec3) (t : R) : mat3 :=
  madd I3 (madd (mscale (sin t) (hat a)) (mscale (1 - cos t) (mm3 (hat a) (hat a)))).

(* entrywise continuity of a matrix valued function of time *)
Definition mat_continuous (f : R -> mat3) : Prop :=
  forall t, continuity_pt (fun s => m00 (f s)) t /\ continuity_pt (fun s => m01 (f s)) t /\ continuity_pt (fun s => m02 (f s)) t /\
            continuity_pt (fun s => m10 (f s)) t /\ continuity_pt (fun s => m11 (f s)) t /\ continuity_pt (fun s => m12 (f s)) t /\
            continuity_pt (fun s => m20 (f s)) t /\ continuity_pt (fun s => m21 (f s)) t /\ continuity_pt (fun s => m22 (f s)) t.

Definition norm (a : vec3) : R := sqrt (vx a * vx a + vy a * vy a + vz a * vz a).
(* the direction of a vector *)
Definition direction (a : vec3) : vec3 := V3 (vx a / norm a) (vy a / norm a) (vz a / norm a).
Definition opposite (a b : vec3) : Prop := direction b = V3 (- vx (direction a)) (- vy (direction a)) (- vz (direction a)).
