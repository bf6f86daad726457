(* Specification vocabulary for the Python bridge. *)
From mathcomp Require Import all_ssreflect all_algebra.
From Verif Require Import LinAlg Dyn_Model Dyn_Spec Redis_Model Brg_Model.
Set Implicit Arguments.
Unset Strict Implicit.
Unset Printing Implicit Defensive.
Import Order.TTheory GRing.Theory Num.Theory.
Local Open Scope ring_scope.

Section BrgSpec.
Variable R : rcfType.

(* a numpy array: element i is `stride` elements after element i - 1 *)
Definition elem (a : pyarr R) (i : nat) : option R := pa_mem a (pa_ptr a + i%:Z * pa_stride a).
Definition holds (a : pyarr R) (xs : seq R) : Prop :=
  size xs = pa_size a /\ forall i, (i < size xs)%N -> elem a i = Some (nth 0 xs i).
Definition contiguous (a : pyarr R) : Prop := pa_stride a = 1.

(* calls that leave the kinematic state and the contacts alone *)
Definition quiet (o : call R) : bool := match o with KUpdate _ _ _ | KContact _ _ => false | _ => true end.
Definition is_reset (o : call R) : bool := if o is KReset then true else false.

Variable n : nat.
(* what a Python program has done: the constructor, then these calls *)
Definition session zs (phys : seq R -> seq R -> seq R -> snap R n) codV2 q0 os (s : brg R n) : Prop :=
  size q0 = (n + 7)%N /\ exists s0, binit phys q0 = Some s0 /\ run zs phys codV2 s0 os = Some s.

(* the contact Jacobian of the feet that are on the ground *)
Definition foot_J (sn : snap R n) (right : bool) : 'M[R]_(6, 6 + n) := if right then sn_Jr sn else sn_Jl sn.
Definition feet_J (sn : snap R n) : 'M[R]_(6 + 6, 6 + n) := col_mx (sn_Jl sn) (sn_Jr sn).

(* the foot can carry the robot, and both tasks can be done with that foot standing *)
Record on_foot (sn : snap R n) (J : 'M[R]_(6, 6 + n)) : Prop := OnFoot {
  of_A : posdef (sn_A sn);
  of_J : row_free J;
  of_base : contacts_fix_base J;
  of_p : row_free (col_mx J (sn_Jp sn));
  of_t : row_free (col_mx J (sn_Jt sn)) }.

(* contiguous arrays in the order of the simulator (position, quaternion w x y z, joints), and the same state in the
   order of RBDL (position, quaternion x y z, joints, quaternion w) *)
Definition state_arrays (qpos qvel qacc : pyarr R) (q v a : seq R) : Prop :=
  [/\ contiguous qpos, contiguous qvel, contiguous qacc,
      (exists x y z qw qx qy qz js, [/\ size js = n, holds qpos ([:: x; y; z; qw; qx; qy; qz] ++ js) &
         q = [:: x; y; z; qx; qy; qz] ++ js ++ [:: qw]]) &
      [/\ size v = (6 + n)%N, size a = (6 + n)%N, holds qvel v & holds qacc a]].

(* the vector with the entries xs *)
Definition cvec k (xs : seq R) : 'cV[R]_k := \col_(i < k) nth 0 xs i.
End BrgSpec.
