(* A two-foot robot on which the redistribution theorems apply. *)
From mathcomp Require Import all_ssreflect all_algebra.
From mathcomp.algebra_tactics Require Import ring.
From Verif Require Import LinAlg Geo_Model Geo_Spec Geo_Proofs Dyn_Model Dyn_Spec Dyn_Proofs Dyn_Ex.
From Verif Require Import Redis_Model Redis_Spec Redis_Proofs Redis_Dyn.
Set Implicit Arguments.
Unset Strict Implicit.
Unset Printing Implicit Defensive.
Import Order.TTheory GRing.Theory Num.Theory.
Local Open Scope ring_scope.

Section Ex.
Variable R : rcfType.

(* feet one metre to the left and right of the base, twelve joints, one per contact row *)
Definition xl : 'cV[R]_3 := vec3 0 1 0.
Definition xr : 'cV[R]_3 := vec3 0 (- 1) 0.
Definition Jx : 'M[R]_(6 + 6, 6 + (6 + 6)) :=
  row_mx (col_mx (foot_base 0 1%:M xl) (foot_base 0 1%:M xr) : 'M[R]_(6 + 6, 6)) 1%:M.

(* all the weight on the left foot *)
Definition fx : 'cV[R]_((3 + 3) + (3 + 3)) := col_mx (col_mx (vec3 0 0 (- 1)) 0) 0.
Definition Gx : 'cV[R]_(6 + (6 + 6)) := col_mx (- ((lsubmx Jx)^T *m (fx : 'cV[R]_(6 + 6)))) 0.

Lemma Jx_free : row_free Jx.
Proof. by apply/row_freeP; exists (col_mx 0 1%:M); rewrite /Jx mul_row_col mulmx0 mulmx1 add0r. Qed.

Lemma Jx_rigid : rigid_feet 0 1%:M xl xr Jx.
Proof. by rewrite /rigid_feet /Jx row_mxKl. Qed.

Lemma fx_motion : contact_motion 1%:M Jx Gx (fx : 'cV[R]_(6 + 6)) 0 fx.
Proof.
split; last by rewrite mulmx0.
rewrite mulmx0 add0r /Gx -{1}[Jx]hsubmxK tr_row_mx mul_col_mx add_col_mx addrN.
by rewrite /Jx row_mxKr trmx1 mul1mx addr0.
Qed.

Definition ftx : feet R := Feet [:: (true, xl); (true, xr)] 0 1 0.
Definition tx : torques R (6 + 6) := Torques 0 (fx : 'cV[R]_(6 + 6)) 0.

Lemma fx_parts : [/\ force1 fx = vec3 0 0 (- 1), moment1 fx = 0, force2 fx = 0 & moment2 fx = 0].
Proof.
by rewrite /force1 /moment1 /force2 /moment2 /fx !(col_mxKu, col_mxKd) !linear0.
Qed.

Lemma fx_net : net_force fx = vec3 0 0 (- 1) /\ net_moment 0 xl xr fx = vec3 (- 1) 0 0.
Proof.
have [e1 e2 e3 e4] := fx_parts; rewrite /net_force /net_moment e1 e2 e3 e4 addr0; split=> //.
by apply: vecP; rewrite !xyz; ring.
Qed.
End Ex.
