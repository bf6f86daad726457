(* A robot with two legs and an upper body, and Python programs that drive it, for the examples of C131-C138. *)
From mathcomp Require Import all_ssreflect all_algebra.
From mathcomp Require Import zify.
From Verif Require Import LinAlg Geo_Model Geo_Spec Geo_Proofs Dyn_Model Dyn_Spec Dyn_Proofs Dyn_Ex.
From Verif Require Import Redis_Model Redis_Spec Redis_Proofs Redis_Dyn Redis_Ex Brg_Model Brg_Spec Brg_Proofs.
Set Implicit Arguments.
Unset Strict Implicit.
Unset Printing Implicit Defensive.
Import Order.TTheory GRing.Theory Num.Theory.
Local Open Scope ring_scope.

Section Ex.
Variable R : rcfType.
(* six joints per leg, three in the upper body; the feet of Redis_Ex.v *)
Definition nx : nat := 6 + (6 + 3).
Local Notation FL := (foot_base 0 1%:M (xl R) : 'M[R]_6).
Local Notation FR := (foot_base 0 1%:M (xr R) : 'M[R]_6).
Definition JLx : 'M[R]_(6, 6 + nx) := row_mx FL (row_mx 1%:M (row_mx 0 0)).
Definition JRx : 'M[R]_(6, 6 + nx) := row_mx FR (row_mx 0 (row_mx 1%:M 0)).
Definition JPx : 'M[R]_(6, 6 + nx) := row_mx 1%:M (row_mx 0 (row_mx 0 0)).
Definition JTx : 'M[R]_(3, 6 + nx) := row_mx 0 (row_mx 0 (row_mx 0 1%:M)).
Definition Gbx : 'cV[R]_6 := - ((lsubmx (col_mx JLx JRx))^T *m (fx R : 'cV[R]_(6 + 6))).
Definition GGx : 'cV[R]_(6 + nx) := col_mx Gbx 0.
Definition snx (c : R) : snap R nx := Snap (c%:M) GGx JLx JRx (xl R) (xr R) 0 1 0 JPx JTx.
(* the mass matrix doubles when the first velocity is not zero *)
Definition physx (q v a : seq R) : snap R nx := snx (if nth 0 v 0 == 0 then 1 else 2%:R).
Definition codx (W : 'M[R]_nx) : {k : nat & 'M[R]_(k, nx)} := existT _ _ (row_base (kermx W)).
Lemma codxP W : left_null_basis W (projT2 (codx W)).
Proof.
split; [by apply/sub_kermxP; rewrite eq_row_base|exact: row_base_free|exact: mxrank_ker].
Qed.

(* an array that holds xs, and nothing around it *)
Definition arr (xs : seq R) : pyarr R :=
  PyArr (fun i : int => if i is Posz k then (if (k < size xs)%N then Some (nth 0 xs k) else None) else None) 0 1 (size xs).
Lemma arrP xs : contiguous (arr xs) /\ holds (arr xs) xs.
Proof. by split=> //; split=> // i hi; rewrite /elem [pa_ptr _]/= [pa_stride _]/= mulr1 add0r /= hi. Qed.

Lemma all_free (x1 x2 x3 : 'rV[R]_6) (x4 : 'rV[R]_3) : x1 *m JLx + x2 *m JRx + x3 *m JPx + x4 *m JTx = 0 ->
  [/\ x1 = 0, x2 = 0, x3 = 0 & x4 = 0].
Proof.
rewrite /JLx /JRx /JPx /JTx !mul_mx_row !mulmx1 !mulmx0 !add_row_mx !(addr0, add0r).
move/eqP; rewrite !row_mx_eq0 => /and4P[/eqP h0 /eqP h1 /eqP h2 /eqP h3].
by move: h0; rewrite h1 h2 h3 !mul0mx !add0r.
Qed.
Lemma Jx_p : row_free (col_mx (col_mx JLx JRx) JPx).
Proof.
apply: inj_row_free => v; rewrite -[v]hsubmxK -[lsubmx v]hsubmxK !mul_row_col => h.
have [|-> -> -> _] := @all_free (lsubmx (lsubmx v)) (rsubmx (lsubmx v)) (rsubmx v) 0; first by rewrite mul0mx addr0.
by rewrite !row_mx0.
Qed.
Lemma Jx_t : row_free (col_mx (col_mx JLx JRx) JTx).
Proof.
apply: inj_row_free => v; rewrite -[v]hsubmxK -[lsubmx v]hsubmxK !mul_row_col => h.
have [|-> -> _ ->] := @all_free (lsubmx (lsubmx v)) (rsubmx (lsubmx v)) 0 (rsubmx v); first by rewrite mul0mx addr0.
by rewrite !row_mx0.
Qed.
Lemma JL_p : row_free (col_mx JLx JPx).
Proof.
apply: inj_row_free => v; rewrite -[v]hsubmxK !mul_row_col => h.
have [|-> _ -> _] := @all_free (lsubmx v) 0 (rsubmx v) 0; first by rewrite !mul0mx !addr0.
by rewrite !row_mx0.
Qed.
Lemma JL_t : row_free (col_mx JLx JTx).
Proof.
apply: inj_row_free => v; rewrite -[v]hsubmxK !mul_row_col => h.
have [|-> _ _ ->] := @all_free (lsubmx v) 0 0 (rsubmx v); first by rewrite !mul0mx !addr0.
by rewrite !row_mx0.
Qed.
Lemma Jfree : row_free (col_mx JLx JRx). Proof. exact: col_free_top Jx_p. Qed.

Lemma rigidx : rigid_feet 0 1%:M (xl R) (xr R) (col_mx JLx JRx).
Proof.
by rewrite /rigid_feet /JLx /JRx -block_mxEv block_mxEh row_mxKl.
Qed.
Lemma posx c : 0 < c -> posdef (c%:M : 'M[R]_(6 + nx)).
Proof.
move=> hc; split; first by rewrite /symmetric tr_scalar_mx.
by move=> x ne; rewrite /quad mul_mx_scalar -scalemxAl /sc mxE mulr_gt0 // -[X in 0 < X]/(dot x x) dot_gt0.
Qed.
Lemma onx c : 0 < c -> on_foot (snx c) JLx.
Proof.
move=> hc; split; [exact: posx|exact: col_free_top Jfree| |exact: JL_p|exact: JL_t].
rewrite /contacts_fix_base /JLx row_mxKl; apply: mxrank_unit.
by apply: foot_base_unit; exact: unitmx1.
Qed.

(* the joints at zero, the base upright *)
Definition q0x : seq R := nseq (nx + 7) 0.
Definition posa : pyarr R := arr ([:: 0; 0; 0; 1; 0; 0; 0] ++ nseq nx 0).
Definition vela c : pyarr R := arr (c :: nseq 20 0).
Definition qx : seq R := [:: 0; 0; 0; 0; 0; 0] ++ nseq nx 0 ++ [:: 1].
Definition vx c : seq R := c :: nseq 20 0.
Lemma statex c : state_arrays nx posa (vela c) (vela 0) qx (vx c) (vx 0).
Proof.
split; try by case: (arrP [::]).
  by exists 0, 0, 0, 1, 0, 0, 0, (nseq nx 0); split=> //; case: (arrP ([:: 0; 0; 0; 1; 0; 0; 0] ++ nseq nx 0)).
split; try by rewrite /= ?size_nseq.
  by case: (arrP (vx c)).
by case: (arrP (vx 0)).
Qed.
Lemma sessionx zs : exists s, session zs physx codx q0x [::] s.
Proof.
rewrite /session /binit inverseE; last by apply: posdef_unit; apply: posx; case: ifP => _; rewrite ?ltr01 ?ltr0n.
by eexists; split; [rewrite size_nseq|eexists; split; reflexivity].
Qed.
Lemma phys0 q a : physx q (vx 0) a = snx 1.
Proof. by rewrite /physx /= eqxx. Qed.
Lemma phys1 q a : physx q (vx 1) a = snx 2%:R.
Proof. by rewrite /physx /= oner_eq0. Qed.

(* neither one foot nor both carry the robot without torques ... *)
Lemma netx : net_force (fx R) = vec3 0 0 (- 1) /\ net_moment 0 (xl R) (xr R) (fx R) = vec3 (- 1) 0 0.
Proof. exact: fx_net. Qed.
Lemma Gbx_wrench : Gbx = - (col_mx (net_force (fx R)) (net_moment 0 (xl R) (xr R) (fx R)) : 'cV[R]_(3 + 3)).
Proof. by rewrite /Gbx (base_wrench rigidx) trmx1 mul1mx. Qed.
Lemma hangx (w : 'cV[R]_6) : JLx^T *m w + GGx <> 0.
Proof.
rewrite /JLx /GGx tr_row_mx mul_col_mx add_col_mx => /eqP; rewrite col_mx_eq0 => /andP[/eqP h1].
rewrite tr_row_mx mul_col_mx addr0 col_mx_eq0 trmx1 mul1mx => /andP[/eqP w0 _].
move: h1; rewrite w0 mulmx0 add0r Gbx_wrench => /eqP; rewrite oppr_eq0 => /eqP h.
have := congr1 (fun v => Z (@usubmx R 3 3 1 v)) h; rewrite col_mxKu linear0; have [-> _] := netx; rewrite !xyz => /eqP.
by rewrite oppr_eq0 oner_eq0.
Qed.
(* ... and the moment about the right foot is not zero *)
Lemma momentx tau acc (w : 'cV[R]_(6 + 6)) : contact_motion 1%:M (col_mx JLx JRx) GGx tau acc w -> JPx *m acc = 0 ->
  X (net_moment (xr R) (xl R) (xr R) w) <> 0.
Proof.
move=> [hm _] hp.
have hb : usubmx acc = 0.
  by move: hp; rewrite -{1}[acc]vsubmxK /JPx mul_row_col mul1mx !row_mx0 mul0mx addr0.
have := congr1 usubmx hm.
rewrite mul1mx !linearD /= /actuate /GGx !col_mxKu hb add0r.
rewrite -mul_usub_mx -[col_mx JLx JRx]hsubmxK tr_row_mx col_mxKu (base_wrench rigidx) Gbx_wrench trmx1 mul1mx.
move/eqP; rewrite subr_eq0 => /eqP h.
have e1 := congr1 (@usubmx R 3 3 1) h; have e2 := congr1 (@dsubmx R 3 3 1) h; rewrite !(col_mxKu, col_mxKd) in e1 e2.
have [f1 m1] := netx.
rewrite net_moment_shift e1 e2 f1 m1 !xyz => /eqP.
rewrite !(mul0r, mulr0, subr0, mulrN1, mulN1r, opprK).
by rewrite -opprD oppr_eq0 -mulr2n mulrn_eq0 oner_eq0.
Qed.
End Ex.
