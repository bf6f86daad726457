(* A two-link floating robot: base of mass 2, a link of mass 1 sliding along x. *)
From mathcomp Require Import all_ssreflect all_algebra.
From mathcomp Require Import ring.
From Verif Require Import LinAlg Dyn_Model Dyn_Proofs Geo_Model Geo_Spec Geo_Proofs Inr_Model Inr_Spec Inr_Proofs Kin_Model Kin_Spec Kin_Proofs.
Set Implicit Arguments.
Unset Strict Implicit.
Unset Printing Implicit Defensive.
Import Order.TTheory GRing.Theory Num.Theory.
Local Open Scope ring_scope.

Section Composite.
Variable R : realFieldType.
Variable n : nat.
Local Notation sys := (3 + 3 + n)%N.

(* Jacobian of a link's centre of mass; the mass matrix as a sum over links *)
Definition jc (l : link R sys) : 'M[R]_(3, sys) := jac_top l - skew (rotm l *m com (bd l)) *m jac_bottom l.
Definition composite (s : seq (link R sys)) : 'M[R]_sys :=
  \sum_(l <- s) (mass (bd l) *: ((jc l)^T *m jc l) + (jac_bottom l)^T *m world_inertia l *m jac_bottom l).

Lemma jcE l v : jc l *m v = vcom l v.
Proof. by rewrite /jc mulmxBl /vcom /com_velocity cross_anti -skew_cross mulmxA. Qed.
Lemma composite_ok s : sane s -> mass_matrix s (composite s).
Proof.
have h a b (J : 'M[R]_(a, b)) (W : 'M[R]_a) : W^T = W -> (J^T *m W *m J)^T = J^T *m W *m J.
  by move=> e; rewrite !trmx_mul trmxK e mulmxA.
move=> hs; split.
  rewrite /composite raddf_sum /=; apply: (eq_Forall hs) => l [_ hl].
  by rewrite linearD linearZ /= h ?world_sym // trmx_mul trmxK.
move=> v; rewrite /composite /energy2 mulmx_suml dot_sumr; apply: eq_bigr => l _.
rewrite mulmxDl dotDr -scalemxAl dotZr -!mulmxA dotM trmxK jcE; congr (_ + _).
by rewrite [LHS]dotM trmxK.
Qed.
End Composite.

Local Notation Q := [realFieldType of rat].
Definition v3 (a b c : Q) : 'cV[Q]_3 := vec3 a b c.
Definition jt (d : 'cV[Q]_3) (u : 'cV[Q]_3) : 'M[Q]_(3, 3 + 3 + 1) := row_mx (row_mx 1%:M (- skew d)) u.
Definition jb : 'M[Q]_(3, 3 + 3 + 1) := row_mx (row_mx 0 1%:M) 0.
Definition k0 : link Q (3 + 3 + 1) := Link (Body 2%:R 0 1%:M) 1%:M (v3 0 0 1) (v3 0 0 1) 0 0 0 (jt 0 0) jb.
Definition k1 : link Q (3 + 3 + 1) := Link (Body 1%:R 0 1%:M) 1%:M (v3 1 0 1) (v3 1 0 1) 0 0 0 (jt (v3 1 0 0) (v3 1 0 0)) jb.
Definition ks : seq (link Q (3 + 3 + 1)) := [:: k0; k1].
Definition kq : seq Q := [:: 0; 0; 1; 0; 0; 0; 0; 1]%R.   (* position, quaternion vector, joint, quaternion w *)
Definition kz : comlink Q 1 := ComLink 0 0 0 0 0 0 0 0 0.
Definition kst : kstate Q 1 := KState 8 3%:R [::] [::] [::] 0 0 0 0 0 0 0 0 ks kz.
Definition kenv : env Q 1 := Env ks (composite ks) 0.
Definition kqd : seq Q := [:: 1; 0; 0; 0; 0; 0; 3%:R]%R.
Definition kqdd : seq Q := nseq 7 0.

Lemma rot1 : rotation (1%:M : 'M[Q]_3).
Proof. by split; rewrite ?trmx1 ?mulmx1 ?det1. Qed.
Lemma ks_sane : sane ks.
Proof. by rewrite /sane /= !trmx1; do 2!(split; first by split=> //; apply: rot1). Qed.
Lemma jt_base d u (a w : 'cV[Q]_3) : jt d u *m col_mx (col_mx a w) 0 = a + crossp w d.
Proof. by rewrite /jt !mul_row_col mulmx0 addr0 mul1mx mulNmx skew_cross -cross_anti. Qed.
Lemma jb_base (a w : 'cV[Q]_3) : jb *m col_mx (col_mx a w) 0 = w.
Proof. by rewrite /jb !mul_row_col mulmx0 addr0 mul0mx mul1mx add0r. Qed.
Lemma ks_floating : floating ks (xpos k0) (rotm k0).
Proof.
by rewrite /floating /=; do 2!(split; first by move=> a w; rewrite jt_base jb_base mul1mx; split=> //; congr (_ + crossp _ _); apply: vecP; rewrite /X /Y /Z !mxE ?inordK //=; ring).
Qed.
Lemma dot_ge0 k (a : 'cV[Q]_k) : 0 <= dot a a.
Proof. by rewrite /dot mxE; apply: sumr_ge0 => i _; rewrite mxE -expr2 sqr_ge0. Qed.
Lemma dot_eq0 k (a : 'cV[Q]_k) : dot a a = 0 -> a = 0.
Proof.
rewrite /dot mxE => /eqP; rewrite psumr_eq0 => [|i _]; last by rewrite mxE -expr2 sqr_ge0.
move=> /allP h; apply/matrixP => i j; rewrite ord1 [RHS]mxE.
by have := h i (mem_index_enum i); rewrite mxE -expr2 sqrf_eq0 => /eqP.
Qed.
Lemma ks_energy v : energy2 ks v = 2%:R * dot (jac_top k0 *m v) (jac_top k0 *m v) + dot (jb *m v) (jb *m v) +
  (dot (jac_top k1 *m v) (jac_top k1 *m v) + dot (jb *m v) (jb *m v)).
Proof.
rewrite /energy2 !big_cons big_nil addr0 /vcom /com_velocity /omega /world_inertia /= !mulmx0 !cross0 !addr0.
by rewrite trmx1 !mulmx1 !mul1mx [1%:R * _]mul1r.
Qed.
Lemma ks_pos v : v != 0 -> 0 < energy2 ks v.
Proof.
move=> nz; rewrite ks_energy; set a := dot _ _; set b := dot (jb *m v) _; set c := dot (jac_top k1 *m v) _.
have [a0 b0 c0] : [/\ 0 <= a, 0 <= b & 0 <= c] by rewrite !dot_ge0.
rewrite lt_neqAle; apply/andP; split; last by rewrite !addr_ge0 // mulr_ge0.
apply: contra_neq nz => /esym e.
have [a1 b1 c1] : [/\ a = 0, b = 0 & c = 0].
  move/eqP: e; rewrite paddr_eq0 ?addr_ge0 ?mulr_ge0 // paddr_eq0 ?mulr_ge0 // paddr_eq0 // mulf_eq0 pnatr_eq0 /=.
  by case/andP=> /andP[/eqP -> /eqP ->] /andP[/eqP -> _].
move: (dot_eq0 a1) (dot_eq0 b1) (dot_eq0 c1); rewrite -[v](@vsubmxK Q (3 + 3) 1) -[usubmx v](@vsubmxK Q 3 3).
move: (usubmx (usubmx v)) (dsubmx (usubmx v)) (dsubmx v) => x y z.
rewrite /jb /= /jt !mul_row_col mul0mx add0r mul1mx !mul0mx !addr0 => ex ey.
rewrite ey !mulmx0 addr0 mul1mx in ex *; rewrite ex add0r => ez.
have -> : z = 0.
  apply/matrixP => i j; rewrite !ord1 [RHS]mxE; have := congr1 (fun m : 'cV[Q]_3 => m (inord 0) 0) ez.
  by rewrite !mxE big_ord1 /v3 mxE inordK //= mul1r.
by rewrite !col_mx0.
Qed.
Lemma ks_x : xpos k0 = colv 3 kq.
Proof. by rewrite /= /v3 /colv; apply/matrixP => i j; rewrite !mxE; case: i => [[|[|[|]]]] i //=. Qed.
Lemma ks_mass : k_mass kst = total_mass ks.
Proof. by rewrite /total_mass !big_cons big_nil addr0. Qed.
Lemma jt_all d u (a w : 'cV[Q]_3) (s : Q) : jt d u *m col_mx (col_mx a w) s%:M = a + crossp w d + s *: u.
Proof. by rewrite /jt !mul_row_col mul1mx mulNmx skew_cross -cross_anti mul_mx_scalar. Qed.
Lemma kqdE : colv (3 + 3 + 1) kqd = col_mx (col_mx (v3 1 0 0) 0) 3%:R%:M :> 'cV[Q]_(3 + 3 + 1).
Proof.
apply/matrixP => i j; rewrite !mxE; case: splitP => a ea; rewrite !mxE.
  case: splitP => b eb; rewrite !mxE ea eb; first by case: b {ea eb} => [[|[|[|]]]].
  by case: b {ea eb} => [[|[|[|]]]].
by rewrite ea !ord1.
Qed.
Lemma v3D a b c a' b' c' : v3 a b c + v3 a' b' c' = v3 (a + a') (b + b') (c + c').
Proof. by apply: vecP; rewrite /X /Y /Z !mxE !inordK. Qed.
Lemma v3Z k a b c : k *: v3 a b c = v3 (k * a) (k * b) (k * c).
Proof. by apply: vecP; rewrite /X /Y /Z !mxE !inordK. Qed.
Lemma ks_centre : \sum_(l <- ks) mass (bd l) *: xi l = v3 1 0 3%:R.
Proof.
rewrite !big_cons big_nil /xi.
rewrite [com (bd k0)](_ : _ = 0) // [com (bd k1)](_ : _ = 0) // !mulmx0 !addr0.
rewrite [mass _](_ : _ = 2%:R) // [xpos _](_ : _ = v3 0 0 1) // [mass _](_ : _ = 1%:R) // [xpos _](_ : _ = v3 1 0 1) //.
by rewrite !v3Z v3D; congr v3; apply/eqP.
Qed.
Lemma ks_momentum : total_momentum ks (colv (3 + 3 + 1) kqd) = v3 6%:R 0 0.
Proof.
rewrite /total_momentum kqdE !big_cons big_nil /vcom /com_velocity.
rewrite [com (bd k0)](_ : _ = 0) // [com (bd k1)](_ : _ = 0) // !mulmx0 !cross0 !addr0.
rewrite [jac_top k0](_ : _ = jt 0 0) // [jac_top k1](_ : _ = jt (v3 1 0 0) (v3 1 0 0)) // !jt_all.
rewrite [mass _](_ : _ = 2%:R) // [mass _](_ : _ = 1%:R) //.
rewrite -![crossp 0 _]skew_cross skew0 !mul0mx !addr0 scaler0 addr0 !v3Z v3D v3Z v3D.
by congr v3; apply/eqP.
Qed.
Lemma ks_links : e_links kenv = k0 :: [:: k1]. Proof. by []. Qed.
