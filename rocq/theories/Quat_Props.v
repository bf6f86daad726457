(* C162, C163: orientation as a quaternion *)
From mathcomp Require Import all_ssreflect all_algebra.
From mathcomp.algebra_tactics Require Import ring.
From Verif Require Import LinAlg Geo_Model Geo_Spec Geo_Proofs Quat_Model Quat_Spec Quat_Proofs.
Set Implicit Arguments.
Unset Strict Implicit.
Unset Printing Implicit Defensive.
Import Order.TTheory GRing.Theory Num.Theory.
Local Open Scope ring_scope.

Section C.
Variable R : rcfType.

(* C162: for every rotation the result is a unit quaternion that turns every vector as the matrix does *)
Theorem C162_represents (Q : 'M[R]_3) : rotation Q -> unit (GetQuat Q) /\ represents (GetQuat Q) Q.
Proof. by move=> /GetQuat_prods h; split; [exact: prods_unit h|exact: prods_rep h]. Qed.
(* C162: and every other such quaternion is this one or its negative *)
Theorem C162_only (Q : 'M[R]_3) p : rotation Q -> unit p -> represents p Q -> p = GetQuat Q \/ p = qneg (GetQuat Q).
Proof. by move=> /GetQuat_prods h u r; apply: prods_pm h (rep_prods u r). Qed.

(* C163: below 120 degrees the representative with positive w is chosen *)
Theorem C163_positive_partial (Q : 'M[R]_3) : 0 < \tr Q -> 0 < q_w (GetQuat Q).
Proof.
rewrite /mxtrace sum3 /GetQuat /cf => t; rewrite t /= mulr_gt0 ?invr_gt0 ?ltr0n // sqrtr_gt0.
by rewrite addr_gt0 // ltr01.
Qed.

(* a turn about the vertical axis *)
Lemma cfZ (c s : R) : [/\ [/\ cf (rotZ c s) 0 0 = c, cf (rotZ c s) 0 1 = - s & cf (rotZ c s) 0 2 = 0],
  [/\ cf (rotZ c s) 1 0 = s, cf (rotZ c s) 1 1 = c & cf (rotZ c s) 1 2 = 0] &
  [/\ cf (rotZ c s) 2 0 = 0, cf (rotZ c s) 2 1 = 0 & cf (rotZ c s) 2 2 = 1]].
Proof. by rewrite /cf !mxE !inordK. Qed.
Lemma half (s t : R) : (s - - s) * (2%:R^-1 / t) = s / t.
Proof. by rewrite mulrA; congr (_ / _); field. Qed.
Lemma lowZ (c s : R) : c + c + 1 <= 0 -> GetQuat (rotZ c s) =
  Quat (s / Num.sqrt (2%:R - (c + c))) 0 0 (2%:R^-1 * Num.sqrt (2%:R - (c + c))).
Proof.
have [[c00 c01 c02] [c10 c11 c12] [c20 c21 c22]] := cfZ c s.
move=> h; have c1 : c < 1.
  rewrite ltNge; apply/negP => c1; move: h; apply/negP; rewrite -ltNge.
  by rewrite !addr_gt0 ?ltr01 // (lt_le_trans ltr01 c1).
rewrite /GetQuat /argmax_diag !c00 !c11 !c22 ltNge h /= ltxx /= !c00 c1 /=.
rewrite -?[((2 + 1) %% 3)%N]/(0%N) -?[((0 + 1) %% 3)%N]/(1%N) /= !c00 !c01 !c02 !c10 !c11 !c12 !c20 !c21 !c22.
have -> : 1 - c - c + 1 = 2%:R - (c + c) by ring.
by rewrite half addr0 mul0r.
Qed.
Lemma highZ (c s : R) : 0 < c + c + 1 -> GetQuat (rotZ c s) =
  Quat (2%:R^-1 * Num.sqrt (c + c + 1 + 1)) 0 0 (s / Num.sqrt (c + c + 1 + 1)).
Proof.
have [[c00 c01 c02] [c10 c11 c12] [c20 c21 c22]] := cfZ c s.
move=> h; rewrite /GetQuat !c00 !c11 !c22 h /= !c01 !c02 !c10 !c12 !c20 !c21 subrr mul0r.
by rewrite half.
Qed.

(* C163: w is negative for a turn of -143 degrees *)
Theorem C163_negative_refuted : exists Q : 'M[R]_3, rotation Q /\ q_w (GetQuat Q) < 0.
Proof.
exists (rotZ (- (4%:R / 5%:R)) (- (3%:R / 5%:R))); split; first by apply: rotZ_rotation; field.
have e : - (4%:R / 5%:R) + - (4%:R / 5%:R) + 1 = - (3%:R / 5%:R) :> R by field.
have p35 : 0 < 3%:R / 5%:R :> R by rewrite divr_gt0 ?ltr0n.
rewrite lowZ /=; last by rewrite e oppr_le0 ltW.
rewrite pmulr_llt0 ?oppr_lt0 // invr_gt0 sqrtr_gt0 subr_gt0.
by rewrite -opprD ltr_oppl (lt_trans (y := 0)) ?oppr_lt0 ?ltr0n // addr_gt0 // divr_gt0 ?ltr0n.
Qed.

(* C163: arbitrarily close orientations, both within 120 degrees of the reference, get quaternions of opposite sign *)
Theorem C163_jump_refuted (e : R) : 0 < e -> exists A B : 'M[R]_3,
  [/\ rotation A /\ rotation B, forall i j, `|A i j - B i j| < e, 0 <= \tr A /\ 0 <= \tr B &
      qdot (GetQuat A) (GetQuat B) < 0].
Proof.
move=> e0; pose d := Num.min (e / 4%:R) (2%:R^-1 : R).
have d0 : 0 < d by rewrite lt_minr invr_gt0 ltr0n divr_gt0 ?ltr0n.
have de : d <= e / 4%:R by rewrite le_minl lexx.
have d2 : d <= 2%:R^-1 by rewrite le_minl lexx orbT.
have h2 : 0 < 2%:R^-1 :> R by rewrite invr_gt0 ltr0n.
pose c : R := - 2%:R^-1; pose c' := c + d.
pose s := Num.sqrt (1 - c ^+ 2); pose s' := Num.sqrt (1 - c' ^+ 2).
have k : 1 - c ^+ 2 = 3%:R / 4%:R by rewrite /c; field.
have k' : 1 - c' ^+ 2 = 3%:R / 4%:R + d * (1 - d) by rewrite /c' /c; field.
have d1 : 0 <= 1 - d by rewrite subr_ge0 (le_trans d2) // invf_le1 ?ltr0n // ler1n.
have dd : 0 <= d * (1 - d) by rewrite mulr_ge0 // ltW.
have p34 : 0 < 3%:R / 4%:R :> R by rewrite divr_gt0 ?ltr0n.
have sk : s ^+ 2 = 3%:R / 4%:R by rewrite sqr_sqrtr k // ltW.
have sk' : s' ^+ 2 = 3%:R / 4%:R + d * (1 - d) by rewrite sqr_sqrtr k' // addr_ge0 // ltW.
have s2 : 2%:R^-1 <= s.
  rewrite -(ler_pexpn2r (n := 2)) ?nnegrE ?sqrtr_ge0 ?(ltW h2) // sk -subr_ge0.
  by rewrite (_ : _ - _ = 2%:R^-1) ?(ltW h2) //; field.
have ss : s <= s'.
  by rewrite -(ler_pexpn2r (n := 2)) ?nnegrE ?sqrtr_ge0 // sk sk' ler_addl.
have s0 : 0 < s by apply: lt_le_trans s2.
have s0' : 0 < s' by apply: lt_le_trans ss.
have sum1 : 1 <= s' + s.
  by rewrite -[X in X <= _](_ : 2%:R^-1 + 2%:R^-1 = 1 :> R) ?ler_add ?(le_trans s2) //; field.
have sd : s' - s <= d.
  have m : (s' - s) * (s' + s) = d * (1 - d) by rewrite -subr_sqr sk sk' addrC addKr.
  apply: le_trans (_ : (s' - s) * (s' + s) <= _); first by rewrite ler_pemulr // subr_ge0.
  by rewrite m ler_pimulr ?(ltW d0) // ler_subl_addr ler_addl ltW.
have e4 : d < e.
  by apply: le_lt_trans de _; rewrite ltr_pdivr_mulr ?ltr0n // ltr_pmulr // ltr1n.
exists (rotZ c' (- s')), (rotZ c (- s)).
have r : rotation (rotZ c' (- s')) /\ rotation (rotZ c (- s)).
  split; apply: rotZ_rotation; rewrite -!expr2.
    by rewrite [(- s') ^+ 2]sqrrN sk' /c' /c; field.
  by rewrite [(- s) ^+ 2]sqrrN sk /c; field.
have tz a b : \tr (rotZ a b : 'M[R]_3) = a + a + 1 by rewrite /mxtrace sum3 !mxE !inordK.
have t0 : c + c + 1 = 0 by rewrite /c; field.
have t0' : 0 < c' + c' + 1 by rewrite (_ : _ + 1 = d + d) ?addr_gt0 // /c' /c; field.
split=> //.
- have cd : `|c' - c| < e by rewrite /c' addrAC subrr add0r gtr0_norm.
  have sE : `|s' - s| < e by rewrite ger0_norm ?subr_ge0 //; apply: le_lt_trans sd e4.
  apply: ordP3; apply: ordP3; rewrite !mxE !inordK //= ?subrr ?normr0 //.
  + by rewrite !opprK.
  + by rewrite -opprD normrN.
- by rewrite !tz t0 lexx ltW.
- rewrite (highZ _ t0') lowZ ?t0 // /qdot /= !mul0r !addr0.
  set u := Num.sqrt _; set v := Num.sqrt _.
  have u0 : 0 < u by rewrite sqrtr_gt0 addr_gt0 // ltr01.
  have v0 : 0 < v by rewrite sqrtr_gt0 subr_gt0 -[c + c](addrK 1) t0 sub0r (lt_trans (y := 0)) ?oppr_lt0 ?ltr01 ?ltr0n.
  have pu : 0 < 2%:R^-1 * u by rewrite mulr_gt0.
  have pv : 0 < 2%:R^-1 * v by rewrite mulr_gt0.
  have su : 0 < s' / u by rewrite divr_gt0.
  have sv : 0 < s / v by rewrite divr_gt0.
  by rewrite !mulNr mulrN -opprD oppr_lt0 addr_gt0 // mulr_gt0.
Qed.

(* Examples *)
Example C162_represents_ex : rotation (rotZ (3%:R / 5%:R : R) (4%:R / 5%:R)).
Proof. by apply: rotZ_rotation; field. Qed.
Example C162_only_ex : let p := Quat (- 1) 0 0 (0 : R) in [/\ rotation (1%:M : 'M[R]_3), unit p & represents p 1%:M].
Proof.
split; first by split; rewrite ?trmx1 ?mul1mx ?det1.
  by rewrite /unit /=; ring.
by move=> v; rewrite mul1mx; apply: quatP => /=; ring.
Qed.
Example C163_positive_ex : 0 < \tr (rotZ (3%:R / 5%:R : R) (4%:R / 5%:R)).
Proof. by rewrite /mxtrace sum3 !mxE !inordK //= !addr_gt0 ?ltr01 ?divr_gt0 ?ltr0n. Qed.
End C.

Print Assumptions C162_represents.
Print Assumptions C162_only.
Print Assumptions C163_positive_partial.
Print Assumptions C163_negative_refuted.
Print Assumptions C163_jump_refuted.
