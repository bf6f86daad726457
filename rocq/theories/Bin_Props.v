(* C150-C152: storing and comparing matrices *)
From Coq Require Import ZArith Lia SpecFloat String.
From mathcomp Require Import all_ssreflect zify.
From Verif Require Import Bin_Model Bin_Spec.
Set Implicit Arguments.
Unset Strict Implicit.
Unset Printing Implicit Defensive.

Lemma sub_self a : finite a -> dsub a a = d0.
Proof.
case: a => [[]|s|//|s m e _] //; rewrite /dsub /SFsub.
by rewrite Z.sub_diag.
Qed.
Lemma sub_self_inf a : ~~ finite a -> dsub a a = S754_nan.
Proof. by case: a => // -[]. Qed.

Lemma reduce0 o (s : seq double) : (forall i, nth d0 s i = d0) -> reduce o s = d0.
Proof. by move=> h; elim: o => [i|a IHa b IHb] /=; [exact: h|rewrite IHa IHb]. Qed.
Lemma reduce_nan o (s : seq double) i : i \in leaves o -> nth d0 s i = S754_nan -> reduce o s = S754_nan.
Proof.
move=> + h; elim: o => [j|a IHa b IHb] /=; first by rewrite inE => /eqP <-.
rewrite mem_cat => /orP[/IHa ->|/IHb ->] //=; by case: (reduce a s).
Qed.

(* C150: what check_binary says of a matrix that was just written under the same name *)
Theorem C150_self o fs name m : well_sized m -> sums_all o (m_rows m * m_cols m) ->
  check_binary o (write_binary fs name m) name m =
  Some (if has isNaN (m_data m) then HasNaN else if has infinite (m_data m) then Error S754_nan else OK).
Proof.
move=> hs ho; rewrite /check_binary /write_binary String.eqb_refl hs leqnn !eqxx /= take_oversize ?hs //.
set s := [seq _ | p <- zip _ _]; case hn: (has isNaN _) => //.
have es : s = [seq dsub x x | x <- m_data m] by rewrite /s; elim: (m_data m) => //= x l ->.
have ss : size s = (m_rows m * m_cols m)%N by rewrite es size_map.
case hi: (has infinite _).
  have lt : find infinite (m_data m) < size s by rewrite ss -hs -has_find hi.
  have nz : nth d0 [seq dmul x x | x <- s] (find infinite (m_data m)) = S754_nan.
    rewrite (nth_map d0) // es (nth_map d0) -?has_find ?hi //; have := nth_find d0 hi.
    by case: (nth _ _ _) => // -[].
  have -> : norm o s = S754_nan.
    rewrite /norm; case: (s) ss lt nz => // x l ss lt nz; rewrite (reduce_nan _ nz) //.
    by rewrite (perm_mem (ho _)) ?mem_iota ?add0n -ss.
  by [].
have -> : norm o s = d0; last by [].
have z : forall i, nth d0 [seq dmul x x | x <- s] i = d0.
  move=> i; case: (ltnP i (size s)) => li; last by rewrite nth_default // size_map.
  have lm : i < size (m_data m) by rewrite hs -ss.
  rewrite (nth_map d0) // es (nth_map d0) // sub_self //.
  have /negbT hn' := hn; have /negbT hi' := hi; rewrite -!all_predC in hn' hi'.
  have := all_nthP d0 hn' i lm; have := all_nthP d0 hi' i lm; by case: (nth _ _ _).
by rewrite /norm; case: (s) z => // x l z; rewrite reduce0.
Qed.

(* C150 refuted: a matrix with an infinite entry and no NaN is reported as different from itself *)
Theorem C150_infinite_refuted : exists o fs name m, well_sized m /\ sums_all o (m_rows m * m_cols m) /\
  has isNaN (m_data m) = false /\ check_binary o (write_binary fs name m) name m <> Some OK.
Proof.
exists (Leaf 0), (fun=> None), "f"%string, (Mat 1 1 [:: S754_infinity false]); by split=> //; split.
Qed.

(* C150: the other files are left alone *)
Theorem C150_other_files o fs name name' m m' : name <> name' ->
  check_binary o (write_binary fs name m) name' m' = check_binary o fs name' m'.
Proof. by move=> h; rewrite /check_binary /write_binary; case: String.eqb_spec => // e; case: h. Qed.

(* C151 refuted: two finite matrices that differ (2^-548 and 0) are reported as equal; the square of the
   difference is rounded to 0 *)
Theorem C151_tiny_refuted : exists o fs name m m', [/\ well_sized m, well_sized m', sums_all o (m_rows m * m_cols m) &
  all finite (m_data m) && all finite (m_data m')] /\ m <> m' /\ check_binary o (write_binary fs name m) name m' = Some OK.
Proof.
exists (Leaf 0), (fun=> None), "f"%string, (Mat 1 1 [:: S754_finite false 4503599627370496%positive (-600)%Z]), (Mat 1 1 [:: d0]).
by split; [split|split; [|vm_compute]].
Qed.

(* C151, what holds: a finite matrix is reported as similar or different only if it is not the one written *)
Theorem C151_different_partial o fs name m m' v : well_sized m -> well_sized m' -> sums_all o (m_rows m' * m_cols m') ->
  all finite (m_data m') -> check_binary o (write_binary fs name m) name m' = Some v ->
  match v with Similar _ | Error _ => m <> m' | HasNaN => False | OK => m_rows m = m_rows m' /\ m_cols m = m_cols m' end.
Proof.
move=> h h' ho hf e; case: v e => [||d|d] e.
- by move: e; rewrite /check_binary /write_binary String.eqb_refl; case: ifP => // _; rewrite (_ : has _ _ = false);
    [case: ifP => // _; case: ifP|apply: negbTE; rewrite -all_predC; apply: sub_all hf; case].
- by move: e; rewrite /check_binary /write_binary String.eqb_refl; case: ifP => // /andP[/andP[_ /eqP-> /eqP->]].
- move=> em; move: e; rewrite em C150_self //; do 2!case: ifP => //.
- move=> em; move: e; rewrite em C150_self //; case: ifP => // _; case: ifP => // hi _; move: hi.
  by apply/negP; rewrite -all_predC; apply: sub_all hf; case.
Qed.

(* C151: the number reported as similar is below 1e-6: p * 2^-e < 10^-6 (the double 1.0E-6 is the
   one nearest below) *)
Lemma digits_bound p : valid_binary 53 1024 p -> match p with S754_finite _ m _ => (Zpos m < 2 ^ 53)%Z | _ => True end.
Proof.
case: p => // s m e; rewrite /= /bounded /canonical_mantissa /fexp => /andP[/Zeq_bool_eq h _].
suff : (Zpos (digits2_pos m) <= 53)%Z.
  move=> hd; have : (Zpos m < 2 ^ Zpos (digits2_pos m))%Z.
    elim: (m) => [q IH|q IH|] //.
      by rewrite [digits2_pos _]/(Pos.succ (digits2_pos q)) Pos2Z.inj_succ Z.pow_succ_r //; lia.
    by rewrite [digits2_pos _]/(Pos.succ (digits2_pos q)) Pos2Z.inj_succ Z.pow_succ_r //; lia.
  move=> h1; apply: Z.lt_le_trans h1 _; by apply: (Z.pow_le_mono_r 2 _ 53).
rewrite /emin in h; lia.
Qed.
Lemma SFltb_pos p q e f : SFltb (S754_finite false p e) (S754_finite false q f) -> (e < f)%Z \/ e = f /\ (p < q)%positive.
Proof.
rewrite /SFltb /SFcompare; case: (Z.compare_spec e f) => // [->|he] h; last by left.
by right; split=> //; move: h; rewrite -/(Pos.compare p q); case: (Pos.compare_spec p q).
Qed.
Theorem C151_similar_partial o fs name m d : check_binary o fs name m = Some (Similar d) -> valid_binary 53 1024 d ->
  forall s p e, d = S754_finite s p (- Zpos e) -> s = false -> (Zpos p * 10 ^ 6 < 2 ^ Zpos e)%Z.
Proof.
rewrite /check_binary; case: (match fs name with Some _ => _ | None => _ end) => r c l; case: ifP => // _; set num := norm _ _.
case=> E v s p e Ed hs; have {E} : SFltb num d1em6 = true /\ num = d.
  by move: E; case: ifP => // _; case: ifP => // _; case: ifP => // h [<-].
clearbody num; case=> h En; rewrite {num}En in h; subst d s; move: (digits_bound v) h => b.
rewrite /d1em6 => /SFltb_pos; clear v; case=> [he|[he hp]].
  have h1 : (2 ^ 73 <= 2 ^ Zpos e)%Z by apply: Z.pow_le_mono_r; lia.
  apply: Z.lt_le_trans h1; apply: (Z.lt_trans _ (2 ^ 53 * 10 ^ 6)) => //.
  by apply: (proj1 (Z.mul_lt_mono_pos_r _ _ _ _)).
have -> : e = 72%positive by case: he.
apply: (Z.le_lt_trans _ (4722366482869644 * 10 ^ 6)) => //.
apply: Z.mul_le_mono_nonneg_r => //; apply: (proj1 (Z.lt_succ_r _ _)); exact: Pos2Z.pos_lt_pos.
Qed.

(* C151: a difference of 2^k, for every k whose square neither underflows nor overflows, is reported with its size:
   as similar up to 2^-20, as an error from 2^-19 on *)
Definition pow2 (k : Z) : double := S754_finite false 4503599627370496%positive (k - 52)%Z.
Definition num2 (k : Z) : double := norm (Leaf 0) [:: dsub (pow2 k) d0].
Definition double_eqb (a b : double) : bool :=
  match a, b with S754_finite false m e, S754_finite false m' e' => Pos.eqb m m' && Z.eqb e e' | _, _ => false end.
Definition num2_ok (i : nat) : bool :=
  let k := (Z.of_nat i - 537)%Z in double_eqb (num2 k) (pow2 k) && Bool.eqb (SFltb (num2 k) d1em6) (k <=? -20)%Z.
Lemma num2_all : all num2_ok (iota 0 1049).
Proof. by vm_compute. Qed.
Lemma pow2_num k : (-537 <= k <= 511)%Z -> num2 k = pow2 k /\ SFltb (num2 k) d1em6 = (k <=? -20)%Z.
Proof.
move=> hk; have hi : Z.to_nat (k + 537) \in iota 0 1049 by rewrite mem_iota; lia.
have := allP num2_all _ hi; rewrite /num2_ok (_ : (Z.of_nat _ - 537)%Z = k); last by lia.
move: (num2 k) => n /andP[h1 /Bool.eqb_prop h2]; split=> //.
move: h1; rewrite /double_eqb /pow2; case: n {h2} => [?|?||[] p q] // /andP[].
by move=> /Pos.eqb_eq -> /Z.eqb_eq ->.
Qed.
Theorem C151_powers_partial (k : Z) fs name : (-537 <= k <= 511)%Z ->
  check_binary (Leaf 0) (write_binary fs name (Mat 1 1 [:: pow2 k])) name (Mat 1 1 [:: d0]) =
  Some (if (k <=? -20)%Z then Similar (pow2 k) else Error (pow2 k)).
Proof.
move=> hk; have [e h2] := pow2_num hk.
rewrite /check_binary /write_binary String.eqb_refl.
change (Some (if SFeqb (num2 k) d0 then OK else if SFltb (num2 k) d1em6 then Similar (num2 k) else Error (num2 k)) =
  Some (if (k <=? -20)%Z then Similar (pow2 k) else Error (pow2 k))).
by rewrite h2 e; case: (k <=? -20)%Z.
Qed.

(* a difference of 2^-30 is similar, and its size is a double below 1e-6; one of 2^-10 is an error *)
Example C151_powers_ex (fs : files) name :
  check_binary (Leaf 0) (write_binary fs name (Mat 1 1 [:: pow2 (-30)])) name (Mat 1 1 [:: d0]) = Some (Similar (pow2 (-30))) /\
  valid_binary 53 1024 (pow2 (-30)) /\
  check_binary (Leaf 0) (write_binary fs name (Mat 1 1 [:: pow2 (-10)])) name (Mat 1 1 [:: d0]) = Some (Error (pow2 (-10))).
Proof.
split; [|split] => //.
- by rewrite C151_powers_partial //; vm_compute.
- by rewrite C151_powers_partial //; vm_compute.
Qed.

(* C152 refuted: a missing file, or one of another size, is not reported: the difference of two matrices of
   different sizes is undefined *)
Theorem C152_missing_refuted o (fs : files) name m : fs name = None -> 0 < m_rows m * m_cols m -> check_binary o fs name m = None.
Proof.
rewrite /check_binary => -> h /=; case: m h => -[|r] [|c] d //=.
Qed.
Theorem C152_other_size_refuted o fs name m m' : (m_rows m, m_cols m) <> (m_rows m', m_cols m') ->
  check_binary o (write_binary fs name m) name m' = None.
Proof.
rewrite /check_binary /write_binary String.eqb_refl => h; case: ifP => // /andP[/andP[_ /eqP e1] /eqP e2].
by case: h; rewrite e1 e2.
Qed.

(* Examples *)
Definition mex : matrix := Mat 2 2 [:: S754_finite false 1 0; S754_zero true; S754_finite true 3 (-1); S754_finite false 7 40].
Example C150_ex : well_sized mex /\ sums_all (Node (Node (Leaf 0) (Leaf 2)) (Node (Leaf 1) (Leaf 3))) (m_rows mex * m_cols mex) /\
  check_binary (Node (Node (Leaf 0) (Leaf 2)) (Node (Leaf 1) (Leaf 3))) (write_binary (fun=> None) "A"%string mex) "A"%string mex = Some OK.
Proof. by []. Qed.
Example C151_ex : check_binary (Node (Leaf 0) (Leaf 1)) (write_binary (fun=> None) "A"%string (Mat 2 1 [:: S754_finite false 1 0; d0])) "A"%string
  (Mat 2 1 [:: S754_finite false 1 0; S754_finite false 4503599627370496%positive (-82)%Z]) =
  Some (Similar (S754_finite false 4503599627370496%positive (-82)%Z)).
Proof. by vm_compute. Qed.
(* a difference of (3, 4) is an error of 5; 2^-20 < 1e-6 is similar, 2^-19 is not *)
Definition dbl (m : positive) (e : Z) : double := S754_finite false m e.
Example C151_error_ex : check_binary (Node (Leaf 0) (Leaf 1)) (write_binary (fun=> None) "A"%string (Mat 2 1 [:: d0; dbl 5629499534213120 (-50)])) "A"%string
  (Mat 2 1 [:: dbl 6755399441055744 (-51); dbl 4503599627370496 (-52)]) = Some (Error (dbl 5629499534213120 (-50))).
Proof. by vm_compute. Qed.
Example C151_scale_ex : check_binary (Leaf 0) (write_binary (fun=> None) "A"%string (Mat 1 1 [:: dbl 4503599627370496 (-72)])) "A"%string (Mat 1 1 [:: d0])
    = Some (Similar (dbl 4503599627370496 (-72))) /\
  check_binary (Leaf 0) (write_binary (fun=> None) "A"%string (Mat 1 1 [:: dbl 4503599627370496 (-71)])) "A"%string (Mat 1 1 [:: d0])
    = Some (Error (dbl 4503599627370496 (-71))).
Proof. by vm_compute. Qed.
Example C152_ex : 0 < m_rows mex * m_cols mex /\ (m_rows mex, m_cols mex) <> (2, 1).
Proof. by []. Qed.

Print Assumptions C150_self.
Print Assumptions C150_infinite_refuted.
Print Assumptions C150_other_files.
Print Assumptions C151_tiny_refuted.
Print Assumptions C151_different_partial.
Print Assumptions C151_similar_partial.
Print Assumptions C151_powers_partial.
Print Assumptions C152_missing_refuted.
Print Assumptions C152_other_size_refuted.
