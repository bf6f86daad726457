(* C54, C82, C83, C84: the reduced model *)
From mathcomp Require Import all_ssreflect all_algebra zify.
From Verif Require Import LinAlg Dyn_Model Dyn_Spec Dyn_Proofs Geo_Model Geo_Proofs Geo_Spec Inr_Model Inr_Spec Inr_Proofs Inr_Props.
From Verif Require Import RedM_Model RedM_Spec RedM_Proofs.
Set Implicit Arguments.
Unset Strict Implicit.
Unset Printing Implicit Defensive.
Import GRing.Theory Num.Theory.
Local Open Scope ring_scope.

Lemma assoc5 (R : realFieldType) m N K (La : 'M[R]_m) (X : 'M[R]_(m, N)) (JR : 'M[R]_(N, K)) (Ai : 'M[R]_K) (Ri AR : 'M[R]_N)
  (G : 'cV[R]_K) : Ri *m AR = 1%:M -> La *m X *m Ri *m (AR *m JR *m Ai *m G) = La *m (X *m JR) *m Ai *m G.
Proof. by move=> x; rewrite !mulmxA -(mulmxA (La *m X)) x mulmx1. Qed.

Section Props.
Variable R : realFieldType.
Variables c n : nat.
Variables (vcj : 'I_(6 + c) -> 'I_(6 + c + n)) (ncj : 'I_n -> 'I_(6 + c + n)).
Variables (A B : 'M[R]_(6 + c + n)) (SI : 'M[R]_(3 + 3)) (Q : 'M[R]_3) (G : 'cV[R]_(6 + c + n)) (J : 'M[R]_(6, n)).

(* C54, for contact chains whose coordinates come first: the reduced inertia is the projection of the full one by
   J_R, positive definite; the block-diagonal J_R_INV_T is the dynamically consistent inverse of J_R; the inertia of
   base and contact chains themselves is unchanged *)
Theorem C54_projection_partial : leading vcj ncj -> posdef A -> carried_by_base A B -> rotation Q ->
  J_I_nc ncj B SI Q = Some J -> row_free J ->
  exists rd, [/\ ReducedDynamics vcj ncj (invmx A) B SI Q G = Some rd,
    rd_ARinv rd = rd_JR rd *m invmx A *m (rd_JR rd)^T /\ posdef (rd_ARinv rd),
    rd_AR rd *m rd_ARinv rd = 1%:M /\ ulsubmx (rd_AR rd) = ulsubmx A,
    rd_JRinvT rd = rd_AR rd *m rd_JR rd *m invmx A &
    rd_JRinvT rd *m (rd_JR rd)^T = 1%:M /\ rd_GR rd = rd_JRinvT rd *m G].
Proof.
move=> L hA hB hQ eJ hJ; have [M hM] := coupling L hB hQ eJ.
have [rd [h0 [h1 h2 h3] h4 [h5 h6] [h7 h8]]] := red_facts L G hA hB hQ eJ hJ.
have pd := AR_posdef hA hJ.
exists rd; split=> //.
- by rewrite h2 h3.
- split; first by rewrite h3 h4 mulVmx // posdef_unit.
  by rewrite h4 /ulsubmx (AR_top hA hJ hM) row_mxKl.
- by rewrite h2.
split=> //; rewrite h5 h2 h4 -!mulmxA; apply: mulVmx.
by rewrite mulmxA posdef_unit.
Qed.

Variable m : nat.
Variable J_C : 'M[R]_(m, 6 + c + n).

(* C82, when the number of contact coordinates is between c and c + 6: the reduced contact matrices are those of the
   reduced system, with the contact inertia and the gravity contact force of the full one *)
Theorem C82_contact_partial rd : leading vcj ncj -> posdef A -> carried_by_base A B -> rotation Q ->
  J_I_nc ncj B SI Q = Some J -> row_free J -> ReducedDynamics vcj ncj (invmx A) B SI Q G = Some rd ->
  contacts_on_chains J_C -> row_free J_C -> (c <= m <= c + 6)%N ->
  exists cs rb, [/\ ReducedCalcContactConstraint (invmx A) J_C rd = Some cs,
    UpdateRobot (n := c + 6) (rd_AR rd) (J_CR J_C) (rd_GR rd) = Some rb, rb_cs rb = cs,
    cs_lambda cs = invmx (J_C *m invmx A *m J_C^T) &
    cs_JCinvT cs *m rd_GR rd = invmx (J_C *m invmx A *m J_C^T) *m J_C *m invmx A *m G].
Proof.
move=> L hA hB hQ eJ hJ erd hC hCf hm.
have [rd' [h0 [h1 h2 h3] h4 [h5 h6] [h7 h8]]] := red_facts L G hA hB hQ eJ hJ.
have ? : rd' = rd by move: erd; rewrite h0 => -[].
subst rd'.
have pAR : posdef (rd_AR rd) by rewrite h4; apply: posdef_inv; apply: (AR_posdef hA hJ).
have fC := JCR_free J hC hCf.
have [rb [u1 u2 u3 u4 [u5 u6 u7 u8 [u9 u10]]]] := UpdateRobotE (n := c + 6) (rd_GR rd) pAR fC.
have iA : invmx (rd_AR rd) = rd_ARinv rd by rewrite h4 h3 invmxK.
exists (rb_cs rb), rb.
have le := lambda_eq A J hC.
have la : cs_lambda (rb_cs rb) = invmx (J_C *m invmx A *m J_C^T) by rewrite u5 iA h3 le.
split=> //.
- rewrite (red_contact hJ hC h1 h3 hm).
  move: u1; rewrite /UpdateRobot inverseE ?posdef_unit // iA; case: CalculateContactConstraint => // cs.
  by case: CalculateGravityCompensation => tg PC [<-].
have x : rd_ARinv rd *m rd_AR rd = 1%:M by rewrite h4 h3 (mulmxV (AR_unit hA hJ)).
rewrite u6 la iA h7 h5; apply: etrans (assoc5 _ _ _ _ _ x) _.
by rewrite -(JC_split J hC).
Qed.

(* C83: the gravity compensation torque of the reduced model holds the full robot still *)
Theorem C83_gravity_partial rd cs tg tgR PC a f : leading vcj ncj -> posdef A -> carried_by_base A B -> rotation Q ->
  J_I_nc ncj B SI Q = Some J -> row_free J -> ReducedDynamics vcj ncj (invmx A) B SI Q G = Some rd ->
  contacts_on_chains J_C -> row_free J_C -> (c <= m <= c + 6)%N -> contacts_fix_base (n := c + n) J_C ->
  ReducedCalcContactConstraint (invmx A) J_C rd = Some cs ->
  ReducedCalcGravCompensation G rd cs = Some (tg, tgR, PC) ->
  contact_motion (n := c + n) A J_C G tg a f -> a = 0.
Proof.
move=> L hA hB hQ eJ hJ erd hC hCf hm hb ecs eg hmo.
have [cs' [rb [v1 v2 v3 v4 v5]]] := C82_contact_partial L hA hB hQ eJ hJ erd hC hCf hm.
have ecs' : rb_cs rb = cs by rewrite v3; move: v1; rewrite ecs => -[].
have [rd' [h0 [h1 h2 h3] h4 [h5 h6] [h7 h8]]] := red_facts L G hA hB hQ eJ hJ.
have ? : rd' = rd by move: erd; rewrite h0 => -[].
subst rd'.
apply: (red_still hA hJ hC h4 h6 h7 hCf hb v2 _ hmo).
have pAR : posdef (rd_AR rd) by rewrite h4; apply: posdef_inv; apply: (AR_posdef hA hJ).
have [_ -> _ _] := rbE pAR (JCR_free J hC hCf) v2.
have iA : invmx (rd_AR rd) = rd_ARinv rd by rewrite h4 h3 invmxK.
by move: eg; rewrite /ReducedCalcGravCompensation /tau_g iA ecs'; case: ifP => // _ [<- _ _].
Qed.

(* C84: distributed over the joints, torques of the reduced model give the full robot the motion the reduced model
   predicts, and the same contact forces, whatever the null-space torque of the other joints *)
Theorem C84_distribution_partial rd tR tN a f : leading vcj ncj -> posdef A -> carried_by_base A B -> rotation Q ->
  J_I_nc ncj B SI Q = Some J -> row_free J -> ReducedDynamics vcj ncj (invmx A) B SI Q G = Some rd ->
  contacts_on_chains J_C ->
  contact_motion (n := c + n) A J_C G (distribute rd tR tN) a f ->
  contact_motion (n := c + 6) (rd_AR rd) (J_CR J_C) (rd_GR rd) tR (rd_JR rd *m (a : 'cV_(6 + c + n))) f.
Proof.
move=> L hA hB hQ eJ hJ erd hC hmo.
have [rd' [h0 [h1 h2 h3] h4 [h5 h6] [h7 h8]]] := red_facts L G hA hB hQ eJ hJ.
have ? : rd' = rd by move: erd; rewrite h0 => -[].
subst rd'; rewrite h2; exact: (red_motion hA hJ hC h1 h4 h5 h6 h7 h8 hmo).
Qed.
End Props.

(* A concrete robot: the base, c contact joints and six others that carry a body of unit mass and inertia *)
Section Ex.
Variable R : realFieldType.
Variable c : nat.
Definition exK : 'M[R]_(6 + c, 6) := col_mx 1%:M 0.
Definition exA : 'M[R]_(6 + c + 6) := block_mx 1%:M exK exK^T (1%:M + 1%:M).
Definition exB : body R := Body 1 0 1%:M.
Definition exSI := GetSpatialInertiaMatrix exB false.
Definition exv : 'I_(6 + c) -> 'I_(6 + c + 6) := lshift 6.
Definition exn : 'I_6 -> 'I_(6 + c + 6) := @rshift (6 + c) 6.

Lemma exA_posdef : posdef exA.
Proof.
pose U : 'M[R]_(6 + c + 6) := block_mx 1%:M exK 0 1%:M.
have e : exA = U^T *m U.
  rewrite /U tr_block_mx !trmx1 trmx0 mulmx_block ?mul1mx ?mulmx1 ?mul0mx ?mulmx0 ?addr0.
  by rewrite /exA {3 4}/exK tr_col_mx trmx1 trmx0 mul_row_col mulmx1 mul0mx addr0.
split; first by rewrite /symmetric e trmx_mul trmxK.
move=> x nx; have -> : quad exA x = dot (U *m x) (U *m x) by rewrite /quad /dot e trmx_mul !mulmxA.
apply: dot_gt0; apply: contra nx => /eqP; rewrite /U -[x]vsubmxK mul_block_col !mul1mx mul0mx add0r => h.
have z := col_mx0 R (6 + c) 6 1; rewrite -z in h; case/eq_col_mx: h => h1 h2.
by move: h1; rewrite h2 mulmx0 addr0 => ->; rewrite col_mx0.
Qed.
Lemma ex_lead : leading exv exn. Proof. by []. Qed.
Lemma ex_carried : carried_by_base exA exA.
Proof.
by split=> // i j; rewrite /exA block_mxEur /exK col_mxEd mxE.
Qed.
Lemma ex_rot1 : rotation (1%:M : 'M[R]_3).
Proof. by split; [rewrite trmx1 mulmx1|rewrite det1]. Qed.
Lemma ex_J : J_I_nc exn exA exSI 1%:M = Some 1%:M.
Proof.
rewrite /J_I_nc /exSI C43_segment ?oner_neq0 //=.
have z : skew (0 : 'cV[R]_3) = 0 by rewrite skew0.
have one : InertiaMatrix (1%:M : 'M[R]_3) 1 = 1%:M by rewrite /InertiaMatrix -scalar_mx_block.
rewrite z trmx0 one inverseE ?unitmx1 //= invmx1 mul1mx -scalar_mx_block mul1mx trmx1 mul1mx vsubmxK; congr Some.
apply/matrixP => i j; rewrite mxE /exA /exn /base_row block_mxEur /exK col_mxEu; by rewrite !mxE.
Qed.
Lemma ex_free : row_free (1%:M : 'M[R]_6). Proof. by rewrite row_free_unit unitmx1. Qed.
End Ex.

Example C54_ex (R : realFieldType) (c : nat) : [/\ leading (@exv c) (@exn c), posdef (exA R c), carried_by_base (exA R c) (exA R c),
  rotation (1%:M : 'M[R]_3) & J_I_nc (@exn c) (exA R c) (exSI R) 1%:M = Some 1%:M /\ row_free (1%:M : 'M[R]_6)].
Proof.
by split; [exact: ex_lead|exact: exA_posdef|exact: ex_carried|exact: ex_rot1|split; [exact: ex_J|exact: ex_free]].
Qed.
(* with six contact joints and a contact with six coordinates on the base *)
Definition exC (R : realFieldType) : 'M[R]_(6, 6 + 6 + 6) := row_mx (row_mx 1%:M 0) 0.
Example C83_ex (R : realFieldType) : [/\ contacts_on_chains (exC R), row_free (exC R), (6 <= 6 <= 6 + 6)%N &
  contacts_fix_base (n := 6 + 6) (exC R)].
Proof.
split=> //; first by rewrite /contacts_on_chains row_mxKr.
- apply/row_freeP; exists (col_mx (col_mx 1%:M 0) 0).
  by rewrite mul_row_col mulmx0 addr0 mul_row_col mulmx0 addr0 mulmx1.
rewrite /contacts_fix_base.
have -> : lsubmx (exC R : 'M_(6, 6 + (6 + 6))) = 1%:M; last by rewrite mxrank1.
apply/matrixP => i j; rewrite mxE /exC.
have -> : @lshift 6 (6 + 6) j = @lshift (6 + 6) 6 (lshift 6 j) by apply: val_inj.
apply: etrans (@row_mxEl _ _ (6 + 6) 6 _ _ i (lshift 6 j)) _.
by rewrite row_mxEl.
Qed.

(* C54 refuted when the contact joints do not come first: six arm joints before one leg joint, A the identity *)
Definition late_v : 'I_(6 + 1) -> 'I_(6 + 1 + 6) := fun i => if (i < 6)%N then inord i else inord 12.
Definition late_n : 'I_6 -> 'I_(6 + 1 + 6) := fun j => inord (6 + j).
Theorem C54_order_refuted : exists (R : realFieldType) (A_inv : 'M[R]_(6 + 1 + 6)) (J : 'M[R]_(6, 6)),
  [/\ posdef A_inv, row_free J, codom late_v ++ codom late_n =i predT,
      A_R_inv late_v late_n A_inv J <> J_R late_v late_n J *m A_inv *m (J_R late_v late_n J)^T &
      A_R_inv late_v late_n A_inv J \notin unitmx].
Proof.
exists [realFieldType of rat], 1%:M, 1%:M.
pose F := [realFieldType of rat].
have v6 (i : 'I_(6 + 1)) : (i < 6)%N -> val (late_v i) = i.
  by move=> h; rewrite /late_v h /= inordK //; have := ltn_ord i; lia.
have v12 (i : 'I_(6 + 1)) : (6 <= i)%N -> val (late_v i) = 12%N by move=> h; rewrite /late_v ltnNge h /= inordK.
have nv (j : 'I_6) : val (late_n j) = (6 + j)%N by rewrite /late_n /= inordK //; have := ltn_ord j; lia.
have n_inj : injective late_n.
  by move=> i j /(congr1 val); rewrite !nv => h; apply: val_inj; rewrite /=; lia.
have trE (i : 'I_(6 + 1)) (j : 'I_6) : (rsubmx (\matrix_(i < 6 + 1, k < 6 + 1 + 6) (1%:M : 'M[F]_(6 + 1 + 6)) (late_v i) k) *m (1%:M)^T) i j
    = ((6 <= i)%N && (val j == 5%N))%:R.
  rewrite trmx1 mulmx1 !mxE -val_eqE [val (rshift _ _)]/=.
  case: (leqP 6 i) => h /=; first by rewrite (v12 _ h); congr (_%:R); have := ltn_ord j; lia.
  by rewrite (v6 _ h); congr (_%:R); lia.
have JbE (a : 'I_6) (k : 'I_(6 + 1 + 6)) : dsubmx (J_R late_v late_n (1%:M : 'M[F]_6)) a k = (late_n a == k)%:R.
  rewrite /J_R col_mxKd mxE; case: pickP => [j /eqP <-|/(_ a) /negbT /negbTE ->] //.
  by rewrite mxE (inj_eq n_inj).
have JbJb : dsubmx (J_R late_v late_n (1%:M : 'M[F]_6)) *m (1%:M) *m (dsubmx (J_R late_v late_n (1%:M : 'M[F]_6)))^T = 1%:M.
  rewrite mulmx1; apply/matrixP => a b; rewrite mxE (bigD1 (late_n a)) //= big1 => [|k nk]; last first.
    by rewrite JbE eq_sym (negbTE nk) mul0r.
  by rewrite JbE eqxx mul1r addr0 mxE JbE (inj_eq n_inj) mxE eq_sym.
pose i6 : 'I_(6 + 1) := inord 6; pose j5 : 'I_6 := inord 5.
have i6E : val i6 = 6%N by rewrite /i6 /= inordK.
have j5E : val j5 = 5%N by rewrite /j5 /= inordK.
have M612 : A_R_inv late_v late_n (1%:M : 'M[F]_(6 + 1 + 6)) 1%:M (lshift 6 i6) (rshift (6 + 1) j5) = 1.
  by rewrite /A_R_inv block_mxEur trE i6E j5E.
split.
- split; first by rewrite /symmetric trmx1.
  by move=> x nx; rewrite /quad mulmx1 -/(dot x x) dot_gt0.
- by rewrite row_free_unit unitmx1.
- move=> k; rewrite mem_cat !inE; apply/orP; case: (ltnP k 6) => h1.
    left; apply/codomP; exists (inord k); apply: val_inj; rewrite v6 inordK //; lia.
  case: (ltnP k 12) => h2.
    by right; apply/codomP; exists (inord (k - 6)); apply: val_inj; rewrite nv inordK /=; lia.
  left; apply/codomP; exists (inord 6); apply: val_inj; rewrite v12; last by rewrite inordK.
  by have := ltn_ord k; move=> ? /=; lia.
- move=> /(congr1 (fun Y : 'M[F]_(6 + 1 + 6) => Y (lshift 6 i6) (rshift (6 + 1) j5))); rewrite M612 mulmx1 mxE big1.
    by move/eqP; rewrite oner_eq0.
  move=> k _; rewrite [X in _ * X]mxE.
  have -> : J_R late_v late_n 1%:M (rshift (6 + 1) j5) k = (late_n j5 == k)%:R :> F by rewrite -JbE [RHS]mxE.
  case: eqP => [e|]; last by rewrite mulr0.
  have -> : J_R late_v late_n 1%:M (lshift 6 i6) k = 0 :> F; last by rewrite mul0r.
  rewrite /J_R col_mxEu mxE -e -!val_eqE /= !nv v12 i6E ?j5E //.
set M := A_R_inv _ _ _ _; apply/negP => uM.
have eM : M *m delta_mx (lshift 6 i6) 0 = M *m delta_mx (rshift (6 + 1) j5) 0 :> 'cV[F]_(6 + 1 + 6).
  rewrite -!colE; apply/colP => k; rewrite [LHS]mxE [RHS]mxE /M /A_R_inv; case: (split_ordP k) => k' ->.
    rewrite block_mxEul block_mxEur trE j5E eqxx andbT [LHS]mxE [LHS]mxE -val_eqE (v12 i6) ?i6E //.
    by case: (leqP 6 k') => h /=; [rewrite v12|rewrite v6 // (_ : val k' == 12%N = false) //; move: h; rewrite /=; lia].
  rewrite block_mxEdl block_mxEdr JbJb [LHS]mxE trE i6E /= [RHS]mxE -val_eqE j5E //.
have := congr1 (fun Y : 'cV[F]_(6 + 1 + 6) => (invmx M *m Y) (lshift 6 i6) 0) eM.
by rewrite !mulKmx // !mxE eqxx eq_lrshift /= => /eqP; rewrite oner_eq0.
Qed.

(* C84 refuted when the contact joints do not come first (six arm joints before one leg joint): the torque of the leg
   is applied to the first arm joint.  The arm carries a body of unit mass and inertia, the leg has inertia 4 *)
Section Late.
Local Notation F := [realFieldType of rat].
(* base 0-5, arm 6-11, leg 12 *)
Definition lateA_ (i j : nat) : rat :=
  if (i < 6)%N then ((i == j) || (i + 6 == j))%N%:R
  else if (i < 12)%N then (if i == j then 2%:R else (j + 6 == i)%N%:R)
  else if i == j then 4%:R else 0.
Definition lateAi_ (i j : nat) : rat :=
  if (i < 6)%N then (if i == j then 2%:R else - (i + 6 == j)%N%:R)
  else if (i < 12)%N then (if i == j then 1 else - (j + 6 == i)%N%:R)
  else if i == j then 1 / 4%:R else 0.
Definition lateA : 'M[rat]_(6 + 1 + 6) := \matrix_(i, j) lateA_ i j.
Definition lateAi : 'M[rat]_(6 + 1 + 6) := \matrix_(i, j) lateAi_ i j.

Lemma all_ordP m n (p : nat -> nat -> bool) : all (fun i => all (p i) (iota 0 n)) (iota 0 m) ->
  forall (i : 'I_m) (j : 'I_n), p i j.
Proof.
move=> h i j; have hi : val i \in iota 0 m by rewrite mem_iota /=.
have hj : val j \in iota 0 n by rewrite mem_iota /=.
by have /allP/(_ _ hj) := allP h _ hi.
Qed.
Lemma sum_iota n (f : nat -> rat) : \sum_(k < n) f k = foldr (fun k s => f k + s) 0 (iota 0 n).
Proof. by rewrite -(big_mkord xpredT f) /index_iota subn0 unlock. Qed.

Lemma lateAE : lateA *m lateAi = 1%:M.
Proof.
apply/matrixP => i j; rewrite !mxE; under eq_bigr => k _ do rewrite !mxE.
rewrite (sum_iota _ (fun k => lateA_ i k * lateAi_ k j)) -val_eqE; apply/eqP.
apply: (@all_ordP _ _ (fun i j => foldr (fun k s => lateA_ i k * lateAi_ k j + s) 0 (iota 0 (6 + 1 + 6)) == (i == j)%:R)).
by vm_compute.
Qed.
Lemma lateA_inv : invmx lateA = lateAi.
Proof. by have [u _] := mulmx1_unit lateAE; rewrite -[LHS]mulmx1 -lateAE mulKmx. Qed.
(* lateA = U^T U *)
Definition lateU_ (i j : nat) : rat :=
  if (i < 6)%N then ((i == j) || (i + 6 == j))%N%:R else if i == j then (if (i < 12)%N then 1 else 2%:R) else 0.
Lemma lateA_posdef : posdef lateA.
Proof.
pose U : 'M[F]_(6 + 1 + 6) := \matrix_(i, j) lateU_ i j.
have e : lateA = U^T *m U.
  apply/matrixP => i j; rewrite !mxE; under eq_bigr => k _ do rewrite !mxE.
  rewrite (sum_iota _ (fun k => lateU_ k i * lateU_ k j)); apply/eqP.
  apply: (@all_ordP _ _ (fun i j => lateA_ i j == foldr (fun k s => lateU_ k i * lateU_ k j + s) 0 (iota 0 (6 + 1 + 6)))).
  by vm_compute.
split; first by rewrite /symmetric e trmx_mul trmxK.
move=> x nx; have -> : quad lateA x = dot (U *m x) (U *m x) by rewrite /quad /dot e trmx_mul !mulmxA.
apply: dot_gt0; apply: contra nx => /eqP ux.
have [uA _] := mulmx1_unit lateAE.
by rewrite -[x](mulKmx uA) e -mulmxA ux !mulmx0.
Qed.


Lemma late_vE (i : 'I_(6 + 1)) : val (late_v i) = if (i < 6)%N then val i else 12%N.
Proof. by rewrite /late_v; case: ifP => h /=; rewrite inordK //; have := ltn_ord i; lia. Qed.
Lemma late_nE (j : 'I_6) : val (late_n j) = (6 + j)%N.
Proof. by rewrite /late_n /= inordK //; have := ltn_ord j; lia. Qed.
Lemma late_n_inj : injective late_n.
Proof. by move=> i j /(congr1 val); rewrite !late_nE => h; apply: val_inj; rewrite /=; lia. Qed.

Lemma late_J : J_I_nc late_n lateA (exSI F) 1%:M = Some 1%:M.
Proof.
rewrite /J_I_nc /exSI C43_segment ?oner_neq0 //=.
have z : skew (0 : 'cV[F]_3) = 0 by rewrite skew0.
have one : InertiaMatrix (1%:M : 'M[F]_3) 1 = 1%:M by rewrite /InertiaMatrix -scalar_mx_block.
rewrite z trmx0 one inverseE ?unitmx1 //= invmx1 mul1mx -scalar_mx_block mul1mx trmx1 mul1mx vsubmxK; congr Some.
apply/matrixP => i j; rewrite !mxE late_nE -val_eqE.
apply/eqP; apply: (@all_ordP 6 6 (fun i j => lateA_ i (6 + j) == (i == j)%:R)); by vm_compute.
Qed.

Definition lateT_ (i j : nat) : rat := lateAi_ (if (i < 6)%N then i else 12%N) (7 + j)%N.
Definition lateP_ (i j : nat) : rat := lateAi_ (if (i < 6)%N then i else 12%N) (if (j < 6)%N then j else 12%N).
Lemma late_AR : A_R_inv late_v late_n lateAi 1%:M =
  block_mx (\matrix_(i < 6 + 1, j < 6 + 1) lateP_ i j) (\matrix_(i < 6 + 1, j < 6) lateT_ i j) (\matrix_(i < 6 + 1, j < 6) lateT_ i j)^T 1%:M.
Proof.
rewrite /A_R_inv; have -> : rsubmx (\matrix_(i < 6 + 1, k < 6 + 1 + 6) lateAi (late_v i) k) *m (1%:M : 'M[F]_6)^T =
    \matrix_(i < 6 + 1, j < 6) lateT_ i j.
  by rewrite trmx1 mulmx1; apply/matrixP => i j; rewrite !mxE late_vE.
congr block_mx.
  by apply/matrixP => i j; rewrite !mxE !late_vE.
have JbE (a : 'I_6) (k : 'I_(6 + 1 + 6)) : dsubmx (J_R late_v late_n (1%:M : 'M[F]_6)) a k = (late_n a == k)%:R.
  rewrite /J_R col_mxKd mxE; case: pickP => [j /eqP <-|/(_ a) /negbT /negbTE ->] //.
  by rewrite mxE (inj_eq late_n_inj).
apply/matrixP => a b; rewrite mxE (bigD1 (late_n b)) //= big1 => [|k nk]; last first.
  by rewrite [X in _ * X]mxE JbE eq_sym (negbTE nk) mulr0.
rewrite addr0 [X in _ * X]mxE JbE eqxx mulr1 mxE (bigD1 (late_n a)) //= big1 => [|k nk]; last first.
  by rewrite JbE eq_sym (negbTE nk) mul0r.
rewrite addr0 JbE eqxx mul1r !mxE !late_nE -val_eqE; apply/eqP.
apply: (@all_ordP 6 6 (fun a b => lateAi_ (6 + a) (6 + b) == (a == b)%:R)); by vm_compute.
Qed.
Definition lateN_ (i j : nat) : rat :=
  lateP_ i j - foldr (fun k s => lateT_ i k * lateT_ j k + s) 0 (iota 0 6).
Lemma late_unit : A_R_inv late_v late_n lateAi 1%:M \in unitmx.
Proof.
rewrite late_AR; set P := \matrix_(i, j) lateP_ i j; set T := \matrix_(i, j) lateT_ i j.
have e : block_mx P T T^T 1%:M *m block_mx 1%:M 0 (- T^T) 1%:M = block_mx (P - T *m T^T) T 0 1%:M.
  by rewrite mulmx_block !mulmx1 !mulmx0 !add0r mulmxN mul1mx subrr.
have d : P - T *m T^T = diag_mx (\row_(i < 6 + 1) lateN_ i i).
  apply/matrixP => i j; rewrite !mxE; under eq_bigr => k _ do rewrite !mxE.
  rewrite (sum_iota _ (fun k => lateT_ i k * lateT_ j k)) -val_eqE; apply/eqP.
  apply: (@all_ordP _ _ (fun i j => lateP_ i j - foldr (fun k s => lateT_ i k * lateT_ j k + s) 0 (iota 0 6) == lateN_ i i *+ (i == j))).
  by vm_compute.
have : \det (block_mx P T T^T 1%:M *m block_mx 1%:M 0 (- T^T) 1%:M) != 0.
  rewrite e det_ublock det1 mulr1 d det_diag; apply/prodf_neq0 => i _; rewrite mxE.
  by apply: (@all_ordP _ 1 (fun i _ => lateN_ i i != 0) _ i 0); vm_compute.
by rewrite det_mulmx mulf_eq0 negb_or => /andP[h _]; rewrite unitmxE unitfE.
Qed.

Theorem C84_order_refuted : exists rd tR tN a f,
  [/\ posdef lateA, J_I_nc late_n lateA (exSI F) 1%:M = Some 1%:M,
      ReducedDynamics late_v late_n (invmx lateA) lateA (exSI F) 1%:M 0 = Some rd,
      contact_motion (n := 1 + 6) lateA (0 : 'M[F]_(0, 6 + 1 + 6)) 0 (distribute rd tR tN) a f &
      ~ contact_motion (n := 1 + 6) (rd_AR rd) (J_CR (0 : 'M[F]_(0, 6 + 1 + 6))) (rd_GR rd) tR (rd_JR rd *m (a : 'cV_(6 + 1 + 6))) f].
Proof.
have uAR := late_unit.
case erd: (ReducedDynamics late_v late_n (invmx lateA) lateA (exSI F) 1%:M 0) => [rd|]; last first.
  by move: erd; rewrite /ReducedDynamics late_J /= lateA_inv inverseE.
have [eR eI eJ] : [/\ rd_AR rd = invmx (A_R_inv late_v late_n lateAi 1%:M), rd_JI rd = 1%:M & rd_JR rd = J_R late_v late_n 1%:M].
  by move: erd; rewrite /ReducedDynamics late_J /= lateA_inv inverseE //= => -[<-].
have eG : rd_GR rd = 0.
  by move: erd; rewrite /ReducedDynamics late_J /= lateA_inv inverseE //= => -[<-] /=; rewrite !linear0 ?mulmx0 ?col_mx0.
pose tR : 'cV[F]_(1 + 6) := col_mx 1%:M 0.
exists rd, tR, 0, (lateAi *m actuate (distribute rd tR 0)), 0.
split=> //; first exact: lateA_posdef; first exact: late_J.
  by split; rewrite ?mul0mx // trmx0 mul0mx !addr0 mulmxA lateAE mul1mx.
case; rewrite /J_CR eG addr0 mulmx0 addr0 eR eJ => h _.
have := congr1 (fun Y => A_R_inv late_v late_n lateAi 1%:M *m Y) h; rewrite mulKVmx //.
move=> {h} /(congr1 (fun Y : 'cV[F]_(6 + 1 + 6) => Y (lshift 6 (rshift 6 (0 : 'I_1))) 0)).
set i6 := lshift 6 (rshift 6 (0 : 'I_1)).
have -> : distribute rd tR 0 = col_mx 1%:M 0 by rewrite /distribute eI /tR col_mxKu col_mxKd !mulmx0 addr0.
have l12 : val (late_v (rshift 6 (0 : 'I_1))) = 12%N by rewrite late_vE.
have rowJ (Y : 'cV[F]_(6 + 1 + 6)) : (J_R late_v late_n (1%:M : 'M[F]_6) *m Y) i6 0 = Y (late_v (rshift 6 0)) 0.
  rewrite mxE (bigD1 (late_v (rshift 6 0))) //= big1 ?addr0 => [|k nk]; last first.
    by rewrite /J_R col_mxEu mxE eq_sym (negbTE nk) /= mul0r.
  by rewrite /J_R col_mxEu mxE eqxx mul1r.
rewrite rowJ.
have act : actuate (col_mx (1%:M : 'M[F]_1) (0 : 'cV[F]_6)) = delta_mx i6 0 :> 'cV[F]_(6 + 1 + 6).
  apply/colP => k; rewrite [RHS]mxE andbT -val_eqE /actuate.
  case: (@split_ordP 6 (1 + 6) k) => k' ->.
    by rewrite (@col_mxEu _ 6 (1 + 6)) mxE /= (_ : _ == _ = false) //; have := ltn_ord k'; lia.
  rewrite (@col_mxEd _ 6 (1 + 6)); case: (@split_ordP 1 6 k') => k'' ->.
    by rewrite col_mxEu mxE !ord1.
  by rewrite col_mxEd mxE.
rewrite /tR act -!colE [col _ _ _ _]mxE [lateAi _ _]mxE l12 [RHS]mxE late_AR block_mxEul mxE.
by move/eqP; vm_compute.
Qed.
End Late.

(* C82 refuted with fewer contact coordinates than contact joints (four joints, three coordinates): the columns of
   the last joint are left out of the contact inertia *)
Definition fewY (R : realFieldType) : 'M[R]_(3, 3 + 1) := row_mx 1%:M (const_mx 1).
Definition fewC (R : realFieldType) : 'M[R]_(3, 6 + (3 + 1) + 6) := row_mx (row_mx 0 (fewY R)) 0.
Lemma rowA (R : realFieldType) (c : nat) (Y : 'M[R]_(3, c)) :
  (row_mx (row_mx 0 Y) 0 : 'M_(3, 6 + c + 6)) *m invmx (exA R c) = row_mx (row_mx 0 Y) 0.
Proof.
apply: (canLR (mulmxK (posdef_unit (exA_posdef R c)))); rewrite /exA mul_row_block !mul0mx mulmx1 !addr0.
by rewrite /exK mul_row_col mul0mx mulmx0 addr0.
Qed.
Lemma few_sq (R : realFieldType) (X : 'M[R]_(3, 1)) (C := row_mx (row_mx 0 (row_mx 1%:M X)) 0 : 'M[R]_(3, 6 + (3 + 1) + 6)) :
  C *m C^T = 1%:M + X *m X^T.
Proof.
rewrite /C tr_row_mx mul_row_col trmx0 mulmx0 addr0 tr_row_mx mul_row_col mul0mx add0r.
by rewrite tr_row_mx mul_row_col trmx1 mulmx1.
Qed.
Theorem C82_few_contacts_refuted : exists (R : realFieldType) (rd : reduced R 4 6) cs,
  [/\ ReducedDynamics (@exv 4) (@exn 4) (invmx (exA R 4)) (exA R 4) (exSI R) 1%:M 0 = Some rd,
      contacts_on_chains (fewC R), row_free (fewC R),
      ReducedCalcContactConstraint (invmx (exA R 4)) (fewC R) rd = Some cs &
      cs_lambda cs *m (fewC R *m invmx (exA R 4) *m (fewC R)^T) <> 1%:M].
Proof.
pose R := [realFieldType of rat]; exists R.
have [rd [h0 [h1 h2 h3] h4 _ _]] := red_facts (ex_lead 4) 0 (exA_posdef R 4) (ex_carried R 4) (ex_rot1 R) (ex_J R 4) (ex_free R).
have yy : fewC R *m (fewC R)^T = 1%:M + const_mx 1.
  rewrite few_sq; congr (_ + _).
  by apply/matrixP => i j; rewrite mxE big_ord1 !mxE mulr1.
have ARi : rd_ARinv rd = invmx (exA R 4) by rewrite h3 -scalar_mx_block mul1mx trmx1 mulmx1.
have Lp : J_CR (fewC R) *m (pid_mx (3 + 6) : 'M_(6 + 4 + 6)) = row_mx (row_mx 0 (row_mx 1%:M 0 : 'M_(3, 3 + 1))) 0.
  apply/matrixP => i j; rewrite mxE (bigD1 j) //= big1 => [|k nk]; last first.
    have -> : (pid_mx (3 + 6) : 'M[R]_(6 + 4 + 6)) k j = 0 by rewrite mxE (_ : (k == j :> nat) = false) //; apply/negbTE.
    by rewrite mulr0.
  have -> : (pid_mx (3 + 6) : 'M[R]_(6 + 4 + 6)) j j = (j < 3 + 6)%N%:R by rewrite mxE eqxx.
  rewrite addr0 /J_CR /fewC row_mxKl; case: (split_ordP j) => j1 ->; rewrite ?row_mxEr ?row_mxEl; last by rewrite mxE mul0r.
  case: (split_ordP j1) => j2 ->; rewrite ?row_mxEr ?row_mxEl; first by rewrite mxE mul0r.
  rewrite /fewY; case: (@split_ordP 3 1 j2) => j3 ->; rewrite ?row_mxEr ?row_mxEl.
    have -> : (lshift 6 (rshift 6 (lshift 1 j3)) < 3 + 6)%N by rewrite /=; have := ltn_ord j3; lia.
    by rewrite mulr1; symmetry; apply: (@row_mxEl R 3 3 1 1%:M 0 i j3).
  have -> : (lshift 6 (rshift 6 (rshift 3 j3)) < 3 + 6)%N = false by rewrite /=; lia.
  by rewrite mulr0; symmetry; apply: etrans (@row_mxEr R 3 3 1 1%:M 0 i j3) _; rewrite mxE.
have LL : (row_mx (row_mx 0 (row_mx 1%:M 0 : 'M[R]_(3, 3 + 1))) 0 : 'M_(3, 6 + 4 + 6)) *m
    (row_mx (row_mx 0 (row_mx 1%:M 0 : 'M[R]_(3, 3 + 1))) 0 : 'M_(3, 6 + 4 + 6))^T = 1%:M.
  by apply: etrans (few_sq 0) _; rewrite mul0mx addr0.
have rA := @rowA R 4.
have := erefl (ReducedCalcContactConstraint (invmx (exA R 4)) (fewC R) rd).
rewrite {2}/ReducedCalcContactConstraint [(_ <= _)%N]/= Lp ARi rA LL inverseE ?unitmx1 //= invmx1.
move=> e; exists rd; eexists; split; [exact: h0| | |exact: e|].
- by rewrite /contacts_on_chains /fewC row_mxKr.
- apply/row_freeP; exists (col_mx (col_mx 0 (col_mx 1%:M 0 : 'M_(3 + 1, 3))) 0).
  rewrite mul_row_col mulmx0 addr0 mul_row_col mul0mx add0r.
  by rewrite mul_row_col mulmx0 addr0 mulmx1.
rewrite /= mul1mx rA yy => /matrixP /(_ 0 0); rewrite !mxE /=.
by [].
Qed.

(* C83 refuted with fewer than six joints outside the contact chains: A_R_inv is then singular for every robot *)
Theorem C83_few_joints_refuted (R : realFieldType) (c n : nat) (vcj : 'I_(6 + c) -> 'I_(6 + c + n)) (ncj : 'I_n -> 'I_(6 + c + n))
  (A B : 'M[R]_(6 + c + n)) SI Q G : leading vcj ncj -> posdef A -> (n < 6)%N ->
  ReducedDynamics vcj ncj (invmx A) B SI Q G = None.
Proof.
move=> L hA hn; rewrite /ReducedDynamics; case: J_I_nc => //= J.
have s : (invmx A)^T = invmx A by have [] := posdef_inv hA.
rewrite (A_R_inv_lead L) // /inverse; case: ifP => //.
rewrite -row_free_unit /row_free -mulmxA => /eqP e.
have := leq_trans (mxrankM_maxl _ _) (rank_leq_col (block_mx 1%:M 0 0 J : 'M_(6 + c + 6, _))).
by move=> /(_ _ (invmx A *m (block_mx 1%:M 0 0 J : 'M_(6 + c + 6, _))^T)); rewrite e; lia.
Qed.
Example C83_few_ex (R : realFieldType) (c : nat) : leading (lshift 1 : 'I_(6 + c) -> _) (@rshift (6 + c) 1) /\
  posdef (1%:M : 'M[R]_(6 + c + 1)).
Proof.
by split=> //; split; [rewrite /symmetric trmx1|move=> x nx; rewrite /quad mulmx1 -/(dot x x) dot_gt0].
Qed.
(* C84: the robot of C83_ex has a motion under any torque *)
Example C84_ex (R : realFieldType) tau : exists a f, contact_motion (n := 6 + 6) (exA R 6) (exC R) 0 tau a f.
Proof.
have [_ fC _ _] := C83_ex R.
have [rb [u1 _ _ _ _]] := UpdateRobotE (n := 6 + 6) 0 (exA_posdef R 6) fC.
exact: rb_motion_ex (exA_posdef R 6) fC u1 tau.
Qed.

Print Assumptions C54_projection_partial.
Print Assumptions C54_order_refuted.
Print Assumptions C82_contact_partial.
Print Assumptions C82_few_contacts_refuted.
Print Assumptions C83_gravity_partial.
Print Assumptions C83_few_joints_refuted.
Print Assumptions C84_distribution_partial.
Print Assumptions C84_order_refuted.
