(* Theorems about the contact constraint matrix and getZMP: C08, C09, C10, C11. *)
From mathcomp Require Import all_ssreflect all_algebra.
From mathcomp Require Import zify.
From Verif Require Import DMat Cone_Model Cone_Spec Cone_Proofs Cone_Ex.
Set Implicit Arguments.
Unset Strict Implicit.
Unset Printing Implicit Defensive.
Import Order.TTheory GRing.Theory Num.Theory.
Local Open Scope ring_scope.

Section Props.
Variable R : realFieldType.
Implicit Types (cc : seq (pcontact R)) (d : pcontact R).

(* C08: all active contacts are plane contacts; contact_link_num_ and contact_dof_ have the
   values SetContact gives them (C01). *)
Theorem C08_constraint_matrix_is_cone : forall cc d,
  List.Forall (fun c => p_on c -> plane c) cc ->
  let K := size (actives cc) in
  exists C, getContactConstraintMatrix cc K (6 * K) = Some C /\
    [/\ nr C = (10 * K)%N, nc C = (6 * K)%N &
      forall F : nat -> R,
        (forall i, (i < nr C)%N -> rowdot C i F <= 0) <->
        (forall k, (k < K)%N ->
           in_cone (nth d (actives cc) k) (blk3 F (6 * k)) (blk3 F (6 * k + 3)))].
Proof.
move=> cc d pl K.
have pl' i : (i < size cc)%N -> p_on (nth d cc i) -> plane (nth d cc i).
  by elim: pl i => [|c l pc _ IH] [|i] //=; apply: IH.
have [C [e [nC cC rows]]] := getC_rows pl'.
exists C; split=> //; split=> // F; rewrite nC; split=> h.
  move=> k lk; apply/rows_cone => r lr; rewrite -rows //; apply: h.
  by rewrite -/K; lia.
move=> i li; have lk : (i %/ 10 < K)%N by rewrite ltn_divLR // mulnC.
rewrite (divn_eq i 10) mulnC rows ?ltn_mod //.
by have /rows_cone := h _ lk; apply; rewrite ltn_mod.
Qed.

(* C09: whatever the built matrix accepts *)
Theorem C09_cop_inside_plate : forall cc d C (F : nat -> R) k,
  List.Forall (fun c => p_on c -> plane c) cc ->
  let K := size (actives cc) in
  getContactConstraintMatrix cc K (6 * K) = Some C ->
  (forall i, (i < nr C)%N -> rowdot C i F <= 0) -> (k < K)%N ->
  let c := nth d (actives cc) k in
  let lf := (p_rotm c)^T *m blk3 F (6 * k) in
  let lm := (p_rotm c)^T *m blk3 F (6 * k + 3) in
  (vz lf < 0 -> `|- vy lm / vz lf| <= p_lx c /\ `|vx lm / vz lf| <= p_ly c) /\
  (0 < p_mu c \/ 0 < p_muz c \/ 0 < p_lx c \/ 0 < p_ly c -> vz lf <= 0).
Proof.
move=> cc d C F k pl K eC rows lk c lf lm.
have [C' [eC' [_ _ /(_ F) [/(_ _) cone _]]]] := C08_constraint_matrix_is_cone d pl.
move: eC'; rewrite eC => -[eCC]; rewrite -{}eCC in cone.
have [h1 h2 h3 h4 h5] := cone rows k lk; rewrite -/c -/lf -/lm in h1 h2 h3 h4 h5.
split=> [neg|].
  have q (x l : R) : `|x| <= - (l * vz lf) -> `|x / vz lf| <= l.
    move=> h; rewrite normrM normfV (ltr0_norm neg) ler_pdivr_mulr ?oppr_gt0 //.
    by rewrite mulrN.
  by split; [rewrite mulNr normrN|]; apply: q.
have q (x l : R) : 0 < l -> `|x| <= - (l * vz lf) -> vz lf <= 0.
  move=> l0 /(le_trans (normr_ge0 _)); rewrite oppr_ge0 pmulr_rle0 //.
by case=> [l0|[l0|[l0|l0]]]; [apply: q h1|apply: q h3|apply: q h4|apply: q h5].
Qed.

(* C10, refuted for the constraint matrix: if the last active contact has fewer than six
   degrees of freedom (line 5, point 3) the writes leave the matrix. *)
Theorem C10_constraint_matrix_refuted : forall cc d num,
  (0 < size (actives cc))%N -> (p_dof (last d (actives cc)) < 6)%N ->
  getContactConstraintMatrix cc num (sumn [seq p_dof c | c <- actives cc]) = None.
Proof.
move=> cc d num h1 h2; rewrite /getContactConstraintMatrix.
by rewrite (@loop_short R cc d).
Qed.

(* C10, the plane case *)
Theorem C10_plane_contacts_partial : forall cc,
  List.Forall (fun c => p_on c -> plane c) cc ->
  exists C, getContactConstraintMatrix cc (size (actives cc)) (6 * size (actives cc)) = Some C.
Proof.
move=> [|d cc] pl; first by eexists.
by have [C [e _]] := C08_constraint_matrix_is_cone d pl; exists C.
Qed.

(* C11, refuted: an inactive contact registered before an active one makes getZMP read past
   the force vector that getContactForce returns. *)
Theorem C11_zmp_index_refuted : forall cc d (F : seq R) j,
  size F = (6 * size (actives cc))%N ->
  (j < size cc)%N -> p_on (nth d cc j) -> (size (actives cc) <= j)%N ->
  getZMP cc F = None.
Proof.
move=> cc d F j sF lj oj h; rewrite /getZMP (@total_none R cc d F j) // sF add0n.
by apply: leq_trans (leq_addr _ _); rewrite leq_mul2l h orbT.
Qed.

(* C11, when the active contacts are registered first *)
Theorem C11_zmp_average_partial : forall d (on off : seq (pcontact R)) (F : seq R),
  all (@p_on R) on -> ~~ has (@p_on R) off -> size F = (6 * size on)%N ->
  let fz k := nth 0 F (6 * k + 2) in
  let mx k := nth 0 F (6 * k + 3) in
  let my k := nth 0 F (6 * k + 4) in
  \sum_(0 <= k < size on) fz k != 0 ->
  exists (z : 'cV[R]_3) (p : nat -> 'cV[R]_3), getZMP (on ++ off) F = Some z /\
    [/\ (\sum_(0 <= k < size on) fz k) *: z = \sum_(0 <= k < size on) fz k *: p k,
        forall k, fz k <= - (1 / 1000%:R) ->
          [/\ fz k * (vx (p k) - vx (p_xc (nth d on k))) = - my k,
              fz k * (vy (p k) - vy (p_xc (nth d on k))) = mx k &
              vz (p k) = vz (p_xc (nth d on k))],
        forall k, - (1 / 1000%:R) < fz k -> p k = p_xc (nth d on k) &
        (forall k, (k < size on)%N -> fz k < 0) ->
          forall a b e : R, (forall k, (k < size on)%N -> a * vx (p k) + b * vy (p k) <= e) ->
            a * vx z + b * vy z <= e].
Proof.
move=> d on off F aon aoff sF fz mx my tot0.
set tot := (X in X != 0) in tot0.
pose p := zmp_at d on F.
exists (\sum_(0 <= k < size on) (fz k / tot) *: p k), p; split.
  by rewrite (getZMP_on d) // sF.
have sumE : tot *: (\sum_(0 <= k < size on) (fz k / tot) *: p k) = \sum_(0 <= k < size on) fz k *: p k.
  by rewrite scaler_sumr; apply: eq_bigr => k _; rewrite scalerA mulrCA divff // mulr1.
split=> //.
- move=> k lf; have f0 : fz k != 0.
    apply/eqP => e; move: lf; rewrite e oppr_ge0 leNgt divr_gt0 ?ltr01 // ltr0n //.
  rewrite /p /zmp_at /contact_zmp -/(fz k) ltNge lf /= /vx /vy /vz !mxE /= -/(my k) -/(mx k).
  split.
  + by rewrite addrC addKr mulrCA divff // mulr1.
  + by rewrite addrC addKr mulrCA divff // mulr1.
  + by [].
- by move=> k lf; rewrite /p /zmp_at /contact_zmp -/(fz k) lf.
- move=> neg a b e he.
  have [s0|s0] := posnP (size on).
    by move: tot0; rewrite /tot s0 big_geq // eqxx.
  have tneg : tot < 0.
    rewrite /tot -(prednK s0) big_nat_recr //= ltr_naddl //.
      rewrite big_nat -oppr_ge0 -sumrN; apply: sumr_ge0 => k /andP[_ lk].
      by rewrite oppr_ge0; apply/ltW/neg; rewrite -(prednK s0) ltnS ltnW.
    by apply: neg; rewrite -{2}(prednK s0).
  set z := \sum_(0 <= k < size on) _ *: _ in sumE *.
  have lin : tot * (a * vx z + b * vy z) = \sum_(0 <= k < size on) fz k * (a * vx (p k) + b * vy (p k)).
    have cx (i : 'I_3) : tot * z i 0 = \sum_(0 <= k < size on) fz k * p k i 0.
      have := congr1 (fun M : 'cV_3 => M i 0) sumE; rewrite mxE => ->.
      by rewrite summxE; apply: eq_bigr => k _; rewrite mxE.
    rewrite mulrDr mulrCA [tot * (b * _)]mulrCA /vx /vy !cx !mulr_sumr -big_split /=.
    by apply: eq_bigr => k _; rewrite mulrDr [fz k * (a * _)]mulrCA [fz k * (b * _)]mulrCA.
  rewrite -(ler_nmul2l tneg) lin /tot mulr_suml !big_nat; apply: ler_sum => k /andP[_ lk].
  by rewrite ler_nmul2l ?neg // he.
Qed.
End Props.

(* ---- examples ---- *)
(* two plane contacts, the first inactive *)
Example Cone_ex_plane : List.Forall (fun c => p_on c -> plane c) [:: plane1 false; plane1 true] /\
  size (actives [:: plane1 false; plane1 true]) = 1%N.
Proof. by split=> //; do 2 (apply: List.Forall_cons; first by []); apply: List.Forall_nil. Qed.

(* a wrench in the cone with a pressing force, and one outside *)
Example Cone_ex_cone : in_cone (plane1 true) (blk3 (nth 0 F1) 6) (blk3 (nth 0 F1) 9) /\
  vz ((p_rotm (plane1 true))^T *m blk3 (nth 0 F1) 6) < 0.
Proof. by rewrite /in_cone /= trmx1 !mul1mx /vx /vy /vz !mxE; split. Qed.

Example Cone_ex_outside : ~ in_cone (plane1 true) (blk3 (fun i => (i == 2%N)%:R) 0) (blk3 (fun _ => 0) 0).
Proof. by rewrite /in_cone /= trmx1 !mul1mx /vx /vy /vz !mxE; case. Qed.

Example Cone_ex_point : (0 < size (actives [:: plane1 true; point1 true]))%N /\
  (p_dof (last (plane1 true) (actives [:: plane1 true; point1 true])) < 6)%N.
Proof. by []. Qed.

Example Cone_ex_zmp_bad : let cc := [:: plane1 false; plane1 true] in
  size (take 6 F1) = (6 * size (actives cc))%N /\ p_on (nth (plane1 true) cc 1) /\
  (size (actives cc) <= 1)%N.
Proof. by []. Qed.

Example Cone_ex_zmp : all (@p_on _) [:: plane1 true; plane1 true] /\ ~~ has (@p_on _) [:: plane1 false] /\
  size F1 = (6 * size [:: plane1 true; plane1 true])%N /\
  \sum_(0 <= k < 2) nth 0 F1 (6 * k + 2) != 0 /\
  (forall k, (k < 2)%N -> nth 0 F1 (6 * k + 2) < 0).
Proof.
do 3 split=> //; split; first by rewrite !big_nat_recr //= big_geq.
by case=> [|[|k]].
Qed.

Print Assumptions C08_constraint_matrix_is_cone.
Print Assumptions C09_cop_inside_plate.
Print Assumptions C10_constraint_matrix_refuted.
Print Assumptions C10_plane_contacts_partial.
Print Assumptions C11_zmp_index_refuted.
Print Assumptions C11_zmp_average_partial.
