(* C56, C89-C91: UpdateKinematics. *)
From mathcomp Require Import all_ssreflect all_algebra.
From mathcomp Require Import ring.
From Verif Require Import LinAlg Dyn_Model Dyn_Proofs Geo_Model Geo_Spec Geo_Proofs Inr_Model Inr_Spec Inr_Proofs Kin_Model Kin_Spec Kin_Proofs Kin_Ex.
Set Implicit Arguments.
Unset Strict Implicit.
Unset Printing Implicit Defensive.
Import Order.TTheory GRing.Theory Num.Theory.
Local Open Scope ring_scope.

Section C.
Variable R : realFieldType.
Variable n : nat.
Local Notation sys := (3 + 3 + n)%N.
Implicit Types (st : kstate R n) (q qd qdd : seq R) (upd : bool) (e : env R n).

(* C56: an ill-sized vector leaves every member as it was, whatever the other arguments *)
Theorem C56_ill_sized_ignored st q qd qdd upd e :
  size q <> k_qsize st \/ size qd <> sys \/ size qdd <> sys ->
  UpdateKinematics st q qd qdd upd e = Some st.
Proof.
rewrite /UpdateKinematics; case: eqP => [hq|//]; case: eqP => [hqd|//]; case: eqP => [hqdd|//].
by rewrite -hq -hqd -hqdd => -[|[|]] /(_ erefl).
Qed.

(* C56: well-sized vectors are stored as given; sizes and total mass are not touched *)
Theorem C56_well_sized_stored st q qd qdd upd e st' :
  size q = k_qsize st -> size qd = sys -> size qdd = sys ->
  UpdateKinematics st q qd qdd upd e = Some st' ->
  [/\ k_q st' = q, k_qd st' = qd, k_qdd st' = qdd, k_qsize st' = k_qsize st & k_mass st' = k_mass st].
Proof.
move=> hq hqd hqdd; rewrite /UpdateKinematics hq hqd hqdd !eqxx /=.
case: (if upd then _ else _) => // Ai; case: (e_links e) => // l0 ls; case: eqP => // _.
by case: (inverse _) => // Si [<-].
Qed.

(* C56: the overload without vectors uses the stored ones *)
Theorem C56_stored_again st upd e st' :
  size (k_q st) = k_qsize st -> size (k_qd st) = sys -> size (k_qdd st) = sys ->
  UpdateKinematicsStored st upd e = Some st' ->
  [/\ k_q st' = k_q st, k_qd st' = k_qd st & k_qdd st' = k_qdd st].
Proof. by move=> h1 h2 h3 h; have [] := C56_well_sized_stored h1 h2 h3 h. Qed.

(* C89: for links that are rigid bodies on a floating base whose pose is in q, and a mass matrix whose
   quadratic form is twice their kinetic energy, the call succeeds, and for the centre of mass, centroidal momentum,
   inertia, gravity and COM entry stored by it: *)
Theorem C89_centroidal st q qd qdd e l0 ls :
  size q = k_qsize st -> size qd = sys -> size qdd = sys -> e_links e = l0 :: ls ->
  sane (e_links e) -> mass_matrix (e_links e) (e_crba e) -> (forall v, v != 0 -> 0 < energy2 (e_links e) v) ->
  floating (e_links e) (xpos l0) (rotm l0) -> xpos l0 = colv 3 q -> k_mass st = total_mass (e_links e) ->
  exists st', UpdateKinematics st q qd qdd true e = Some st' /\
    [/\ (* com_pos is the mass-weighted mean of the links' centres of mass *)
        k_mass st *: k_compos st' = \sum_(l <- e_links e) mass (bd l) *: xi l,
        (* CMM_ maps any joint velocity to momentum and angular momentum about com_pos *)
        forall v, k_CMM st' *m v = col_mx (total_momentum (e_links e) v) (total_angular (e_links e) (k_compos st') v),
        (* SI_body_ is the spatial inertia there; G_ is the rate of potential energy per joint velocity *)
        k_SI st' = block_mx (k_mass st)%:M 0 0 (\sum_(l <- e_links e) inertia_about (moved (bd l) (rotm l) (xpos l)) (k_compos st')) /\
        forall v, dot (k_G st') v = 981%:R / 100%:R * \sum_(l <- e_links e) mass (bd l) * Z (vcom l v),
        k_A st' = e_crba e /\ k_A st' *m k_Ainv st' = 1%:M &
        (* link_.back() *)
        let b := k_back st' in let v := colv sys qd in
        [/\ b_xpos b = k_compos st' /\ b_xipos b = k_compos st', b_mass b = k_mass st,
            b_inertia b = \sum_(l <- e_links e) inertia_about (moved (bd l) (rotm l) (xpos l)) (k_compos st'),
            b_vi b = b_v b /\ k_mass st *: b_v b = total_momentum (e_links e) v &
            b_inertia b *m b_w b = total_angular (e_links e) (k_compos st') v]] /\
    [/\ k_q st' = q, k_qd st' = qd, k_qdd st' = qdd, k_links st' = e_links e &
        k_B st' = e_nle e /\ k_mass st' = k_mass st /\ k_qsize st' = k_qsize st].
Proof. exact: update_run. Qed.

(* C90 refuted: with update_kinematics = false the call never completes with finite values:
   A_ has been zeroed, so the COM inertia is zero and SI_body_ is inverted though singular *)
Theorem C90_no_update_refuted st q qd qdd e :
  size q = k_qsize st -> size qd = sys -> size qdd = sys -> UpdateKinematics st q qd qdd false e = None.
Proof.
move=> hq hqd hqdd; rewrite /UpdateKinematics hq hqd hqdd !eqxx /=.
case: (e_links e) => // l0 ls; case: eqP => // _.
have z a b c d : @ulsubmx R a b c d 0 = 0 by rewrite /ulsubmx !linear0.
have z' a b c d : @dlsubmx R a b c d 0 = 0 by rewrite /dlsubmx !linear0.
have z2 a b c d : @drsubmx R a b c d 0 = 0 by rewrite /drsubmx !linear0.
rewrite !z z' z2 !mulmx0 mul0mx scaler0 sub0r.
have -> : unskew (0 : 'M[R]_3) = 0 by apply: vecP; rewrite /unskew /X /Y /Z !mxE ?inordK.
rewrite skew0 mul0mx scaler0 oppr0 /inverse unitmxE det_ublock [\det 0](_ : _ = 0) ?mulr0 ?unitr0 //.
by rewrite det0.
Qed.

(* C91 refuted: the member com_vel is zero after every completed update, at whatever joint velocity *)
Theorem C91_com_vel_zero st q qd qdd upd e st' :
  size q = k_qsize st -> size qd = sys -> size qdd = sys ->
  UpdateKinematics st q qd qdd upd e = Some st' -> k_comvel st' = 0.
Proof.
move=> hq hqd hqdd; rewrite /UpdateKinematics hq hqd hqdd !eqxx /=.
case: (if upd then _ else _) => // Ai; case: (e_links e) => // l0 ls; case: eqP => // _.
by case: (inverse _) => // Si [<-].
Qed.
End C.

Local Notation Q := [realFieldType of rat].

(* a robot meeting all hypotheses of C89: the base of mass 2 carries a slider of mass 1 moving at speed 3
   while the base translates at speed 1 *)
Example Kin_ex : exists st', UpdateKinematics kst kq kqd kqdd true kenv = Some st' /\
  3%:R *: k_compos st' = v3 1 0 3%:R /\ 3%:R *: b_v (k_back st') = v3 6%:R 0 0.
Proof.
have [st' [h [[h1 _ _ _ [_ _ _ [_ h2] _]] _]]] := C89_centroidal (st := kst) (q := kq) (qd := kqd) (qdd := kqdd) (e := kenv)
  erefl erefl erefl (erefl : e_links kenv = k0 :: [:: k1]) ks_sane (composite_ok ks_sane) ks_pos ks_floating ks_x ks_mass.
exists st'; split; first by [].
split.
  by rewrite h1 ks_centre.
by rewrite h2 ks_momentum.
Qed.

(* C91 refuted by the same robot: its centre of mass moves at speed 2 *)
Theorem C91_com_vel_refuted : exists st', UpdateKinematics kst kq kqd kqdd true kenv = Some st' /\
  k_mass st' *: k_comvel st' != total_momentum ks (colv 7 kqd).
Proof.
have [st' [h [_ h2]]] := Kin_ex; exists st'; split; first by [].
rewrite (C91_com_vel_zero _ _ _ h) // scaler0 ks_momentum.
by apply/eqP => /(congr1 (fun m : 'cV[Q]_3 => m (inord 0) 0)); rewrite /v3 !mxE inordK.
Qed.

Example C56_ex : UpdateKinematics kst [:: 1] kqd kqdd true kenv = Some kst.
Proof. by apply: C56_ill_sized_ignored; left. Qed.

Print Assumptions C56_ill_sized_ignored.
Print Assumptions C56_well_sized_stored.
Print Assumptions C56_stored_again.
Print Assumptions C89_centroidal.
Print Assumptions C90_no_update_refuted.
Print Assumptions C91_com_vel_zero.
Print Assumptions C91_com_vel_refuted.
