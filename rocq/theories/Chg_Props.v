(* C139-C144: changing a link's inertia, locked sub-trees, CalcVirtualCMM. *)
From Coq Require Import String.
From mathcomp Require Import all_ssreflect all_algebra.
From mathcomp Require Import ring.
From Verif Require Import LinAlg Dyn_Model Dyn_Proofs Geo_Model Geo_Spec Geo_Proofs Inr_Model Inr_Spec Inr_Proofs Inr_Tree Inr_Props.
From Verif Require Import Kin_Model Kin_Spec Kin_Proofs Kin_Ex Con_Model Chg_Model Chg_Spec Chg_Proofs.
Set Implicit Arguments.
Unset Strict Implicit.
Unset Printing Implicit Defensive.
Import Order.TTheory GRing.Theory Num.Theory.
Local Open Scope ring_scope.

(* C139: on a consistent robot the call for a link with a body succeeds, *)
Theorem C139_defined (R : fieldType) (r : robot R) name k l I c m :
  consistent r -> first_named r name k l -> isSome (l_body_id l) ->
  exists r', ChangeLinkInertia r name I c m = Some r'.
Proof.
move=> [hc _] hf; rewrite /ChangeLinkInertia (getLinkID_some hf); have [h1 _ _] := hf; rewrite h1.
case e: (l_body_id l) => [j|//] _; have [l' [si [sc [_ o1 [o2 _] [o3 _]]]]] := hc _ _ _ h1 e.
have j1 := onth_size o1; have j2 := onth_size o2; have j3 := onth_size o3.
by rewrite j1 j2 j3; eexists.
Qed.

(* ... and gives that link, in all four tables, the mass, centre of mass and inertia asked for; no other
   link, no other body, no name or body id changes, and the tables stay consistent *)
Theorem C139_change (R : fieldType) (r r' : robot R) name k l j I c m :
  consistent r -> first_named r name k l -> l_body_id l = Some j ->
  ChangeLinkInertia r name I c m = Some r' ->
  [/\ consistent r' /\ agrees r' k j,
      onth (r_link r') k = Some (NLink (l_name l) (Some j) (Body m c I)),
      forall k', k' <> k -> onth (r_link r') k' = onth (r_link r) k',
      forall j', j' <> j -> [/\ onth (r_mBodies r') j' = onth (r_mBodies r) j', onth (r_I r') j' = onth (r_I r) j' &
                                onth (r_Ic r') j' = onth (r_Ic r) j'] &
      [/\ size (r_link r') = size (r_link r), size (r_mBodies r') = size (r_mBodies r),
          size (r_I r') = size (r_I r) & size (r_Ic r') = size (r_Ic r)]].
Proof.
move=> [hc hd] hf ej; rewrite /ChangeLinkInertia (getLinkID_some hf); have [h1 h2 h3] := hf; rewrite h1 ej.
have k1 := onth_size h1; have [l' [si [sc [_ o1 [o2 _] [o3 _]]]]] := hc _ _ _ h1 ej.
have j1 := onth_size o1; have j2 := onth_size o2; have j3 := onth_size o3.
rewrite j1 j2 j3 => -[<-]; set b := Body m c I; set l1 := NLink _ _ _; set r1 := Robot _ _ _ _ _.
have a1 : agrees r1 k j.
  exists l1, (createFromMassComInertiaC b), (createFromMassComInertiaC b).
  by rewrite /= !onth_put // !eqxx; split=> //; split=> //; apply: create_describes.
split=> //.
- split=> //; split.
    move=> k' lk j' /=; rewrite onth_put //; case: (k' =P k) => [-> [<-] /= [<-] //|nk e ej'].
    have nj : j' <> j by move=> ejj; apply: nk; apply: (hd _ _ _ _ j e h1 _ ej); rewrite -ejj.
    have [lx [sx [scx [[e1 e2] e3 [e4 e5] [e6 e7]]]]] := hc _ _ _ e ej'.
    exists lx, sx, scx; rewrite /= !onth_put //; case: (k' =P k) => // _; case: (j' =P j) => // _.
  have ids k' lk : onth (put (r_link r) k l1) k' = Some lk -> exists lo, onth (r_link r) k' = Some lo /\ l_body_id lo = l_body_id lk.
    by rewrite onth_put //; case: (k' =P k) => [-> [<-]|_ e]; [exists l|exists lk].
  move=> k1' k2' lk1 lk2 j' /= /ids[lo1 [p1 <-]] /ids[lo2 [p2 <-]]; exact: hd p1 p2.
- by rewrite /= onth_put // eqxx.
- by move=> k' /eqP nk; rewrite /= onth_put // (negbTE nk).
- by move=> j' /eqP nj; rewrite /= !onth_put // (negbTE nj).
- by rewrite /= !size_put.
Qed.

(* names are compared without regard to case *)
Theorem C139_any_case (R : fieldType) (r : robot R) name name' I c m :
  strcaseeq name name' -> ChangeLinkInertia r name I c m = ChangeLinkInertia r name' I c m.
Proof.
move=> /strcase_cong h; rewrite /ChangeLinkInertia /getLinkID /find_link.
suff -> : forall i, find_link_from i [seq l_name l | l <- r_link r] name = find_link_from i [seq l_name l | l <- r_link r] name' by [].
by elim: [seq _ | _ <- _] => //= a s IH i; rewrite h IH.
Qed.

(* C140 refuted: for a name no link has, and for the entry "COM", the behaviour is undefined *)
Theorem C140_unknown_refuted (R : fieldType) (r : robot R) name I c m :
  (forall k l, onth (r_link r) k = Some l -> strcaseeq (l_name l) name = false) ->
  ChangeLinkInertia r name I c m = None.
Proof. by move=> h; rewrite /ChangeLinkInertia getLinkID_none. Qed.
Theorem C140_com_refuted (R : fieldType) (r : robot R) name k l I c m :
  first_named r name k l -> l_body_id l = None -> ChangeLinkInertia r name I c m = None.
Proof. by move=> h e; rewrite /ChangeLinkInertia (getLinkID_some h); case: h => -> _ _; rewrite e. Qed.

(* C141 refuted: total_mass_ keeps its old value, so that it is the mass of the links only when the
   mass given is the old one *)
Theorem C141_total_mass_refuted (R : fieldType) (r r' : robot R) name k l I c m :
  first_named r name k l -> r_total_mass r = mass_of_links r ->
  ChangeLinkInertia r name I c m = Some r' ->
  r_total_mass r' = r_total_mass r /\ (r_total_mass r' = mass_of_links r' <-> m = mass (l_body l)).
Proof.
move=> hf ht; rewrite /ChangeLinkInertia (getLinkID_some hf); have [h1 _ _] := hf; rewrite h1.
case e: (l_body_id l) => [j|//]; case: ifP => // _ [<-]; split=> //=.
rewrite {1}/mass_of_links /= (mass_put h1) /= ?e // -ht; split=> [h|->]; last by rewrite subrK.
have : r_total_mass r - r_total_mass r = m - mass (l_body l) by rewrite {1}h; move: (r_total_mass r) (mass _) => t u; ring.
by rewrite subrr => /esym/eqP; rewrite subr_eq0 => /eqP.
Qed.

Section Kin.
Variable R : realFieldType.
Variable n : nat.
Local Notation sys := (3 + 3 + n)%N.
Implicit Types (st : kstate R n) (q qd qdd : seq R) (e : env R n).

(* C141 refuted: with such a stale total mass UpdateKinematics puts com_pos off the centre of mass of the
   links, unless that centre is at the base *)
Theorem C141_com_pos_refuted st q qd qdd e l0 ls st' :
  size q = k_qsize st -> size qd = sys -> size qdd = sys -> e_links e = l0 :: ls ->
  sane (e_links e) -> mass_matrix (e_links e) (e_crba e) -> (forall v, v != 0 -> 0 < energy2 (e_links e) v) ->
  floating (e_links e) (xpos l0) (rotm l0) -> xpos l0 = colv 3 q -> k_mass st != total_mass (e_links e) ->
  \sum_(l <- e_links e) mass (bd l) *: (xi l - xpos l0) != 0 ->
  UpdateKinematics st q qd qdd true e = Some st' ->
  total_mass (e_links e) *: k_compos st' != \sum_(l <- e_links e) mass (bd l) *: xi l.
Proof.
move=> hq hqd hqdd el hs hA hpos hf hx hm hn h.
have [h1 _ _ _ _] := stale_run hq hqd hqdd el hs hA hpos hf hx h.
apply: contra_neq hn => h2.
have e2 : total_mass (e_links e) *: (k_compos st' - xpos l0) = \sum_(l <- e_links e) mass (bd l) *: (xi l - xpos l0).
  rewrite scalerBr h2 /total_mass scaler_suml -sumrB; apply: eq_bigr => l _; by rewrite scalerBr.
have : (k_mass st - total_mass (e_links e)) *: (k_compos st' - xpos l0) = 0 by rewrite scalerBl h1 e2 subrr.
move/eqP; rewrite scaler_eq0 subr_eq0 (negbTE hm) /= => /eqP z.
by rewrite -h1 z scaler0.
Qed.

(* C141, what remains true whatever the stored total mass: gravity and the mass matrix are right, CMM_ maps
   joint velocities to the momentum and to the angular momentum about the com_pos computed; that is displaced
   from the base by the true displacement scaled by true mass / stored mass *)
Theorem C141_stale_partial st q qd qdd e l0 ls st' :
  size q = k_qsize st -> size qd = sys -> size qdd = sys -> e_links e = l0 :: ls ->
  sane (e_links e) -> mass_matrix (e_links e) (e_crba e) -> (forall v, v != 0 -> 0 < energy2 (e_links e) v) ->
  floating (e_links e) (xpos l0) (rotm l0) -> xpos l0 = colv 3 q ->
  UpdateKinematics st q qd qdd true e = Some st' ->
  [/\ k_mass st *: (k_compos st' - xpos l0) = \sum_(l <- e_links e) mass (bd l) *: (xi l - xpos l0),
      forall v, k_CMM st' *m v = col_mx (total_momentum (e_links e) v) (total_angular (e_links e) (k_compos st') v),
      forall v, dot (k_G st') v = 981%:R / 100%:R * \sum_(l <- e_links e) mass (bd l) * Z (vcom l v),
      k_A st' = e_crba e /\ k_A st' *m k_Ainv st' = 1%:M &
      b_xpos (k_back st') = k_compos st' /\ k_mass st *: b_v (k_back st') = total_momentum (e_links e) (colv sys qd)].
Proof. exact: stale_run. Qed.

(* the call does complete when the mass has been lowered *)
Theorem C141_lowered_completes st q qd qdd e l0 ls :
  size q = k_qsize st -> size qd = sys -> size qdd = sys -> e_links e = l0 :: ls ->
  sane (e_links e) -> mass_matrix (e_links e) (e_crba e) -> (forall v, v != 0 -> 0 < energy2 (e_links e) v) ->
  floating (e_links e) (xpos l0) (rotm l0) -> xpos l0 = colv 3 q -> total_mass (e_links e) <= k_mass st ->
  exists st', UpdateKinematics st q qd qdd true e = Some st'.
Proof. exact: stale_defined. Qed.

(* C142: links locked to the link r (at the poses their joint transforms give) can be replaced by r alone
   with the body CalcVirtualInertia returns: kinetic energy, momentum and angular momentum about any point
   are the same at every joint velocity, and so is the mass matrix, whatever the other links are *)
Theorem C142_locked (links : seq (tlink R)) (Q : nat -> 'M[R]_3) (x : nat -> 'cV[R]_3) (r : link R sys) (lk : nat -> link R sys) :
  (0 < size links)%N -> well_formed links -> poses links Q x ->
  (forall i l, onth links i = Some l -> 0 < mass (tbody l) /\ rotation (jrot l)) ->
  rotation (rotm r) ->
  (forall i l, onth links i = Some l -> bd (lk i) = tbody l /\ carried r (Q i) (x i) (lk i)) ->
  exists I c M, CalcVirtualInertia links 1%:M 0 = Some (I, c, M) /\
  forall one, bd one = Body M c I -> carried r 1%:M 0 one -> forall rest,
  let locked := [seq lk i | i <- iota 0 (size links)] in
  [/\ forall q : 'cV[R]_sys, energy2 (one :: rest) q = energy2 (locked ++ rest) q,
      total_mass (one :: rest) = total_mass (locked ++ rest),
      forall q : 'cV[R]_sys, total_momentum (one :: rest) q = total_momentum (locked ++ rest) q,
      forall p (q : 'cV[R]_sys), total_angular (one :: rest) p q = total_angular (locked ++ rest) p q &
      forall A, mass_matrix (one :: rest) A <-> mass_matrix (locked ++ rest) A].
Proof.
move=> s0 wf ps hl hr hlk; have [I [c [M [e [eM ec eI]]]]] := C45_virtual_inertia 1%:M 0 s0 wf ps hl.
rewrite add0r mul1mx in e; exists I, c, M; split=> // one eo ho rest locked.
pose N := size links; rewrite -/N in eM ec eI.
pose part (i : 'I_N) := moved (tbody (tnth (in_tuple links) i)) (Q i) (x i).
have bo : moved (bd one) 1%:M 0 = Body M c I by rewrite eo /moved /= trmx1 !mul1mx mulmx1 addr0.
have hi (i : 'I_N) : bd (lk i) = tbody (tnth (in_tuple links) i) /\ carried r (Q i) (x i) (lk i).
  apply: hlk; rewrite (tnth_nth (TLink (Body 0 0 0) None [::] 0 0)) /onth.
  by rewrite (drop_nth (TLink (Body 0 0 0) None [::] 0 0)).
have pe (i : 'I_N) : moved (bd (lk i)) (Q i) (x i) = part i by rewrite (proj1 (hi i)).
have sumE (V : zmodType) (F : link R sys -> V) : \sum_(l <- locked) F l = \sum_(i < N) F (lk i).
  by rewrite /locked big_map -/N -[in LHS](subn0 N) -/(index_iota 0 N) big_mkord.
have eE (q : 'cV[R]_sys) : energy2 (one :: rest) q = energy2 (locked ++ rest) q.
  rewrite /energy2 big_cons big_cat /= sumE; congr (_ + _).
  rewrite (one_energy q hr ho) bo /= ec eI eM mulr_suml.
  set w := jac_bottom r *m q; set V := jac_top r *m q.
  rewrite [RHS](eq_bigr (fun i => mass (part i) * dot V V + (2%:R * dot V (crossp w (rotm r *m (mass (part i) *: com (part i)))) +
      dot w (rotm r *m inertia_about (part i) 0 *m (rotm r)^T *m w)))); last first.
    by move=> i _; have [_ hc] := hi i; rewrite (one_energy q hr hc) pe.
  rewrite [RHS]big_split [X in _ = _ + X]big_split /=; congr (_ + (_ + _)).
    rewrite mulmx_sumr -skew_cross mulmx_sumr dot_sumr mulr_sumr.
    by apply: eq_bigr => i _; rewrite skew_cross.
  by rewrite mulmx_sumr !mulmx_suml dot_sumr.
have eP (q : 'cV[R]_sys) : total_momentum (one :: rest) q = total_momentum (locked ++ rest) q.
  rewrite /total_momentum big_cons big_cat /= sumE; congr (_ + _).
  rewrite (one_momentum q hr ho) bo /= ec eM scaler_suml mulmx_sumr -skew_cross mulmx_sumr -big_split /=.
  by apply: eq_bigr => i _; have [_ hc] := hi i; rewrite (one_momentum q hr hc) pe skew_cross.
split=> //.
- rewrite /total_mass big_cons big_cat /= sumE eo /= eM; congr (_ + _).
  by apply: eq_bigr => i _; have [-> _] := hi i.
- move=> p q; rewrite /total_angular big_cons big_cat /= sumE; congr (_ + _).
  rewrite (one_angular q p hr ho) bo /= ec eI eM.
  set w := jac_bottom r *m q; set V := jac_top r *m q.
  rewrite [RHS](eq_bigr (fun i => crossp (xpos r - p) (mass (part i) *: V + crossp w (rotm r *m (mass (part i) *: com (part i)))) +
     (crossp (rotm r *m (mass (part i) *: com (part i))) V + rotm r *m inertia_about (part i) 0 *m (rotm r)^T *m w))); last first.
    by move=> i _; have [_ hc] := hi i; rewrite (one_angular q p hr hc) pe.
  rewrite [RHS]big_split [X in _ = _ + X]big_split /=; congr (_ + (_ + _)).
  + rewrite -[RHS](eq_bigr _ (fun i _ => skew_cross _ _)) -mulmx_sumr skew_cross; congr crossp.
    by rewrite big_split /= scaler_suml; congr (_ + _); rewrite mulmx_sumr -skew_cross mulmx_sumr; apply: eq_bigr => i _; rewrite skew_cross.
  + rewrite mulmx_sumr -skew_cross skew_sum mulmx_suml; by apply: eq_bigr => i _; rewrite skew_cross.
  + by rewrite mulmx_sumr !mulmx_suml.
- by move=> A; rewrite /mass_matrix; split=> -[h1 h2]; split=> // qd; rewrite h2 eE.
Qed.
End Kin.

(* C143, what holds: with links[0] parallel to the world frame the result is the whole sub-tree as one body,
   seen from the world frame *)
Theorem C143_parallel_partial (R : realFieldType) (links : seq (tlink R)) (Q : nat -> 'M[R]_3) (x : nat -> 'cV[R]_3) (xpos0 : 'cV[R]_3) :
  (0 < size links)%N -> well_formed links -> poses links Q x ->
  (forall i l, onth links i = Some l -> 0 < mass (tbody l) /\ rotation (jrot l)) ->
  exists I c M, CalcVirtualInertia links 1%:M xpos0 = Some (I, c, M) /\
  let part (i : 'I_(size links)) := moved (tbody (tnth (in_tuple links) i)) (Q i) (x i + xpos0) in
  [/\ M = \sum_i mass (part i), M *: c = \sum_i mass (part i) *: com (part i) &
      forall p, inertia_about (Body M c I) p = \sum_i inertia_about (part i) p].
Proof.
move=> s0 wf ps hl; have [I [c [M [e [eM ec eI]]]]] := C45_virtual_inertia 1%:M xpos0 s0 wf ps hl.
exists I, (xpos0 + 1%:M *m c), M; split=> //=; split=> //.
- rewrite mul1mx scalerDr ec {1}eM /= scaler_suml -big_split /=; apply: eq_bigr => i _.
  by rewrite -scalerDr [X in _ *: X]addrC -addrA.
- move=> p; have := eI (p - xpos0); rewrite /inertia_about /= mul1mx.
  have -> : c - (p - xpos0) = xpos0 + c - p by rewrite opprB addrCA addrA.
  move=> ->; apply: eq_bigr => i _; congr (_ + _ *: point_inertia _).
  by rewrite opprB !addrA.
Qed.

(* C143 refuted: otherwise the centre of mass is in world coordinates and the inertia in those of links[0]:
   the result is the body neither in the one frame nor in the other *)
Theorem C143_frame_refuted : exists (b : body [fieldType of rat]) rotm0 xpos0 I c M,
  [/\ rotation rotm0, 0 < mass b & CalcVirtualInertia [:: TLink b None [::] 1%:M 0] rotm0 xpos0 = Some (I, c, M)] /\
  Body M c I <> b /\ Body M c I <> moved b rotm0 xpos0.
Proof.
pose b : body [fieldType of rat] := Body 1 (vec3 1 0 0) (mx3 [:: [:: 1; 0; 0]; [:: 0; 2%:R; 0]; [:: 0; 0; 3%:R]]).
exists b, (rotZ 0 1), 0, (inertia b), (0 + rotZ 0 1 *m com b), (mass b).
split; first by split=> //; exact: ex_rot.
split=> -[].
- move=> /(congr1 (@X _)); rewrite add0r mulmv !xyz !mxE !inordK //= mul0r mulr0 mulr0 !addr0.
- move=> _ /(congr1 (fun m : 'M[rat]_3 => Y (m *m vec3 0 1 0))); rewrite -!mulmxA !mulmv !xyz.
  by rewrite !mxE !inordK //= ?mul0r ?mulr0 ?mul1r ?mulr1 ?addr0 ?add0r.
Qed.

(* C144: with or without a trailing entry "COM", the matrix maps any joint velocity to the angular momentum
   of the links about the point given *)
Theorem C144_virtual_cmm (R : fieldType) (n : nat) (x : string * link R n) s back (p : 'cV[R]_3) :
  (last x s).1 <> "COM"%string -> all_links (fun l => rotation (rotm l)) [seq y.2 | y <- x :: s] ->
  exists A, [/\ CalcVirtualCMM (x :: s) p = Some A, CalcVirtualCMM (rcons (x :: s) ("COM"%string, back)) p = Some A &
    forall q, A *m q = \sum_(l <- [seq y.2 | y <- x :: s]) angular_momentum l (jac_top l *m q) (jac_bottom l *m q) p].
Proof.
move=> /String.eqb_neq hn hr; exists (CalcAngularMomentumMatrix [seq y.2 | y <- x :: s] p); split.
- by rewrite /CalcVirtualCMM hn take_size.
- rewrite /CalcVirtualCMM rcons_cons last_rcons -rcons_cons size_rcons subn1 /=.
  by rewrite -cats1 take_cat ltnn subnn take0 cats0.
- by move=> q; exact: C46_angular_momentum.
Qed.

(* C144: on the robot's own links and com_pos it is the lower half of the CMM_ of UpdateKinematics *)
Theorem C144_same_as_CMM (R : realFieldType) (n : nat) (st : kstate R n) q qd qdd e l0 ls st' (names : seq string) back :
  size q = k_qsize st -> size qd = (3 + 3 + n)%N -> size qdd = (3 + 3 + n)%N -> e_links e = l0 :: ls ->
  sane (e_links e) -> mass_matrix (e_links e) (e_crba e) -> (forall v, v != 0 -> 0 < energy2 (e_links e) v) ->
  floating (e_links e) (xpos l0) (rotm l0) -> xpos l0 = colv 3 q ->
  UpdateKinematics st q qd qdd true e = Some st' ->
  size names = size (e_links e) ->
  CalcVirtualCMM (rcons (zip names (e_links e)) ("COM"%string, back)) (k_compos st') = Some (dsubmx (k_CMM st')).
Proof.
move=> hq hqd hqdd el hs hA hpos hf hx h hn.
have [_ hC _ _ _] := stale_run hq hqd hqdd el hs hA hpos hf hx h.
have e2 : [seq y.2 | y <- zip names (e_links e)] = e_links e by rewrite -/(unzip2 _) unzip2_zip // hn.
case ez: (zip names (e_links e)) e2 => [|y s] e2; first by rewrite el in e2.
rewrite /CalcVirtualCMM rcons_cons last_rcons -rcons_cons size_rcons subn1 /= -cats1 take_cat ltnn subnn take0 cats0.
rewrite -/(map _ (y :: s)) e2 -/(CalcAngularMomentumMatrix _ _); congr Some; apply: mulmx_ext => v.
rewrite C46_angular_momentum; last by apply: all_linksW hs => l [].
by rewrite mul_dsub_mx hC col_mxKd.
Qed.

(* an empty list is undefined behaviour *)
Theorem C144_empty (R : fieldType) (n : nat) (p : 'cV[R]_3) : CalcVirtualCMM ([::] : seq (string * link R n)) p = None.
Proof. by []. Qed.

(* Examples *)
Local Notation Q := [realFieldType of rat].
Definition cb (m : nat) : body Q := Body m%:R (vec3 1 0 0) 1%:M.
Definition crobot : robot Q :=
  Robot [:: NLink "base" (Some 2%N) (cb 3); NLink "Arm" (Some 3%N) (cb 1); NLink "COM" None (Body (-1) 0 0)]
        [:: Body 0 0 0; Body 0 0 0; cb 3; cb 1]
        [:: createFromMassComInertiaC (cb 0); createFromMassComInertiaC (cb 0); createFromMassComInertiaC (cb 3); createFromMassComInertiaC (cb 1)]
        [:: createFromMassComInertiaC (cb 0); createFromMassComInertiaC (cb 0); createFromMassComInertiaC (cb 3); createFromMassComInertiaC (cb 1)]
        (3%:R + 1%:R).
Lemma crobot_ok : consistent crobot.
Proof.
split.
  case=> [|[|[|k]]] l j //= [<-] //= [<-]; eexists; eexists; eexists; split; try split; try reflexivity; exact: create_describes.
by case=> [|[|[|k]]] [|[|[|k']]] l l' j //= [<-] [<-] //= [<-].
Qed.
Example C139_ex : [/\ consistent crobot, exists l, first_named crobot "ARM" 1 l /\ l_body_id l = Some 3%N,
  exists l, first_named crobot "com" 2 l /\ l_body_id l = None & r_total_mass crobot = mass_of_links crobot].
Proof.
split; first exact: crobot_ok.
- by exists (NLink "Arm" (Some 3%N) (cb 1)); split=> //; split=> //; case=> // li _ [<-].
- by exists (NLink "COM" None (Body (-1) 0 0)); split=> //; split=> //; case=> [|[|i]] // li _ [<-].
- by rewrite /mass_of_links !big_cons big_nil /= addr0.
Qed.
Example C140_ex : forall k l, onth (r_link crobot) k = Some l -> strcaseeq (l_name l) "leg" = false.
Proof. by case=> [|[|[|k]]] l //= [<-]. Qed.

(* the robot of Kin_Ex, whose base weighed 3 when its total mass was stored and weighs 2 now *)
Definition kold : kstate Q 1 := KState 8 4%:R [::] [::] [::] 0 0 0 0 0 0 0 0 ks kz.
Example C141_ex : exists st', UpdateKinematics kold kq kqd kqdd true kenv = Some st' /\
  total_mass ks *: k_compos st' != \sum_(l <- ks) mass (bd l) *: xi l.
Proof.
have tm : total_mass ks = 3%:R by rewrite -ks_mass.
have [|st' h] := stale_defined (st := kold) (q := kq) (qd := kqd) (qdd := kqdd) (e := kenv)
  erefl erefl erefl (erefl : e_links kenv = k0 :: [:: k1]) ks_sane (composite_ok ks_sane) ks_pos ks_floating ks_x.
  by rewrite tm.
exists st'; split=> //; apply: (@C141_com_pos_refuted _ _ kold kq kqd kqdd kenv k0 [:: k1] st') => //.
- exact: ks_sane.
- exact: (composite_ok ks_sane).
- exact: ks_pos.
- exact: ks_floating.
- exact: ks_x.
- by rewrite tm.
- rewrite !big_cons big_nil addr0 /xi /= !mulmx0 !addr0 subrr scaler0 add0r scale1r.
  by apply/eqP => /(congr1 (fun m : 'cV[Q]_3 => m (inord 0) 0)); rewrite !mxE !inordK.
Qed.

(* the branching tree of C45 carried by the base of that robot *)
Definition cl (i : nat) : link Q (3 + 3 + 1) :=
  Link (tbody (nth (TLink ex_b1 None [::] 1%:M 0) ex_tree i)) (rotm k0 *m ex_Q i) (xpos k0 + rotm k0 *m ex_x i) 0 0 0 0
       (jac_top k0 - skew (rotm k0 *m ex_x i) *m jac_bottom k0) (jac_bottom k0).
Example C142_ex : rotation (rotm k0) /\
  forall i l, onth ex_tree i = Some l -> bd (cl i) = tbody l /\ carried k0 (ex_Q i) (ex_x i) (cl i).
Proof.
split; first exact: rot1.
move=> i l o; split.
  by have [] := onth_nth (TLink ex_b1 None [::] 1%:M 0) o => _ <-.
by split=> // q; rewrite mulmxBl -mulmxA skew_cross -cross_anti.
Qed.
Example C144_ex : (last ("base"%string, k0) [:: ("arm"%string, k1)]).1 <> "COM"%string /\
  all_links (fun l => rotation (rotm l)) [seq y.2 | y <- [:: ("base"%string, k0); ("arm"%string, k1)]].
Proof. by split=> //; split; [exact: rot1|split; [exact: rot1|]]. Qed.

Print Assumptions C139_defined.
Print Assumptions C139_change.
Print Assumptions C139_any_case.
Print Assumptions C140_unknown_refuted.
Print Assumptions C140_com_refuted.
Print Assumptions C141_total_mass_refuted.
Print Assumptions C141_com_pos_refuted.
Print Assumptions C141_stale_partial.
Print Assumptions C141_lowered_completes.
Print Assumptions C142_locked.
Print Assumptions C143_parallel_partial.
Print Assumptions C143_frame_refuted.
Print Assumptions C144_virtual_cmm.
Print Assumptions C144_same_as_CMM.
Print Assumptions C144_empty.
