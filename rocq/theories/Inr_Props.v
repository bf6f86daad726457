(* C42 - C46: rigid-body inertia. *)
From mathcomp Require Import all_ssreflect all_algebra.
From mathcomp.algebra_tactics Require Import ring.
From Verif Require Import Geo_Model Geo_Spec Geo_Proofs Inr_Model Inr_Spec Inr_Proofs Inr_Tree.
Set Implicit Arguments.
Unset Strict Implicit.
Unset Printing Implicit Defensive.
Import Order.TTheory GRing.Theory Num.Theory.
Local Open Scope ring_scope.

(* C42 *)
Theorem C42_merge (R : fieldType) (this other : body R) (Q : 'M[R]_3) (x : 'cV[R]_3) :
  rotation Q -> mass this + mass other != 0 ->
  exists b, [/\ AddLink this other Q x = Some b, mass b = mass this + mass other,
    mass b *: com b = mass this *: com this + mass other *: com (moved other Q x) &
    forall p, inertia_about b p = inertia_about this p + inertia_about (moved other Q x) p].
Proof.
move=> _ nz; case e: (AddLink this other Q x) => [b|]; last by move: e; rewrite /AddLink (negPf nz).
by have [h1 _ h3 h4] := merge_inertia e; exists b.
Qed.

(* C43 *)
Theorem C43_segment (R : fieldType) (l : body R) : mass l != 0 ->
  InertiaMatrixSegment (GetSpatialInertiaMatrix l false) = Some (inertia l, com l, mass l).
Proof.
move=> nz; rewrite /InertiaMatrixSegment /GetSpatialInertiaMatrix /= block_mxEul mxE eqxx mulr1n (negPf nz).
rewrite block_mxKdl block_mxKdr scalerA mulVf // scale1r.
have -> : vec3 (skew (com l) (inord 2) (inord 1)) (skew (com l) (inord 0) (inord 2)) (skew (com l) (inord 1) (inord 0)) = com l.
  by rewrite !mxE !inordK //= -vec3E.
by rewrite addrK.
Qed.

(* the two orderings of the spatial inertia are the same matrix with the blocks swapped *)
Theorem C43_orderings (R : fieldType) (l : body R) :
  let P : 'M[R]_(3 + 3) := block_mx 0 1%:M 1%:M 0 in
  GetSpatialInertiaMatrix l true = P *m GetSpatialInertiaMatrix l false *m P.
Proof.
move=> P; rewrite /P /GetSpatialInertiaMatrix !mulmx_block !mul0mx !mul1mx !mulmx0 !mulmx1 !add0r !addr0.
by rewrite skew_tr.
Qed.

(* C44.  Links after UpdatePos, with proper orientations and non-zero total mass: the inertia about the
   centre of mass has no coupling between rotation and translation, its translational block is the total
   mass, its rotational block the sum of the links' inertias about that point; the momentum is the total
   angular momentum about the centre of mass and the total linear momentum. *)
Theorem C44_com_inertia (R : fieldType) (n : nat) (links : seq (link R n)) :
  all_links (fun l => rotation (rotm l)) links -> \sum_(l <- links) mass (bd l) != 0 ->
  exists c : 'cV[R]_3, (\sum_(l <- links) mass (bd l)) *: c = \sum_(l <- links) mass (bd l) *: xi l /\
  CalcCOMInertia [seq UpdatePos l | l <- links] =
    Some (block_mx (\sum_(l <- links) inertia_about (moved (bd l) (rotm l) (xpos l)) c) 0 0 (\sum_(l <- links) mass (bd l))%:M,
          col_mx (\sum_(l <- links) angular_momentum l (v l) (w l) c)
                 (\sum_(l <- links) mass (bd l) *: com_velocity l (v l) (w l))).
Proof.
move=> hr nz; set M := \sum_(l <- links) mass (bd l) in nz *.
pose c : 'cV[R]_3 := M^-1 *: \sum_(l <- links) mass (bd l) *: xi l.
have hc : M *: c = \sum_(l <- links) mass (bd l) *: xi l by rewrite /c scalerA divff // scale1r.
exists c; split=> //; rewrite /CalcCOMInertia !big_map /= -/M (negPf nz).
have -> : \sum_(l <- links) M^-1 *: (mass (bd l) *: (xpos l + rotm l *m com (bd l))) = c by rewrite -scaler_sumr.
congr (Some (_, _)).
- rewrite (eq_Forall hr (g := fun l => block_mx (world_inertia l + mass (bd l) *: (skew (xi l - c) *m (skew (xi l - c))^T))
     (mass (bd l) *: skew (xi l - c)) (- (mass (bd l) *: skew (xi l - c))) (mass (bd l))%:M)); last first.
    by move=> l hl; rewrite -(baseframeE c hl).
  have z : \sum_(l <- links) mass (bd l) *: skew (xi l - c) = 0.
    transitivity (skew (\sum_(l <- links) mass (bd l) *: (xi l - c))).
      by rewrite skew_sum; apply: eq_bigr => l _; rewrite skewZ.
    rewrite (eq_bigr (fun l => mass (bd l) *: xi l - mass (bd l) *: c)); last by move=> l _; rewrite scalerBr.
    by rewrite sumrB -hc -scaler_suml subrr skew0.
  rewrite block_sum sumrN z oppr0 -raddf_sum; congr block_mx.
  apply: eq_bigr => l _; rewrite /inertia_about /moved /= point_inertia_skew.
  by rewrite (addrC (rotm l *m _)).
- rewrite (eq_Forall hr (g := fun l => col_mx (angular_momentum l (v l) (w l) c) (mass (bd l) *: com_velocity l (v l) (w l)))); last first.
    by move=> l hl; rewrite -(momentum_term c hl) -(baseframeE c hl).
  by rewrite col_sum.
Qed.

(* C46.  The matrix times the joint velocity is the total angular momentum about the given point; the
   six-row overload adds the linear momentum *)
Theorem C46_angular_momentum (R : fieldType) (n : nat) (links : seq (link R n)) (p : 'cV[R]_3) (q : 'cV[R]_n) :
  all_links (fun l => rotation (rotm l)) links ->
  CalcAngularMomentumMatrix links p *m q =
    \sum_(l <- links) angular_momentum l (jac_top l *m q) (jac_bottom l *m q) p.
Proof.
move=> hr; rewrite /CalcAngularMomentumMatrix mulmxBl mulmx_suml -mulmxA mulmx_suml.
rewrite (eq_Forall hr (fun l h => Ht_q q h)) (eq_Forall hr (fun l h => Hb_q q h)).
rewrite mulmx_sumr -sumrB; apply: eq_bigr => l _.
by rewrite /angular_momentum skew_cross -crossNr -addrA; congr (_ + _); rewrite crossNr -crossN -crossD.
Qed.
Theorem C46_six_rows (R : fieldType) (n : nat) (links : seq (link R n)) (p : 'cV[R]_3) (q : 'cV[R]_n) :
  all_links (fun l => rotation (rotm l)) links ->
  CalcAngularMomentumMatrix6 links p *m q =
    col_mx (\sum_(l <- links) angular_momentum l (jac_top l *m q) (jac_bottom l *m q) p)
           (\sum_(l <- links) mass (bd l) *: com_velocity l (jac_top l *m q) (jac_bottom l *m q)).
Proof.
move=> hr; rewrite /CalcAngularMomentumMatrix6 mul_col_mx -/(CalcAngularMomentumMatrix links p) C46_angular_momentum //.
by rewrite mulmx_suml (eq_Forall hr (fun l h => Hb_q q h)).
Qed.

(* C46: UpdatePos gives the position and the velocity of the link's centre of mass and changes no other
   field; with v = J q', w = J_w q' the lower three rows of the matrix times q' are the linear momentum
   made of these velocities *)
Theorem C46_link_com (R : fieldType) (n : nat) (l : link R n) :
  [/\ xipos (UpdatePos l) = xi l, vi (UpdatePos l) = com_velocity l (v l) (w l) &
      [/\ bd (UpdatePos l) = bd l, rotm (UpdatePos l) = rotm l, xpos (UpdatePos l) = xpos l,
          v (UpdatePos l) = v l /\ w (UpdatePos l) = w l &
          jac_top (UpdatePos l) = jac_top l /\ jac_bottom (UpdatePos l) = jac_bottom l]].
Proof. by split=> //; rewrite /= skew_cross. Qed.
Theorem C46_linear_momentum (R : fieldType) (n : nat) (links : seq (link R n)) (p : 'cV[R]_3) (q : 'cV[R]_n) :
  all_links (fun l => [/\ rotation (rotm l), v l = jac_top l *m q & w l = jac_bottom l *m q]) links ->
  dsubmx (CalcAngularMomentumMatrix6 links p *m q) = \sum_(l <- links) mass (bd l) *: vi (UpdatePos l).
Proof.
move=> h; have hr : all_links (fun l => rotation (rotm l)) links.
  by elim: links h => //= l ls IH [[]] hl _ _ /IH.
rewrite (C46_six_rows p q hr) col_mxKd.
elim: links h {hr} => [|l ls IH] h; first by rewrite !big_nil.
rewrite !big_cons; case: h => [[_ ev ew] /IH ->].
by have [_ -> _] := C46_link_com l; rewrite ev ew.
Qed.

(* C45 *)
Theorem C45_virtual_inertia (R : realFieldType) (links : seq (tlink R)) (Q : nat -> 'M[R]_3) (x : nat -> 'cV[R]_3)
    (rotm0 : 'M[R]_3) (xpos0 : 'cV[R]_3) :
  (0 < size links)%N -> well_formed links -> poses links Q x ->
  (forall i l, onth links i = Some l -> 0 < mass (tbody l) /\ rotation (jrot l)) ->
  exists I c M, CalcVirtualInertia links rotm0 xpos0 = Some (I, xpos0 + rotm0 *m c, M) /\
  let part (i : 'I_(size links)) := moved (tbody (tnth (in_tuple links) i)) (Q i) (x i) in
  [/\ M = \sum_i mass (part i), M *: c = \sum_i mass (part i) *: com (part i) &
      forall p, inertia_about (Body M c I) p = \sum_i inertia_about (part i) p].
Proof.
move=> s0 wf ps hl; pose joints := [seq (jrot l, jtrans l) | l <- links].
have hj i l : onth links i = Some l -> onth joints i = Some (jrot l, jtrans l).
  by rewrite /onth /joints -map_drop; case: (drop i links) => // a s [->].
have hm i l : onth links i = Some l -> 0 < mass (tbody l) by move=> /hl [].
have ho i l : onth links i = Some l -> (jrot l)^T *m jrot l = 1%:M by move=> /hl [_ []].
have orth := poses_orth wf ps ho.
have [q0 [x0 hq]] := ps.
(* the three additive quantities *)
have edge i l p b1 b2 b : onth links i = Some l -> (0 < i)%N -> parent_id l = Some p ->
   AddLink b1 b2 (jrot l) (jtrans l) = Some b ->
   [/\ mass b = mass b1 + mass b2,
       mass b *: com (moved b (Q p) (x p)) = mass b1 *: com (moved b1 (Q p) (x p)) + mass b2 *: com (moved b2 (Q i) (x i)) &
       forall r, inertia_about (moved b (Q p) (x p)) r = inertia_about (moved b1 (Q p) (x p)) r + inertia_about (moved b2 (Q i) (x i)) r].
  move=> o i0 hp ea; have [e1 e2] := hq _ _ _ o i0 hp; have [m1 _ m2 m3] := merge_inertia ea.
  have [p' hp' pi] := wf_parent wf o i0; rewrite hp in hp'; case: hp' pi => <- pi.
  have [il _] := onth_nth (TLink (Body 0 0 0) None [::] 0 0) o.
  have oq : (Q p)^T *m Q p = 1%:M by apply: orth; exact: ltn_trans il.
  split=> //.
    rewrite e1 e2 /= !scalerDr !scalemxAr m2 mulmxDr -!scalemxAr mulmxDr scalerDr m1 scalerDl !mulmxA.
    by rewrite -!addrA; congr (_ + _); rewrite [RHS]addrCA; congr (_ + _); rewrite [RHS]addrCA.
  move=> r; rewrite e1 e2 -moved_moved !(inertia_about_moved _ _ _ oq) m3 mulmxDr mulmxDl.
  by congr (_ + _).
have [B [eB mB sB]] := @loop_ok _ [zmodType of R] (fun _ b => mass b) joints (size links) links s0 (leqnn _) wf hj hm
  (fun i l p b1 b2 b o i0 hp ea => let: And3 h _ _ := edge i l p b1 b2 b o i0 hp ea in h).
have [B' [eB' _ sB']] := @loop_ok _ _ (fun i b => mass b *: com (moved b (Q i) (x i))) joints (size links) links s0 (leqnn _) wf hj hm
  (fun i l p b1 b2 b o i0 hp ea => let: And3 _ h _ := edge i l p b1 b2 b o i0 hp ea in h).
move: eB'; rewrite eB => -[eB']; rewrite -eB' in sB'.
exists (inertia B), (com B), (mass B); split; first by rewrite /CalcVirtualInertia eB.
have part i : tnth (in_tuple links) i = nth (TLink (Body 0 0 0) None [::] 0 0) links i by apply: tnth_nth.
split=> [||r].
- by rewrite sB; apply: eq_bigr => i _; rewrite part.
- move: sB'; rewrite q0 x0 /= mul1mx addr0 => ->.
  by apply: eq_bigr => i _; rewrite part.
have [B2 [eB2 _ sB2]] := @loop_ok _ _ (fun i b => inertia_about (moved b (Q i) (x i)) r) joints (size links) links s0 (leqnn _) wf hj hm
  (fun i l p b1 b2 b o i0 hp ea => let: And3 _ _ h := edge i l p b1 b2 b o i0 hp ea in h r).
move: eB2; rewrite eB => -[eB2]; rewrite -eB2 q0 x0 in sB2.
have -> : Body (mass B) (com B) (inertia B) = moved B 1%:M 0.
  by rewrite /moved trmx1 !mul1mx mulmx1 addr0.
by rewrite sB2; apply: eq_bigr => i _; rewrite part.
Qed.

(* Examples *)
Definition ex_b1 : body [fieldType of rat] := Body 1 (vec3 1 0 0) 1%:M.
Definition ex_b2 : body [fieldType of rat] := Body 3%:R (vec3 0 2%:R 1) (2%:R)%:M.
Lemma ex_rot : rotation (rotZ (0 : rat) 1).
Proof. by apply: rotZ_rotation. Qed.
Lemma ex_rot' : rotation (rotZ (3%:R / 5%:R : rat) (4%:R / 5%:R)).
Proof. by apply: rotZ_rotation. Qed.

Example C42_ex : rotation (rotZ (0 : rat) 1) /\ mass ex_b1 + mass ex_b2 != 0 /\
  omap (@com _) (AddLink ex_b1 ex_b2 (rotZ 0 1) (vec3 1 0 0)) = Some (vec3 (- (1 / 2%:R)) 0 (3%:R / 4%:R)).
Proof.
split; first exact: ex_rot; split=> //; congr Some.
by rewrite /= mulmv !mxE !inordK //=; apply: vecP; rewrite !xyz.
Qed.
Example C43_ex : mass ex_b2 != 0 /\ com ex_b2 != 0.
Proof. by split=> //; apply/eqP => /matrixP /(_ (inord 1) 0); rewrite !mxE !inordK. Qed.

Definition ex_links : seq (link [fieldType of rat] 2) :=
  [:: Link ex_b1 (rotZ 0 1) (vec3 1 2%:R 0) 0 (vec3 1 0 0) (vec3 0 0 1) 0 (const_mx 1) 0;
      Link ex_b2 (rotZ (3%:R / 5%:R) (4%:R / 5%:R)) (vec3 0 0 1) 0 (vec3 0 1 0) (vec3 1 0 0) 0 0 (const_mx 1)].
Example C44_ex : all_links (fun l => rotation (rotm l)) ex_links /\ \sum_(l <- ex_links) mass (bd l) != 0.
Proof. by split; [split; [exact: ex_rot|split; [exact: ex_rot'|]]|rewrite !big_cons big_nil]. Qed.

Definition moving (q : 'cV[rat]_2) (l : link [fieldType of rat] 2) :=
  Link (bd l) (rotm l) (xpos l) (xipos l) (jac_top l *m q) (jac_bottom l *m q) (vi l) (jac_top l) (jac_bottom l).
Example C46_ex : all_links (fun l => [/\ rotation (rotm l), v l = jac_top l *m (const_mx 3%:R) & w l = jac_bottom l *m (const_mx 3%:R)])
  [seq moving (const_mx 3%:R) l | l <- ex_links].
Proof. by split; [split=> //; exact: ex_rot|split; [split=> //; exact: ex_rot'|]]. Qed.

(* a branching tree: link 0 carries links 1 and 2, link 2 carries link 3 *)
Definition ex_tree : seq (tlink [fieldType of rat]) :=
  [:: TLink ex_b1 None [:: 1%N; 2%N] 1%:M 0; TLink ex_b2 (Some 0%N) [::] (rotZ 0 1) (vec3 1 0 0);
      TLink ex_b1 (Some 0%N) [:: 3%N] (rotZ 0 1) (vec3 0 1 0); TLink ex_b2 (Some 2%N) [::] (rotZ (3%:R / 5%:R) (4%:R / 5%:R)) (vec3 0 0 1)].
Definition ex_Q (i : nat) : 'M[rat]_3 :=
  match i with 1 | 2 => 1%:M *m rotZ 0 1 | 3 => 1%:M *m rotZ 0 1 *m rotZ (3%:R / 5%:R) (4%:R / 5%:R) | _ => 1%:M end.
Definition ex_x (i : nat) : 'cV[rat]_3 :=
  match i with 1 => 1%:M *m vec3 1 0 0 + 0 | 2 => 1%:M *m vec3 0 1 0 + 0
  | 3 => 1%:M *m rotZ 0 1 *m vec3 0 0 1 + (1%:M *m vec3 0 1 0 + 0) | _ => 0 end.
Lemma ex_tree_wf : well_formed ex_tree.
Proof.
split; [|split].
- by case=> [|[|[|[|i]]]] l //= [<-] //= _; [exists 0%N|exists 0%N|exists 2%N].
- move=> p l c; case: p => [|[|[|[|p]]]] //= [<-] /=; rewrite ?inE; split=> //.
  + by case/orP => /eqP ->; eexists; (split; first by reflexivity).
  + by case: c => [|[|[|[|c]]]] // [lc []] //= [<-].
  + by case: c => [|[|[|[|c]]]] // [lc []] //= [<-].
  + by move/eqP ->; eexists; (split; first by reflexivity).
  + by case: c => [|[|[|[|c]]]] // [lc []] //= [<-].
  + by case: c => [|[|[|[|c]]]] // [lc []] //= [<-].
- by case=> [|[|[|[|p]]]] l //= [<-].
Qed.
Example C45_ex : [/\ (0 < size ex_tree)%N, well_formed ex_tree, poses ex_tree ex_Q ex_x &
  forall i l, onth ex_tree i = Some l -> 0 < mass (tbody l) /\ rotation (jrot l)].
Proof.
split=> //; first exact: ex_tree_wf.
- by do 2!split=> //; case=> [|[|[|[|i]]]] l p //= [<-] //= _ [<-].
- case=> [|[|[|[|i]]]] l //= [<-] /=; split=> //; try exact: ex_rot; try exact: ex_rot'.
  by split; rewrite ?det1 // trmx1 mulmx1.
Qed.

Print Assumptions C42_merge.
Print Assumptions C43_segment.
Print Assumptions C43_orderings.
Print Assumptions C44_com_inertia.
Print Assumptions C45_virtual_inertia.
Print Assumptions C46_angular_momentum.
Print Assumptions C46_six_rows.
Print Assumptions C46_link_com.
Print Assumptions C46_linear_momentum.
