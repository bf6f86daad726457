(* C145-C149: the virtual model built from links and joints; point Jacobians of a link. *)
From Coq Require Import String.
From mathcomp Require Import all_ssreflect all_algebra.
From mathcomp Require Import ring.
From Verif Require Import Geo_Model Geo_Spec Geo_Proofs Inr_Model Inr_Spec Inr_Proofs Inr_Props Chg_Model Chg_Proofs Vmd_Model Vmd_Spec Vmd_Proofs.
Set Implicit Arguments.
Unset Strict Implicit.
Unset Printing Implicit Defensive.
Import GRing.Theory Num.Theory.
Local Open Scope ring_scope.

Section C.
Variable R : fieldType.
Implicit Types (links ls : seq (vlink R)) (joints : seq (joint R)).

(* C145: for complete joints and parents listed before their children the model is built; it has one body per
   link, with the link's name and inertial parameters, on a joint of the kind asked for, attached to the body
   of the link's parent (to the world for a floating base and for a link without parent); the ids of the
   bodies are stored in the links, of which nothing else changes *)
Theorem C145_structure links joints :
  (size links <= size joints)%N ->
  (forall i j, onth joints i = Some j -> (i < size links)%N -> complete j) -> ordered links joints ->
  exists m ls, [/\ InitModelWithLinkJoint links joints = Some (m, ls),
    size ls = size links /\ size (m_bodies m) = size links,
    forall i l, onth links i = Some l -> exists l',
      [/\ onth ls i = Some l', v_name l' = v_name l, v_parent l' = v_parent l & v_body l' = v_body l] &
    forall i l j, onth ls i = Some l -> onth joints i = Some j -> exists b, onth (m_bodies m) i = Some b /\
      [/\ b_id b = v_body_id l /\ (0 < b_id b)%N, b_name b = v_name l, b_body b = v_body l, joint_kind j (b_joint b) &
          (* attached to the parent's body *)
          (floating_joint j \/ v_parent l = None -> b_lambda b = 0%N) /\
          forall p lp, ~ floating_joint j -> v_parent l = Some p -> onth ls p = Some lp -> b_lambda b = v_body_id lp]].
Proof.
move=> hs hc ho; have [m [ls [e [s1 s2 h1 h2 h3]]]] := loop_built hs (leqnn _) hc ho.
exists m, ls; split=> // i l j o oj; have il : (i < size links)%N by rewrite -s1 (onth_size o).
have [b [ob [q1 [q2 q2'] q3 q4 q5]]] := h3 _ _ _ il o oj; exists b; split=> //; split=> //.
  by rewrite q1; split=> //; have /andP[] := h2 _ _ il o.
split.
  by case=> h; move: q5; [rewrite h eqxx; case: (v_parent l)|rewrite h].
by move=> p lp /eqP nf hp op; move: q5; rewrite hp (negbTE nf) => -[lp' op' ->]; move: op'; rewrite op => -[->].
Qed.

(* C146, what holds: if every joint rotation is its own inverse (symmetric), the pose of each body of the
   virtual model at zero joint angles is the pose the joints give the link *)
Theorem C146_symmetric_partial links joints m ls (O Q : nat -> 'M[R]_3) (X x : nat -> 'cV[R]_3) :
  (size links <= size joints)%N ->
  (forall i j, onth joints i = Some j -> (i < size links)%N -> complete j) -> ordered links joints ->
  (forall i j E, onth joints i = Some j -> joint_rotation j = Some E -> E^T = E) ->
  InitModelWithLinkJoint links joints = Some (m, ls) -> zero_pose m O X -> link_pose links joints Q x ->
  forall i l, onth ls i = Some l -> O (v_body_id l) = Q i /\ X (v_body_id l) = x i.
Proof.
move=> hs hc ho hsym; have [m' [ls' [e [s1 s2 h1 h2 h3]]]] := loop_built hs (leqnn _) hc ho.
rewrite /InitModelWithLinkJoint e => -[<- <-] [O0 X0 hO] hQ i.
elim/ltn_ind: i => i IH l o; have il : (i < size links)%N by rewrite -s1 (onth_size o).
have [j oj] := onth_some (leq_trans il hs); have [b [ob [q1 q2 q3 [q4 q4'] q5]]] := h3 _ _ _ il o oj.
have [lo oo] := onth_some il; have [lo' [oo' _ po _]] := h1 _ _ oo; move: oo'; rewrite o => -[eo]; rewrite -eo in po.
have := hQ _ _ _ _ _ oo oj q4 q4'; rewrite -po; have [hb1 hb2] := hO _ _ ob; rewrite -q1 hb1 hb2 (hsym _ _ _ oj q4).
move: q5; case ep: (v_parent l) => [p|]; last by move=> -> [-> ->]; rewrite O0 X0 !mul1mx add0r.
case: ifP => nf; first by move=> -> [-> ->]; rewrite O0 X0 !mul1mx add0r.
move=> [lp op ->] [-> ->]; rewrite ep in po.
have [pi|[ff _]] := ho _ _ _ _ oo oj (esym po); last by move: ff; rewrite /floating_joint => ff; rewrite ff in nf.
by have [-> ->] := IH _ pi _ op.
Qed.

(* C146 refuted: a joint taken from a loaded model comes back transposed *)
Theorem C146_transposed_refuted (name : string) (b : body R) (axis : 'cV[R]_3) (E : 'M[R]_3) (r : 'cV[R]_3) m ls :
  InitModelWithLinkJoint [:: VLink name None b 0] [:: loaded_revolute axis E r] = Some (m, ls) ->
  exists rb, m_bodies m = [:: rb] /\ b_E rb = E^T /\ b_r rb = r.
Proof. by rewrite /InitModelWithLinkJoint /= => -[<- _]; eexists. Qed.

(* C147 refuted: with the joints of a loaded robot, whose base is on a floating joint, the joint frame of the
   base has never been set *)
Theorem C147_loaded_refuted (base : vlink R) links joints :
  InitModelWithLinkJoint (base :: links) (loaded_floating R :: joints) = None.
Proof.
rewrite /InitModelWithLinkJoint [size _]/=; elim: (size links) => [|k IH]; first by [].
by rewrite [init_loop _ _ _]/= -/(init_loop k.+1 _ _); move: IH; rewrite [init_loop k.+1 _ _]/= => ->.
Qed.

Section Jac.
Variable n : nat.
Implicit Types (k : kin R n) (xpos p : 'cV[R]_3) (rotm : 'M[R]_3).

(* C148: jac_ maps joint velocities to the velocity of the link's origin (first three rows) and its angular
   velocity; GetPointJac at a point of the link, and jac_com_ at its centre of mass, give the velocity of that
   point of the same rigid motion *)
Theorem C148_point_jacobian k body_id xpos rotm p c :
  (forall j, j <> 0%N -> (k_lambda k j < j)%N) ->
  exists J Jc Jp, UpdateJac k body_id xpos rotm c = (Some J, Some Jc) /\ GetPointJac k body_id xpos rotm p = Some Jp /\
  forall q : 'cV[R]_n, let vel := usubmx (J *m q) in let om := dsubmx (J *m q) in
    Jp *m q = col_mx (vel + crossp om (GetPointPos xpos rotm p - xpos)) om /\
    Jc *m q = col_mx (vel + crossp om (rotm *m c)) om.
Proof.
move=> hl; have [s es] : exists s, path k body_id body_id = Some s.
  have gen f j : (j <= f)%N -> exists s, path k f j = Some s.
    elim: f j => [|f IH] [|j] //=; try by exists [::].
    move=> jf; have lt : (k_lambda k j.+1 <= f)%N by rewrite -ltnS; apply: leq_trans jf; apply: (hl j.+1).
    by have [s ->] := IH _ lt; exists (j.+1 :: s).
  exact: gen.
rewrite /UpdateJac /GetPointJac /CalcPointJacobian6D es /= mulmx0 addr0 /GetPointPos !fill_eq.
do 3!eexists; do 2!(split; first by reflexivity).
rewrite /swap_rows !col_mxKu !col_mxKd; set W := \sum_(j <- s) k_w k j *m _; set U := \sum_(j <- s) k_u k j *m _.
have gen (a : 'cV[R]_3) (q : 'cV[R]_n) : col_mx (U - skew (xpos + a) *m W) W *m q =
    col_mx (usubmx (col_mx (U - skew xpos *m W) W *m q) + crossp (dsubmx (col_mx (U - skew xpos *m W) W *m q)) a)
           (dsubmx (col_mx (U - skew xpos *m W) W *m q)).
  rewrite !mul_col_mx col_mxKu col_mxKd; congr col_mx.
  by rewrite cross_anti -skew_cross mulmxA -mulmxBl skewD [(_ + _) *m W]mulmxDl opprD addrA.
by move=> q /=; rewrite [_ - xpos]addrC addKr -!gen.
Qed.

(* C148: only the joints on the way to the root move the link *)
Theorem C148_other_joints k body_id xpos rotm p J (i : 'I_n) s :
  path k body_id body_id = Some s -> (forall j, j \in s -> k_index k j <> i) ->
  GetPointJac k body_id xpos rotm p = Some J -> col i J = 0.
Proof.
rewrite /GetPointJac /CalcPointJacobian6D => -> hi /= [<-].
have z (f : nat -> 'cV[R]_3) : (\sum_(j <- s) f j *m delta_mx 0 (k_index k j)) *m delta_mx i 0 = 0 :> 'cV[R]_3.
  rewrite mulmx_suml big_seq big1 // => j js; rewrite -mulmxA mul_delta_mx_cond.
  by case: eqP => [/(hi _ js)//|_]; rewrite mulr0n mulmx0.
rewrite colE fill_eq /swap_rows col_mxKu col_mxKd mul_col_mx mulmxBl -mulmxA !z mulmx0 subr0.
by rewrite col_mx0.
Qed.

(* C149 refuted: GetJacDot is the Jacobian (angular rows first) of the point whose world position is the
   link's velocity, whatever the joint velocities and the point given *)
Theorem C149_jacobian_refuted k body_id (v p : 'cV[R]_3) (q_dot : 'cV[R]_n) :
  GetJacDot k body_id v q_dot p = CalcPointJacobian6D k body_id 0 1%:M v.
Proof. by rewrite /GetJacDot /CalcPointJacobian6D mul1mx add0r. Qed.

Lemma inj_of (T T' : eqType) (f : T -> T') (s : seq T) x y : uniq [seq f j | j <- s] -> x \in s -> y \in s -> f x = f y -> x = y.
Proof.
elim: s => //= a s IH /andP[na us]; rewrite !in_cons => /orP[/eqP->|xs] /orP[/eqP->|ys] // e.
- by move: na; rewrite e map_f.
- by move: na; rewrite -e map_f.
- exact: IH.
Qed.

(* so at rest, where the derivative of every Jacobian is zero, it is not, unless no joint moves the link *)
Theorem C149_at_rest_refuted k body_id p J s :
  path k body_id body_id = Some s -> uniq [seq k_index k j | j <- s] ->
  GetJacDot k body_id 0 0 p = Some J -> J = 0 -> forall j, j \in s -> k_w k j = 0 /\ k_u k j = 0.
Proof.
rewrite /GetJacDot => -> /= hu [<-]; rewrite fill_eq skew0 mul0mx subr0 => e j js.
have pick (f : nat -> 'cV[R]_3) : \sum_(j <- s) f j *m delta_mx 0 (k_index k j) = 0 :> 'M[R]_(3, n) -> f j = 0.
  move=> z; have : (\sum_(j <- s) f j *m delta_mx 0 (k_index k j)) *m delta_mx (k_index k j) 0 = 0 :> 'cV[R]_3 by rewrite z mul0mx.
  rewrite mulmx_suml (bigD1_seq j js) /=; last exact: map_uniq hu.
  rewrite big_seq_cond big1 ?addr0; last first.
    move=> i /andP[is_ ne]; rewrite -mulmxA mul_delta_mx_cond; case: eqP => [ei|_]; last by rewrite mulr0n mulmx0.
    by move: ne; rewrite (inj_of hu is_ js ei) eqxx.
  by rewrite -mulmxA mul_delta_mx [delta_mx 0 0]mx11_scalar mxE !eqxx mulmx1.
by move/eqP: e; rewrite col_mx_eq0 => /andP[/eqP h1 /eqP h2]; split; exact: pick.
Qed.
End Jac.
End C.

(* C146 refuted, seen from outside: a link on a revolute joint whose frame is turned a quarter about z; its
   zero-angle orientation in the virtual model is not the link's *)
Local Notation Q := [fieldType of rat].
Definition vb (m : nat) : body Q := Body m%:R (vec3 1 0 0) 1%:M.
Definition quarter : 'M[rat]_3 := rotZ 0 1.
Lemma quarterT : quarter^T <> quarter.
Proof.
move/matrixP/(_ (inord 0) (inord 1)); rewrite /quarter !mxE /= !inordK //=.
Qed.
Theorem C146_refuted : exists (links : seq (vlink Q)) joints m ls O X Qp x l,
  [/\ rotation quarter, joints = [:: loaded_revolute (vec3 0 0 1) quarter 0], InitModelWithLinkJoint links joints = Some (m, ls),
      zero_pose m O X /\ link_pose links joints Qp x & onth ls 0 = Some l /\ O (v_body_id l) <> Qp 0%N].
Proof.
exists [:: VLink "arm" None (vb 1) 0], [:: loaded_revolute (vec3 0 0 1) quarter 0].
exists (RModel [:: RBody 1 0 quarter^T 0 (RRevolute (vec3 0 0 1 : 'cV[Q]_3)) (vb 1) "arm"] 1), [:: VLink "arm" None (vb 1) 1].
exists (fun i => if i is 0%N then 1%:M else quarter), (fun=> 0), (fun=> quarter^T), (fun=> 0), (VLink "arm" None (vb 1) 1).
split=> //; first exact: ex_rot.
  split; first by split=> // -[|i] b //= [<-]; rewrite /= trmxK mul1mx mulmx0 addr0.
  by move=> [|i] l j E r //= [<-] [<-] [<-] [<-].
by split=> // e; apply: quarterT; rewrite -e.
Qed.

(* Examples *)
(* a floating base carrying a revolute arm, which carries a second one *)
Definition vlinks : seq (vlink Q) :=
  [:: VLink "base" None (vb 3) 0; VLink "arm" (Some 0%N) (vb 2) 0; VLink "hand" (Some 1%N) (vb 1) 0].
Definition vjoints (E : 'M[rat]_3) : seq (joint Q) :=
  [:: Joint JOINT_FLOATING_BASE None (Some 1%:M) (Some 0);
      Joint JOINT_REVOLUTE (Some (vec3 0 0 1)) (Some E) (Some (vec3 1 0 0));
      Joint JOINT_REVOLUTE (Some (vec3 1 0 0)) (Some E) (Some (vec3 0 2%:R 0))].
Example C145_ex : [/\ (size vlinks <= size (vjoints quarter))%N,
  forall i j, onth (vjoints quarter) i = Some j -> (i < size vlinks)%N -> complete j, ordered vlinks (vjoints quarter) &
  omap (fun x => [seq (b_id b, b_lambda b) | b <- m_bodies x.1]) (InitModelWithLinkJoint vlinks (vjoints quarter)) =
    Some [:: (2, 0); (3, 2); (4, 3)]%N].
Proof.
split=> //.
- move=> [|[|[|i]]] j //= [<-] _; (split; first by split).
  + by left.
  + by right; right.
  + by right; right.
- by move=> [|[|[|i]]] l j p //= [<-] _ //= [<-]; left.
Qed.
(* half a turn about z *)
Definition half : 'M[rat]_3 := rotZ (-1) 0.
Example C146_ex : rotation half /\ half <> 1%:M /\
  forall i j E, onth (vjoints half) i = Some j -> joint_rotation j = Some E -> E^T = E.
Proof.
have hs : half^T = half.
  by apply/matrixP => a b; rewrite /half !mxE; case: a b => [[|[|[|a]]] la] [[|[|[|b]]] lb] //=.
split; first by apply: rotZ_rotation.
split; first by move/matrixP/(_ 0 0); rewrite /half !mxE /=.
move=> [|[|[|i]]] j E //= [<-] /= [<-]; rewrite ?hs //; exact: trmx1.
Qed.
Example C147_ex : forall i j, onth [:: loaded_revolute (vec3 0 0 1 : 'cV[Q]_3) quarter (vec3 1 0 0)] i = Some j -> complete j.
Proof. by move=> [|i] j //= [<-]; split=> //; right; right. Qed.
(* two joints in a row, and a third one elsewhere *)
Definition vkin : kin Q 3 := Kin (fun j => if j == 2%N then 1%N else 0%N) (fun=> vec3 0 0 1) (fun j => vec3 0 j%:R 0)
  (fun j => inord j.-1).
Example C148_ex : [/\ forall j, j <> 0%N -> (k_lambda vkin j < j)%N, path vkin 2 2 = Some [:: 2; 1]%N &
  forall j, j \in [:: 2; 1]%N -> k_index vkin j <> inord 2].
Proof.
split=> // [[|[|[|j]]]|j] //; rewrite !inE => /orP[] /eqP-> /(congr1 val); by rewrite /= !inordK.
Qed.
Example C149_ex : path vkin 2 2 = Some [:: 2; 1]%N /\ uniq [seq k_index vkin j | j <- [:: 2; 1]%N] /\ k_w vkin 2 <> 0.
Proof.
split=> //; split; first by rewrite /= inE andbT; apply/eqP => /(congr1 val); rewrite /= !inordK.
by move/matrixP/(_ (inord 2) 0); rewrite !mxE !inordK.
Qed.

Print Assumptions C145_structure.
Print Assumptions C146_symmetric_partial.
Print Assumptions C146_transposed_refuted.
Print Assumptions C146_refuted.
Print Assumptions C147_loaded_refuted.
Print Assumptions C148_point_jacobian.
Print Assumptions C148_other_joints.
Print Assumptions C149_jacobian_refuted.
Print Assumptions C149_at_rest_refuted.
