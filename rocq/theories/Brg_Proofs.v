(* Lemmas for Brg_Props.v. *)
From mathcomp Require Import all_ssreflect all_algebra.
From mathcomp Require Import zify.
From Verif Require Import LinAlg Geo_Model Dyn_Model Dyn_Spec Dyn_Proofs Redis_Model Brg_Model Brg_Spec.
Set Implicit Arguments.
Unset Strict Implicit.
Unset Printing Implicit Defensive.
Import Order.TTheory GRing.Theory Num.Theory.
Local Open Scope ring_scope.

Section Fill.
Variable R : rcfType.

Lemma fill_loop (g : nat -> R) d k : forall i (q : seq R) x,
  nth 0 (foldl (fun q j => set_nth 0 q (j + d) (g j)) q (iota i k)) x =
  (if (i + d <= x < i + k + d)%N then g (x - d)%N else nth 0 q x).
Proof.
elim: k => [|k IH] i q x /=; first by rewrite addn0; case: ifP => //; lia.
rewrite IH nth_set_nth /=; case: (x =P (i + d)%N) => [->|ne].
  by rewrite addnK; do 2![case: ifP => // ?]; lia.
by congr (if _ then _ else _); lia.
Qed.
Lemma fill_size (g : nat -> R) d k : forall i (q : seq R), (i + k + d <= size q)%N ->
  size (foldl (fun q j => set_nth 0 q (j + d) (g j)) q (iota i k)) = size q.
Proof.
elim: k => [|k IH] i q h //=; rewrite IH; rewrite size_set_nth; lia.
Qed.

Lemma readsP (a : pyarr R) xs k i : contiguous a -> holds a xs -> (i + k <= size xs)%N -> reads a i k = Some (take k (drop i xs)).
Proof.
move=> ct [sz el]; elim: k i => [|k IH] i h /=; first by rewrite take0.
have hi : (i < size xs)%N by lia.
have := el i hi; rewrite /elem ct mulr1 /ptr_at => ->; rewrite IH; last by lia.
by rewrite (drop_nth 0 hi).
Qed.
Lemma reads_ext (a b : pyarr R) i k : pa_mem a = pa_mem b -> pa_ptr a = pa_ptr b -> reads a i k = reads b i k.
Proof. by move=> e1 e2; elim: k i => //= k IH i; rewrite IH /ptr_at e1 e2. Qed.
Lemma readsA (a : pyarr R) xs k : contiguous a -> holds a xs -> size xs = k -> reads a 0 k = Some xs.
Proof. by move=> c h <-; rewrite (readsP c h) ?drop0 ?take_size. Qed.
End Fill.
Lemma fill_qE (R : rcfType) n (q : seq R) x y z qw qx qy qz js : size q = (n + 7)%N -> size js = n ->
  fill_q n q ([:: x; y; z; qw; qx; qy; qz] ++ js) = [:: x; y; z; qx; qy; qz] ++ js ++ [:: qw].
Proof.
move=> sq sj; rewrite /fill_q /=; set q1 := set_nth _ _ (6 + n)%N _.
have s1 : size q1 = (n + 7)%N by rewrite /q1 !size_set_nth; lia.
apply: (@eq_from_nth _ 0).
  by rewrite (fill_size (fun j => nth 0 _ (j + 7)%N)) ?s1 /= ?size_cat ?sj /=; lia.
move=> i; rewrite (fill_size (fun j => nth 0 _ (j + 7)%N)) ?s1; last by lia.
move=> hi; rewrite (fill_loop (fun j => nth 0 _ (j + 7)%N)) add0n add0n.
case: ifP => h.
  have -> : (i - 6 + 7 = (i - 6).+4.+3)%N by lia.
  have -> : (i = (i - 6).+4.+2)%N by lia.
  by rewrite /= !subSS subn0 nth_cat sj; case: ifP => // ; lia.
have [->|ne] := eqVneq i (6 + n)%N.
  by rewrite /q1 nth_set_nth /= eqxx nth_cat sj ltnn subnn.
rewrite /q1 nth_set_nth /= (negbTE ne).
have i6 : (i < 6)%N by lia.
do 6!rewrite nth_set_nth /=; clear -i6.
by do 6![case: i i6 => [|i] i6 //].
Qed.
Lemma fill_vE (R : rcfType) n (v p : seq R) : size v = (6 + n)%N -> size p = (6 + n)%N -> fill_v n v p = p.
Proof.
move=> sv sp; rewrite /fill_v.
have e u : foldl (fun v j => set_nth 0 v j (nth 0 p j)) u (iota 0 (6 + n)) =
    foldl (fun v j => set_nth 0 v (j + 0) (nth 0 p j)) u (iota 0 (6 + n)).
  by elim: (iota _ _) u => //= j js IH u; rewrite addn0 IH.
rewrite e; apply: (@eq_from_nth _ 0); first by rewrite (fill_size (nth 0 p)) sv ?sp; lia.
move=> i; rewrite (fill_size (nth 0 p)) sv => [|]; last by lia.
by move=> hi; rewrite (fill_loop (nth 0 p)) subn0; case: ifP => //; lia.
Qed.

Section Sessions.
Variable R : rcfType.
Variables (zs : bool) (n : nat) (phys : seq R -> seq R -> seq R -> snap R n) (codV2 : 'M[R]_n -> {k : nat & 'M[R]_(k, n)}).
Local Notation step := (step zs phys codV2).
Local Notation run := (run zs phys codV2).

Lemma run_cat s os os' : run s (os ++ os') = obind (run^~ os') (run s os).
Proof. by elim: os s => //= o os IH s; case: step => //= s'. Qed.

Definition sized (s : brg R n) := [/\ size (b_q s) = (n + 7)%N, size (b_qd s) = (6 + n)%N & size (b_qdd s) = (6 + n)%N].
Lemma fill_v_size (v p : seq R) : size v = (6 + n)%N -> size (fill_v n v p) = (6 + n)%N.
Proof.
move=> sv; rewrite /fill_v.
suff : forall k i (u : seq R), (i + k <= size u)%N -> size (foldl (fun v j => set_nth 0 v j (nth 0 p j)) u (iota i k)) = size u.
  by move=> ->; rewrite sv // add0n.
by elim=> [|k IH] i u h //=; rewrite IH; rewrite size_set_nth; lia.
Qed.
Lemma fill_q_size (q p : seq R) : size q = (n + 7)%N -> size (fill_q n q p) = (n + 7)%N.
Proof.
move=> sq; rewrite /fill_q (fill_size (fun j => nth 0 p (j + 7)%N)) !size_set_nth; lia.
Qed.
Lemma step_sized s o s' : step s o = Some s' -> sized s -> sized s'.
Proof.
move=> h [s1 s2 s3]; move: h; case: o => [qp qv qa|l r|h f||] /=.
- rewrite /UpdateKinematics; case: reads => // p; case: reads => // v; case: reads => // a; case: inverse => // Ai [<-].
  by split; rewrite /= ?fill_q_size ?fill_v_size.
- by rewrite /SetContact; case: (match l with true => _ | false => _ end) => // c [<-].
- by rewrite /SetTaskSpace; case: reads => // g; case: ifP => _; [|case: ifP => // _]; case=> <-.
- by rewrite /CalcTorque; case: (match b_con s with Some _ => _ | None => _ end) => // c [<-].
- by case=> <-.
Qed.
Lemma run_sized os : forall s s', run s os = Some s' -> sized s -> sized s'.
Proof.
elim: os => [|o os IH] s s' /=; first by case=> <-.
by case E: step => [s1|] // /IH h /(step_sized E).
Qed.
Lemma session_sized q0 os s : session zs phys codV2 q0 os s -> sized s.
Proof.
move=> [sq [s0 [+ /run_sized h]]]; rewrite /binit; case: inverse => // Ai e; apply: h; case: e => <-.
by split; rewrite //= size_nseq.
Qed.

Lemma update_ok s qpos qvel qacc x y z qw qx qy qz js v a : sized s ->
  contiguous qpos -> contiguous qvel -> contiguous qacc -> size js = n -> size v = (6 + n)%N -> size a = (6 + n)%N ->
  holds qpos ([:: x; y; z; qw; qx; qy; qz] ++ js) -> holds qvel v -> holds qacc a ->
  let q := [:: x; y; z; qx; qy; qz] ++ js ++ [:: qw] in
  UpdateKinematics phys s qpos qvel qacc =
  omap (fun Ainv => Brg q v a (phys q v a) Ainv (b_on s) (b_feet s) (b_con s) (b_f0 s) (b_f1 s) (b_tq s) (b_lim s) (b_init s))
    (inverse (sn_A (phys q v a))).
Proof.
move=> [s1 s2 s3] c1 c2 c3 sj sv sa h1 h2 h3 q.
have sp : size ([:: x; y; z; qw; qx; qy; qz] ++ js) = (n + 7)%N by rewrite /= sj; lia.
rewrite /UpdateKinematics (readsA c1 h1 sp) (readsA c2 h2 sv) (readsA c3 h3 sa) fill_qE // !fill_vE //.
Qed.

(* quiet calls *)
Lemma quiet_step s o s' : quiet o -> step s o = Some s' ->
  [/\ b_now s' = b_now s, b_Ainv s' = b_Ainv s, b_on s' = b_on s, b_feet s' = b_feet s & b_con s' = b_con s].
Proof.
case: o => // [h f _|_|_] /=.
- by rewrite /SetTaskSpace; case: reads => // g; case: ifP => _; [|case: ifP => // _]; case=> <-.
- by rewrite /CalcTorque; case: (match b_con s with Some _ => _ | None => _ end) => // c [<-].
- by case=> <-.
Qed.
Lemma quiet_run os : forall s s', all (@quiet R) os -> run s os = Some s' ->
  [/\ b_now s' = b_now s, b_Ainv s' = b_Ainv s, b_on s' = b_on s, b_feet s' = b_feet s & b_con s' = b_con s].
Proof.
elim: os => [|o os IH] s s' /=; first by move=> _ [<-].
case/andP=> qo qs; case E: step => [s1|] // /(IH _ _ qs) [-> -> -> -> ->]; exact: quiet_step qo E.
Qed.
End Sessions.

(* robots *)
Section Robot.
Variable R : realFieldType.

Lemma UpdateRobot_con m n (A : 'M[R]_(6 + n)) (J : 'M[R]_(m, 6 + n)) G cs : posdef A ->
  CalculateContactConstraint J (invmx A) = Some cs ->
  UpdateRobot A J G = Some (Robot (invmx A) cs (cs_Winv cs *m (dsubmx (invmx A) *m (cs_NC cs *m G))) (cs_JCinvT cs *m G)).
Proof. by move=> hA h; rewrite /UpdateRobot inverseE ?posdef_unit // h. Qed.

Lemma con_exists m n (A : 'M[R]_(6 + n)) (J : 'M[R]_(m, 6 + n)) : posdef A -> row_free J ->
  exists cs, CalculateContactConstraint J (invmx A) = Some cs.
Proof.
move=> hA hJ; have [rb [h _ _ _ _]] := UpdateRobotE 0 hA hJ; move: h.
rewrite /UpdateRobot inverseE ?posdef_unit //; case: CalculateContactConstraint => // cs _; by exists cs.
Qed.

(* a task whose rows are independent of the contact rows can be done *)
Lemma task_unit m n t (A : 'M[R]_(6 + n)) (J : 'M[R]_(m, 6 + n)) G rb (Jt : 'M[R]_(t, 6 + n)) :
  posdef A -> row_free J -> UpdateRobot A J G = Some rb -> row_free (col_mx J Jt) ->
  Jt *m rb_Ainv rb *m cs_NC (rb_cs rb) *m Jt^T \in unitmx.
Proof.
move=> hA hJ hrb fr.
have [e0 _ _ [e1 e2 e3 e4 [e5 e6]]] := rbE hA hJ hrb.
have [_ _ _ _ [pAN _]] := rb_projector hA hJ hrb.
have -> : Jt *m rb_Ainv rb *m cs_NC (rb_cs rb) *m Jt^T = Jt *m cs_AinvNC (rb_cs rb) *m Jt^T by rewrite e4 e0 !mulmxA.
apply: unitmx_ker => x hx.
have q0 : quad (cs_AinvNC (rb_cs rb)) (Jt^T *m x) = 0.
  rewrite quadE /dot trmx_mul trmxK mulmxA -(mulmxA x^T) -(mulmxA x^T) -!mulmxA.
  by rewrite !mulmxA -(mulmxA x^T) -(mulmxA x^T) -(mulmxA x^T) hx mulmx0 sc0.
have /(ANker hA erefl e3 e4) h := psd_quad0 pAN q0.
set w := cs_JCinvT _ *m _ in h.
have : (col_mx J Jt)^T *m col_mx (- w) x = 0 by rewrite tr_col_mx mul_row_col mulmxN h addrC subrr.
by move=> /(full_ker (free_tr_full fr)) /eqP; rewrite col_mx_eq0 => /andP[_ /eqP].
Qed.

Lemma col_free_top m t k (J : 'M[R]_(m, k)) (Jt : 'M[R]_(t, k)) : row_free (col_mx J Jt) -> row_free J.
Proof.
case/row_freeP=> B h; apply/row_freeP; exists (lsubmx B).
have := congr1 (fun M => lsubmx (usubmx M)) h; rewrite mul_col_mx col_mxKu -mulmx_lsub => ->.
by rewrite -/(ulsubmx _) scalar_mx_block block_mxKul.
Qed.
Lemma col_free_bot m t k (J : 'M[R]_(m, k)) (Jt : 'M[R]_(t, k)) : row_free (col_mx J Jt) -> row_free Jt.
Proof.
case/row_freeP=> B h; apply/row_freeP; exists (rsubmx B).
have := congr1 (fun M => rsubmx (dsubmx M)) h; rewrite mul_col_mx col_mxKd -mulmx_rsub => ->.
by rewrite -/(drsubmx _) scalar_mx_block block_mxKdr.
Qed.
End Robot.
