(* Proofs about the acceleration-level QPs: one level and the whole hierarchy. *)
From mathcomp Require Import all_ssreflect all_algebra.
From mathcomp Require Import zify.
From mathcomp.algebra_tactics Require Import ring.
From Verif Require Import DMat DMatL Cone_Model Cone_Spec Cone_Props QP_Model QP_Proofs Jacc_Model Jacc_Spec Jacc_Proofs.
Set Implicit Arguments.
Unset Strict Implicit.
Unset Printing Implicit Defensive.
Import Order.TTheory GRing.Theory Num.Theory.
Local Open Scope ring_scope.

Section JaccThm.
Variable R : realFieldType.
Local Notation dm := (dm R).
Local Notation jdata := (jdata R).
Local Notation jrobot := (jrobot R).
Local Notation jtask := (jtask R).

Lemma task_lt (rb : jrobot) k s : task rb k = Some s -> (k < size (jr_ts rb))%N.
Proof. by rewrite /task; case: ltnP => // h; rewrite nth_default // size_map. Qed.

Lemma task_nth (rb : jrobot) k s d : task rb k = Some s -> nth d (jr_ts rb) k = s.
Proof. by move=> h; have lk := task_lt h; move: h; rewrite /task (nth_map d) // => -[]. Qed.

(* the contact rows *)
Lemma cone_rows (rb : jrobot) : contacts_ok rb ->
  let ccs := contact_constraint_size (jr_cc rb) in
  exists AR C, [/\ jcone rb = Some AR, getContactConstraintMatrix (jr_cc rb) (jr_cln rb) (jr_cdof rb) = Some C,
    dmul (dopp AR.1) AR.2 = Some C,
    dims C ccs (jr_cdof rb) & forall F, (forall r, (r < ccs)%N -> rowdot C r F <= 0) <-> cones (jr_cc rb) F].
Proof.
case=> pl cln cdof ccs; have [_ ccsE] := tot_plane pl.
have d : pcontact R by case: (jr_cc rb) => [|c _]; [exact: (@PContact _ false 0 0 0 0 0 0 0 0)|exact: c].
have [A [B [e _ _ _]]] := loop_cone d pl.
have [C [eC [nC cC cone]]] := C08_constraint_matrix_is_cone d pl.
exists (A, B), C; rewrite /jcone cln cdof eC /ccs ccsE; split=> //.
  by move: eC; rewrite /getContactConstraintMatrix -/(10%N) e.
move=> F; rewrite -nC cone.
by split=> [h c0 k lk|h k lk]; [rewrite (set_nth_default d) //; apply: h|apply: h].
Qed.

(* the rows of the tasks above *)
Definition Jok (Jof : jtask -> option dm) (acc : jtask -> (nat -> R) -> nat -> R) (nv : nat) (s : jtask) : Prop :=
  exists J, [/\ Jof s = Some J, dims J (j_dof s) nv & forall x r, jaccel nv J x r = acc s x r].

Lemma jabove_ok (rb : jrobot) Jof acc nv k : (k <= size (jr_ts rb))%N ->
  (forall i s, (i < k)%N -> task rb i = Some s -> Jok Jof acc nv s /\ dims (j_f s) (j_dof s) 1) ->
  solved_above rb k ->
  exists prev, [/\ jabove rb Jof k = Some prev,
    List.Forall (fun p => dims p.1.2 p.1.1 nv /\ dims p.2 p.1.1 1) prev &
    forall x, kept nv prev x <-> above_met acc rb k x].
Proof.
rewrite /solved_above /jabove /above_met /task => lk; rewrite lk.
elim: (jr_ts rb) k lk => [|s ts IH] [|k] //= lk ok sol.
- by exists [::]; split=> // x; split=> // _; constructor.
- by exists [::]; split=> // x; split=> // _; constructor.
have [|i s' li es|i s' li es|prev [e F K]] := IH k.
- exact: lk.
- exact: (ok i.+1 s').
- exact: (sol i.+1 s').
have [[J [eJ dJ accJ]] df] := ok 0%N s isT erefl.
have dq := sol 0%N s isT erefl.
have [f [ef dff mf]] := dadd_mx df dq.
rewrite eJ ef e; eexists; split; first by [].
  by constructor.
move=> x; rewrite /kept List.Forall_cons_iff -/(kept nv prev x) K /=.
have fE r : (r < j_dof s)%N -> ent f r 0 = ent (j_f s) r 0 + ent (j_fqp s) r 0.
  by move=> lr; have [_ [_ _ ->]] := daddP ef.
split=> [[h1 h2] [|i] s' li|h].
- by move=> [<-] r lr; rewrite -accJ h1 // fE.
- exact: h2.
split=> [r lr|i s' li]; last exact: (h i.+1 s').
by rewrite accJ fE // (h 0%N s).
Qed.

Lemma taskaccP (s : jtask) nv : dims (j_J s) (j_dof s) nv -> Jok (fun s => Some (j_J s)) (taskacc nv) nv s.
Proof. by move=> d; exists (j_J s); split. Qed.

Lemma taskaccRP (rb : jrobot) (s : jtask) n nv : dims (j_J s) (j_dof s) nv -> dims (jr_JRinvT rb) n nv ->
  Jok (redJ rb) (taskaccR (jr_JRinvT rb)) n s.
Proof.
move=> [rJ cJ] [rT cT]; rewrite /Jok /redJ /dmul /= cJ cT eqxx; eexists; split=> //.
move=> x r; rewrite /taskaccR /jaccel /= cT rT.
under eq_bigr do rewrite mulr_suml.
rewrite exchange_big /=; apply: eq_bigr => k _; rewrite mulr_sumr.
by apply: eq_bigr => j _; rewrite mulrA.
Qed.

(* what the problem of level k means *)
Definition means (rb : jrobot) (D : jdata) (acc : jtask -> (nat -> R) -> nat -> R) (tb k : nat) (s : jtask) (q : bqp R) : Prop :=
  (forall x, bqp_feasible q x <-> [/\ plan D (jr_cc rb) tb x, above_met acc rb k x & tracks D acc s x]) /\
  (forall x, bqp_cost q x = 1 / 2%:R * (energy D x + 100%:R * deviation D (j_dof s) x)).

Lemma problem_ok (rb : jrobot) (D : jdata) m Jof acc k s tb C :
  jd_ok D m (jr_cdof rb) -> (tb <= m)%N ->
  let ccs := contact_constraint_size (jr_cc rb) in
  dims C ccs (jr_cdof rb) -> (forall F, (forall r, (r < ccs)%N -> rowdot C r F <= 0) <-> cones (jr_cc rb) F) ->
  (forall i s, task rb i = Some s -> Jok Jof acc (6 + m) s /\ dims (j_f s) (j_dof s) 1) ->
  task rb k = Some s -> solved_above rb k ->
  exists prev J q, [/\ jabove rb Jof k = Some prev, Jof s = Some J, JaccQP D C ccs tb prev (j_dof s) J (j_f s) = Some q
    & means rb D acc tb k s q].
Proof.
move=> ok ltb ccs dC cone oks es sol.
have [||prev [ep Fp kp]] := @jabove_ok rb Jof acc (6 + m) k _ _ sol.
- by rewrite ltnW // (task_lt es).
- by move=> i s' _; apply: oks.
have [[J [eJ dJ aJ]] df] := oks k s es.
have [q [eq Fq Cq]] := JaccQP_ok ok dC ltb Fp dJ df.
exists prev, J, q; split=> //; split=> // x; rewrite Fq.
have [nvE mE cE _ _] := ok.
have trE : follows D (j_dof s) J (j_f s) x <-> tracks D acc s x.
  by rewrite /follows /tracks nvE; split=> h r lr; [rewrite -aJ h|rewrite aJ h].
split=> [[h1 h2 h3 h4 [h5 h6 h7]]|[[h1 h2 h3 h4 h5] h6 h7]].
  by split; [split=> //; apply/cone|apply/kp; rewrite -nvE|apply/trE].
by split=> //; [apply/cone|split=> //; [rewrite nvE; apply/kp|apply/trE]].
Qed.

Lemma problemJ_ok (rb : jrobot) m k s : jrobot_ok rb m -> task rb k = Some s -> solved_above rb k ->
  exists q, problemJ rb s = Some q /\ means rb (full_of rb) (taskacc (6 + m)) m k s q.
Proof.
case=> con ok [_ lev] es sol; have [AR [C [e1 e2 _ dC cone]]] := cone_rows con.
have [hE _ _] := lev k s es.
have [i s' es'|prev [J [q [e3 [e4] e5 M]]]] := @problem_ok rb (full_of rb) m (fun s => Some (j_J s)) (taskacc (6 + m)) k s m C ok
   (leqnn m) dC cone _ es sol.
  by have [_ dJ df] := lev i s' es'; split=> //; apply: taskaccP.
exists q; split=> //; rewrite /problemJ hE e3 e1 e2 e4.
by have [_ mE _ _ _] := ok; rewrite /= in mE; rewrite mE.
Qed.

Lemma problemJR_ok (rb : jrobot) m nv k s : jrobotR_ok rb m nv -> task rb k = Some s -> solved_above rb k ->
  exists q, problemJR rb s = Some q /\ means rb (reduced_of rb) (taskaccR (jr_JRinvT rb)) (m - 6) k s q.
Proof.
case=> con ok le6 dT [_ lev] es sol; have [AR [C [e1 _ e2 dC cone]]] := cone_rows con.
have [hE _ _] := lev k s es.
have [i s' es'|prev [J [q [e3 e4 e5 M]]]] := @problem_ok rb (reduced_of rb) m (redJ rb) (taskaccR (jr_JRinvT rb)) k s (m - 6) C ok
   (leq_subr 6 m) dC cone _ es sol.
  by have [_ dJ df] := lev i s' es'; split=> //; apply: taskaccRP dJ dT.
exists q; split=> //; rewrite /problemJR hE e3 e4 e1 e2.
by have [_ mE _ _ _] := ok; rewrite /= in mE; rewrite mE le6.
Qed.

Lemma task_set (rb : jrobot) k s i : (k < size (jr_ts rb))%N ->
  task (set_task rb k s) i = if i == k then Some s else task rb i.
Proof.
move=> lk; rewrite /task /=; case: (ltnP i (size (jr_ts rb))) => li.
  rewrite (nth_map s); last by rewrite size_set_nth (maxn_idPr lk).
  by rewrite nth_set_nth /=; case: eqP => // _; rewrite (nth_map s).
rewrite nth_default; last by rewrite size_map size_set_nth (maxn_idPr lk).
by have -> : (i == k) = false by [lia]; rewrite nth_default // size_map.
Qed.

Lemma set_only (rb : jrobot) k s : (k < size (jr_ts rb))%N -> only_task rb (set_task rb k s) k s.
Proof.
by move=> lk; split=> [//||i ne]; rewrite task_set ?eqxx //; case: eqP.
Qed.

Lemma store_holds (D : jdata) s x : holds D (jstore D s x) x.
Proof. by split; split. Qed.

(* one call *)
Definition answer_ok (rb : jrobot) (D : jdata) acc tb k (s s' : jtask) (rb' : jrobot) : Prop :=
  [/\ only_task rb rb' k s', same_input s s', j_gacc s' = j_gacc s &
   exists x, [/\ holds D s' x, plan D (jr_cc rb) tb x, above_met acc rb k x & tracks D acc s x]].

Lemma call_ok solver problem (data : jrobot -> jdata) acc tb (rb : jrobot) k s q :
  sound solver -> task rb k = Some s -> problem rb s = Some q -> means rb (data rb) acc tb k s q ->
  j_h s = k -> (size (jr_ts rb) <= jr_nqp rb)%N ->
  (solver k q = None /\ jcall solver problem data rb k = Some (rb, false)) \/
  exists rb' s', jcall solver problem data rb k = Some (rb', true) /\ answer_ok rb (data rb) acc tb k s s' rb'.
Proof.
move=> so es eq [F _] hE sz; have lk := task_lt es.
rewrite /jcall -/(task rb k) es eq hE (leq_trans lk sz).
case eS: (solver k q) => [x|]; last by left.
right; exists (set_task rb k (jstore (data rb) s x)), (jstore (data rb) s x); split=> //.
split; [exact: set_only|by []|by []|exists x].
have [h1 h2 h3] := proj1 (F x) (so _ _ _ eS).
by split=> //; apply: store_holds.
Qed.

(* what a change of one task keeps *)
Lemma only_keeps (rb rb' : jrobot) k s s' m : only_task rb rb' k s' -> task rb k = Some s -> same_input s s' ->
  jrobot_ok rb m -> [/\ jrobot_ok rb' m, full_of rb' = full_of rb & jr_cc rb' = jr_cc rb].
Proof.
case=> rbE ts' oth es [h1 h2 h3 h4 _] [con ok [sz lev]].
have szE : size (jr_ts rb') = size (jr_ts rb).
  apply/eqP; rewrite eqn_leq; apply/andP; split; rewrite leqNgt; apply/negP => lt.
  - have [e|/eqP ne] := eqVneq (size (jr_ts rb)) k; first by have := task_lt es; rewrite e ltnn.
    have := oth _ ne; rewrite /task [RHS]nth_default ?size_map //.
    by rewrite (nth_map s).
  - have [e|/eqP ne] := eqVneq (size (jr_ts rb')) k; first by have := task_lt ts'; rewrite e ltnn.
    have := oth _ ne; rewrite /task [LHS]nth_default ?size_map //.
    by rewrite (nth_map s).
have q1 : full_of rb' = full_of rb by rewrite rbE.
have q2 : jr_cc rb' = jr_cc rb by rewrite rbE.
have q3 : jr_cdof rb' = jr_cdof rb by rewrite rbE.
have q4 : jr_cln rb' = jr_cln rb by rewrite rbE.
have q5 : jr_nqp rb' = jr_nqp rb by rewrite rbE.
split=> //; split; first by move: con; rewrite /contacts_ok q2 q3 q4.
  by rewrite q1 q3.
split; first by rewrite szE q5.
move=> i si; have [->|/eqP ne] := eqVneq i k.
  by rewrite ts' => -[<-]; rewrite h1 h2 h3 h4; apply: lev.
by rewrite (oth _ ne); apply: lev.
Qed.

Lemma only_keepsR (rb rb' : jrobot) k s s' m nv : only_task rb rb' k s' -> task rb k = Some s -> same_input s s' ->
  jrobotR_ok rb m nv -> [/\ jrobotR_ok rb' m nv, reduced_of rb' = reduced_of rb, jr_cc rb' = jr_cc rb & jr_JRinvT rb' = jr_JRinvT rb].
Proof.
case=> rbE ts' oth es [h1 h2 h3 h4 _] [con ok le6 dT [sz lev]].
have szE : size (jr_ts rb') = size (jr_ts rb).
  apply/eqP; rewrite eqn_leq; apply/andP; split; rewrite leqNgt; apply/negP => lt.
  - have [e|/eqP ne] := eqVneq (size (jr_ts rb)) k; first by have := task_lt es; rewrite e ltnn.
    have := oth _ ne; rewrite /task [RHS]nth_default ?size_map //.
    by rewrite (nth_map s).
  - have [e|/eqP ne] := eqVneq (size (jr_ts rb')) k; first by have := task_lt ts'; rewrite e ltnn.
    have := oth _ ne; rewrite /task [LHS]nth_default ?size_map //.
    by rewrite (nth_map s).
have q1 : reduced_of rb' = reduced_of rb by rewrite rbE.
have q2 : jr_cc rb' = jr_cc rb by rewrite rbE.
have q3 : jr_cdof rb' = jr_cdof rb by rewrite rbE.
have q4 : jr_cln rb' = jr_cln rb by rewrite rbE.
have q5 : jr_nqp rb' = jr_nqp rb by rewrite rbE.
have q6 : jr_JRinvT rb' = jr_JRinvT rb by rewrite rbE.
split=> //; split; first by move: con; rewrite /contacts_ok q2 q3 q4.
- by rewrite q1 q3.
- by [].
- by rewrite q6.
split; first by rewrite szE q5.
move=> i si; have [->|/eqP ne] := eqVneq i k.
  by rewrite ts' => -[<-]; rewrite h1 h2 h3 h4; apply: lev.
by rewrite (oth _ ne); apply: lev.
Qed.

(* only accelerations, torques and forces matter to a plan *)
Definition put_slack (D : jdata) (x v : nat -> R) : nat -> R :=
  fun i => if (i < d_nv D + d_m D + d_c D)%N then x i else v (i - (d_nv D + d_m D + d_c D))%N.

Lemma jaccel_ext n (J : dm) x y r : (forall i, (i < n)%N -> x i = y i) -> jaccel n J x r = jaccel n J y r.
Proof. by move=> h; apply: sum_nat_eq => j lj; rewrite h. Qed.

Lemma blk3_ext (F G : nat -> R) k n : (forall i, (i < n)%N -> F i = G i) -> (k + 3 <= n)%N -> blk3 F k = blk3 G k.
Proof. by move=> h le; apply/matrixP => i j; rewrite !mxE h //; have := ltn_ord i; lia. Qed.

Lemma plan_ext (D : jdata) cc tb m c x y : jd_ok D m c -> c = (6 * size (actives cc))%N -> (tb <= m)%N ->
  (forall i, (i < d_nv D + d_m D + d_c D)%N -> x i = y i) -> plan D cc tb x -> plan D cc tb y.
Proof.
case=> nvE mE cE _ _ cK ltb e [h1 h2 h3 h4 h5].
have eF j : (j < c)%N -> frc D x j = frc D y j by move=> lj; apply: e; rewrite ltn_add2l cE.
split.
- move=> i li; have := h1 i li.
  rewrite (@jaccel_ext (d_nv D) (d_A D) x y) => [|j lj]; last by apply: e; lia.
  rewrite (@sum_nat_eq _ (d_c D) _ (fun j => ent (d_J D) j i * frc D y j)) => [->|j lj]; last by rewrite eF // -cE.
  by case: ifP => // h; rewrite /trq e // mE nvE; rewrite nvE in li; lia.
- by move=> r lr; rewrite -(h2 r lr); apply: jaccel_ext => j lj; rewrite e //; lia.
- move=> c0 k lk; have := h3 c0 k lk.
  by rewrite -!(@blk3_ext (frc D x) (frc D y) _ c) //; rewrite cK; lia.
- by move=> r lr; rewrite -e ?h4 // nvE mE; rewrite mE in lr; lia.
by move=> r lr; rewrite /trq -e; [apply: h5|rewrite mE; lia].
Qed.
End JaccThm.
