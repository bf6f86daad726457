(* From the kinds of the tasks to what the loop of the reduced model does with them. *)
From mathcomp Require Import all_ssreflect all_algebra.
From mathcomp Require Import zify.
From Verif Require Import LinAlg Dyn_Model Dyn_Spec Dyn_Proofs RedM_Model RedM_Spec RedM_Proofs Red_Model Geo_Spec.
From Verif Require Import DMat DMatL Cone_Model QP_Model RTq_Model RTq_Spec RTq_Proofs RTq_Loop RTS_Model RTS_Spec RTS_Acc RTS_NC RTS_Loop RTS_Full.
Set Implicit Arguments.
Unset Strict Implicit.
Unset Printing Implicit Defensive.
Import Order.TTheory GRing.Theory Num.Theory.
Local Open Scope ring_scope.

Lemma size_classify link_num co_link left right ts : forall i k, size (classify link_num co_link left right i k ts) = size ts.
Proof.
elim: ts => //= t ts IH i k; case: (rt_custom _) => /=; rewrite ?IH //.
by case: (foldl _ _ _) => t' k' /=; rewrite IH.
Qed.

Lemma Forall2_zip (T U V : Type) (P : U -> V -> Prop) (fls : seq T) (l : seq U) (o : seq V) : size fls = size l ->
  List.Forall2 (fun y o => P y.2 o) (zip fls l) o -> List.Forall2 P l o.
Proof.
elim: l fls o => [|u l IH] [|f fls] o //= e h; first by inversion h.
by inversion h as [|y o1 l' o' h1 h2 E1 E2]; subst; constructor=> //; apply: IH h2; case: e.
Qed.

Lemma base_R (R : realFieldType) (c n : nat) (rot : 'M[R]_3) : (6 + c + 6 <= 6 + c + n)%N ->
  (\matrix_(i, j) ent (of_mx (base_jac c n rot)) i j : 'M_(6, 6 + (c + 6))) = row_mx (turn rot) 0.
Proof.
move=> le; apply/matrixP => i j; rewrite mxE.
have lj : (j < 6 + c + n)%N by have := ltn_ord j; lia.
rewrite (of_mxO _ (ltn_ord i) lj).
have -> : Ordinal (ltn_ord i) = i by apply: val_inj.
have : val (Ordinal lj) = j by [].
move: (Ordinal lj) => o; rewrite /base_jac; case: (split_ordP j) => k -> eo {lj}.
  rewrite row_mxEl.
  have -> : o = lshift n (lshift c k) by apply: val_inj.
  by rewrite !row_mxEl.
rewrite row_mxEr [RHS]mxE.
case: (split_ordP o) => q eq; rewrite eq; last by rewrite row_mxEr mxE.
rewrite row_mxEl; case: (split_ordP q) => w ew; rewrite ew; last by rewrite row_mxEr mxE.
have := congr1 val eq; rewrite ew eo /=; have := ltn_ord w; lia.
Qed.

Section Kinds.
Variable R : realFieldType.
Variables c n : nat.
Variables (A : 'M[R]_(6 + c + n)) (J : 'M[R]_(6, n)) (rd : reduced R c n) (Mc : 'M[R]_(6 + c, 6)).
Let JR : 'M[R]_(6 + c + 6, 6 + c + n) := block_mx 1%:M 0 0 J.
Hypotheses (hcp : ursubmx A = Mc *m J) (hJI : rd_JIinvT rd *m J^T = 1%:M).
Variables (link_num : nat) (co_link : seq nat) (left right : nat -> bool).
Implicit Types (s : stask R c n) (fl : red_task).
Local Notation is_con := (is_con J rd).
Local Notation shape := (shape J rd).

Lemma classify_chain l : forall t k, all (fun i => (i \in co_link) && (i != link_num)) l ->
  foldl (classify_link link_num co_link) (t, k) l =
  (RedTask (rt_custom t) (rt_links t) (rt_noncont t) (rt_reduced t || (l != [::])) (rt_cmm t) (rt_nch t), k).
Proof.
elim: l => [|i l IH] t k /=; first by rewrite orbF; case: t.
by case/andP=> /andP[-> /negbTE ->] h; rewrite IH //= orbT.
Qed.

Lemma classify_com l : forall t k, all (fun i => i == link_num) l ->
  foldl (classify_link link_num co_link) (t, k) l =
  (RedTask (rt_custom t) (rt_links t) (rt_noncont t) (rt_reduced t) (rt_cmm t || (l != [::])) (rt_nch t), k).
Proof.
elim: l => [|i l IH] t k /=; first by rewrite orbF; case: t.
by case/andP=> -> h; rewrite IH //= orbT.
Qed.

Definition con_kind s : Prop := chain_task link_num co_link s \/ com_task A link_num s.
Local Notation cls := (classify link_num co_link left right).

Lemma con_kind_ok s : con_kind s -> forall i k fls, exists fl, is_con fl s /\ cls i k (s_fl s :: fls) = fl :: cls i.+1 k fls.
Proof.
case=> [[[h1 h2 h2'] h3 h4 h5]|[[h1 h2] h3 h4 [L h5]]] i k fls /=; rewrite h1.
  rewrite classify_chain //; eexists; split; last by [].
  split=> //=; first by rewrite (introF eqP h3) orbT orbT.
  by rewrite /red_J /= h2' mul_row_block !mulmx0 mul0mx mulmx1 !addr0 -{1}[s_J s]hsubmxK h5.
rewrite classify_com //; eexists; split; last by [].
have -> : (rt_links (s_fl s) != [::]) = true by apply/eqP.
rewrite orbT; split=> //=.
rewrite /red_J /= mul_row_block !mulmx0 mulmx1 addr0 add0r -{1}[s_J s]hsubmxK; congr row_mx.
have -> : rsubmx (s_J s) = L *m usubmx Mc *m J.
  by rewrite h5 -mulmx_rsub -[L *m _ *m J]mulmxA mul_usub_mx -hcp; congr (_ *m _); apply/matrixP => a b; rewrite !mxE.
rewrite -!mulmxA; congr (_ *m (_ *m _)).
have -> : J *m ((rd_JIinvT rd)^T *m J) = (rd_JIinvT rd *m J^T)^T *m J by rewrite trmx_mul trmxK mulmxA.
by rewrite hJI trmx1 mul1mx.
Qed.

Lemma limb_kind_ok s : limb_task link_num co_link s -> forall i k fls, exists fl, [/\ is_nc fl s, rt_nch fl = k &
   cls i k (s_fl s :: fls) = fl :: cls i.+1 k.+1 fls].
Proof.
case=> [[h1 h2 h3] [j [h4 /andP[h5 h6]]] h7] i k fls /=; rewrite h1 h4 /= (negbTE h5) (negbTE h6).
by eexists; split; last by []; split.
Qed.

Lemma limbs_shape ts : forall i k pv, List.Forall (limb_task link_num co_link) ts -> (k = 0%N <-> pv = None) ->
  shape pv (zip (cls i k [seq s_fl s | s <- ts]) ts).
Proof.
elim: ts => [|s ts IH] i k pv // /List.Forall_cons_iff[h hs] hk.
have [fl [h1 h2 h3]] := limb_kind_ok h i k [seq s_fl s | s <- ts].
rewrite map_cons h3 /=; right; split=> //; split; first by rewrite h2.
by apply: IH.
Qed.

Lemma cons_shape ts : forall i us, List.Forall con_kind ts -> List.Forall (limb_task link_num co_link) us ->
  shape None (zip (cls i 0 [seq s_fl s | s <- ts ++ us]) (ts ++ us)).
Proof.
elim: ts => [|s ts IH] i us; first by move=> _ hu; apply: limbs_shape.
move=> /List.Forall_cons_iff[h hs] hu.
have [fl [h1 h3]] := con_kind_ok h i 0 [seq s_fl s | s <- ts ++ us].
by rewrite map_cons h3 /=; left; split=> //; split=> //; apply: IH.
Qed.

Variables (m : nat) (cs : contact_space R m (c + n)).
Local Notation M := (cs_AinvNC cs : 'M[R]_(6 + c + n)).
Local Notation racc := (racc cs).
Local Notation accs P ts := (accs (n := c + n) cs P [seq as_task s | s <- ts]).

Lemma racc_same ts : forall i us P, List.Forall con_kind ts -> List.Forall (limb_task link_num co_link) us -> (size us <= 2)%N ->
  racc P None (zip (cls i 0 [seq s_fl s | s <- ts ++ us]) (ts ++ us)) = accs P (ts ++ us).
Proof.
elim: ts => [|s ts IH] i us P.
  move=> _; case: us => [|s1 [|s2 [|]]] // /List.Forall_cons_iff[k1 hs] _.
    have [fl [[h1 _ _ _] _ h3]] := limb_kind_ok k1 i 0 [::].
    by rewrite map_cons h3 /= h1.
  case/List.Forall_cons_iff: hs => k2 _.
  have [fl2 [[g1 _ _ _] _ g3]] := limb_kind_ok k2 i.+1 1 [::].
  have [fl [[h1 _ _ _] _ h3]] := limb_kind_ok k1 i 0 [seq s_fl s | s <- [:: s2]].
  rewrite !map_cons h3 g3 /= h1 g1 !addr0; congr (_ + _).
  rewrite -[RHS]mulmxA; congr (_ *m _); rewrite mulmxBl mul1mx /through mulmxBr; congr (_ - _).
  by rewrite !mulmxA.
move=> /List.Forall_cons_iff[h hs] hu le.
have [fl [[h1 _ _] h3]] := con_kind_ok h i 0 [seq s_fl s | s <- ts ++ us].
by rewrite map_cons h3 /= h1 IH.
Qed.

(* the task of highest priority gets its reference *)
Lemma racc_below k (X : 'M[R]_(k, 6 + c + n)) l : forall P pv, X *m P = 0 -> X *m racc P pv l = 0.
Proof.
elim: l => [|[fl s] l IH] P pv h /=; first by rewrite mulmx0.
by case: (rt_noncont fl); rewrite mulmxDr mulmxA h mul0mx add0r IH // mulmxA h mul0mx.
Qed.

Lemma racc_top fl s l : rt_noncont fl = false -> s_J s *m M *m (s_J s)^T \in unitmx ->
  s_J s *m racc 1%:M None ((fl, s) :: l) = s_f s.
Proof.
move=> h u /=; rewrite h mul1mx mulmxDr racc_below ?addr0.
  by rewrite /gforce !mulmxA /lam mulmxV // mul1mx.
rewrite mul1mx mulmxBr mulmx1 /lam.
have -> : s_J s *m (M *m (s_J s)^T *m invmx (s_J s *m M *m (s_J s)^T) *m s_J s) =
   (s_J s *m M *m (s_J s)^T) *m invmx (s_J s *m M *m (s_J s)^T) *m s_J s by rewrite !mulmxA.
by rewrite mulmxV // mul1mx subrr.
Qed.
End Kinds.
