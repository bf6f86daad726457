(* Proofs about the hierarchical torque of the reduced model. *)
From mathcomp Require Import all_ssreflect all_algebra.
From mathcomp Require Import zify.
From Verif Require Import DMat DMatL Cone_Model Cone_Spec QP_Model QP_Spec QP_Proofs QP_Loop Jacc_Proofs RTq_Model RTq_Spec.
Set Implicit Arguments.
Unset Strict Implicit.
Unset Printing Implicit Defensive.
Import Order.TTheory GRing.Theory Num.Theory.
Local Open Scope ring_scope.

Section RTqProofs.
Variable R : realFieldType.
Local Notation dm := (dm R).

Lemma seg_ok (v : dm) n i h : dims v n 1 -> (i + h <= n)%N ->
  exists w : dm, [/\ seg v i h = Some w, dims w h 1 & forall a, ent w a 0 = ent v (i + a)%N 0].
Proof.
by move=> [rv cv] le; rewrite /seg /dblock rv cv le /=; eexists; split.
Qed.

Lemma segw_ok (v s : dm) n i h : dims v n 1 -> dims s h 1 -> (i + h <= n)%N ->
  exists w : dm, [/\ segw v i h s = Some w, dims w n 1 &
    forall a, ent w a 0 = if (i <= a < i + h)%N then ent s (a - i) 0 else ent v a 0].
Proof.
move=> [rv cv] ds le; have [w e] : exists w, segw v i h s = Some w by apply: segw_some; rewrite ?rv.
by have [_ _ r c h'] := segwP e; exists w; split=> //; split; rewrite ?r ?c.
Qed.

Lemma dims_dtr (A : dm) m n : dims A m n -> dims (dtr A) n m.
Proof. by case=> a b. Qed.

Lemma mx_dtr (A : dm) m n : mx_of n m (dtr A) = (mx_of m n A)^T.
Proof. by apply/matrixP => i j; rewrite !mxE. Qed.

Lemma mx_zero m n a b : mx_of m n (dzero R a b) = 0.
Proof. by apply/matrixP => i j; rewrite !mxE. Qed.

(* two segments make a column *)
Lemma two_segs (a b : dm) n1 n2 : dims a n1 1 -> dims b n2 1 ->
  exists w1 w2 : dm, [/\ segw (dzero R (n1 + n2) 1) 0 n1 a = Some w1, segw w1 n1 n2 b = Some w2, dims w2 (n1 + n2) 1 &
    mx_of (n1 + n2) 1 w2 = col_mx (mx_of n1 1 a) (mx_of n2 1 b)].
Proof.
move=> da db.
have [w1 [e1 d1 h1]] := @segw_ok (dzero R (n1 + n2) 1) a (n1 + n2) 0 n1 (conj erefl erefl) da (leq_addr _ _).
have [w2 [e2 d2 h2]] := @segw_ok w1 b (n1 + n2) n1 n2 d1 db (leqnn _).
exists w1, w2; split=> //; apply/matrixP => i j; rewrite (ord1 j) mxE h2 h1 mxE.
case: splitP => k ->; rewrite !mxE /=.
  by have := ltn_ord k => lk; rewrite leqNgt lk /= subn0.
by rewrite leq_addr /= ltn_add2l ltn_ord addKn.
Qed.

Section Robot.
Variables (rb : rrobot R) (c n K : nat).
Hypothesis szd : rb_sized rb c n K.
Local Notation rm := (c + 6)%N.

Lemma spread_ok (tR tN tqp : dm) a : dims tR rm 1 -> dims tN n 1 -> dims tqp a 1 -> (c <= a)%N ->
  exists t, [/\ spread rb tR tN tqp = Some t, dims t (c + n) 1 &
    distributed rb (mx_of (c + n) 1 t) (mx_of rm 1 tR + col_mx (mx_of c 1 tqp) 0) (mx_of n 1 tN)].
Proof.
case: szd => em ec en _ [_ _ _ _ [dJI dNI _]] dR dN dq le.
rewrite /spread /distributed em ec en.
have [x [-> dx hx]] := @seg_ok tR rm 0 c dR (leq_addr _ _).
have [b [-> db hb]] := @seg_ok tqp a 0 c dq le.
have [y [-> dy hy]] := dadd_mx dx db.
have [z [-> dz hz]] := @seg_ok tR rm c 6 dR (leqnn _).
have [e [-> de he]] := dmul_mx (dims_dtr dJI) dz.
have [g [-> dg hg]] := dmul_mx dNI dN.
have [k [ek dk hk]] := dadd_mx de dg.
have [w1 [w2 [e1 e2 d2 h2]]] := two_segs dy dk.
rewrite e1 ek e2; exists w2; split=> //; rewrite h2; congr col_mx.
  rewrite hy [usubmx (_ + _)]raddfD /= col_mxKu; congr (_ + _); apply/matrixP => i j.
    by rewrite (ord1 j) !mxE hx.
  by rewrite (ord1 j) !mxE hb.
rewrite hk he hg mx_dtr [dsubmx (_ + _)]raddfD /= col_mxKd addr0; congr (_ *m _ + _).
by apply/matrixP => i j; rewrite (ord1 j) !mxE hz.
Qed.

(* the wrench on the base: rot turns the moment *)
Definition wrench (rot : 'M[R]_3) (v : dm) : 'cV[R]_(3 + 3) :=
  col_mx (col_of 3 (fun k => ent v k 0)) (rot *m col_of 3 (fun k => ent v (3 + k)%N 0)).

Lemma turned_ok (v : dm) k : dims v k 1 -> (6 <= k)%N ->
  exists f, [/\ turned rb v = Some f, dims f 6 1 & mx_of 6 1 f = wrench (w_rot rb) v].
Proof.
move=> dv le; rewrite /turned.
have [a [-> da ha]] := @seg_ok v k 0 3 dv (leq_trans (isT : (0 + 3 <= 6)%N) le).
have [b [-> db hb]] := @seg_ok v k 3 3 dv (leq_trans (isT : (3 + 3 <= 6)%N) le).
have [x [-> dx hx]] := dmul_mx (dims_of (w_rot rb)) db.
have [w1 [w2 [e1 e2 d2 h2]]] := two_segs da dx.
rewrite e1 e2; exists w2; split=> //; rewrite [LHS]h2 /wrench hx mx_of_mx.
have -> : mx_of 3 1 b = col_of 3 (fun k => ent v (3 + k)%N 0).
  by apply/matrixP => i j; rewrite (ord1 j) !mxE hb.
suff -> : mx_of 3 1 a = col_of 3 (fun k => ent v k 0) by [].
by apply/matrixP => i j; rewrite (ord1 j) !mxE ha.
Qed.

Lemma top_ok : exists Jt, [/\ dblock (w_Jb rb) 0 0 (w_co rb) (nc (w_Jb rb)) = Some Jt, dims Jt c 6 &
  mx_of c 6 Jt = usubmx (mx_of rm 6 (w_Jb rb))].
Proof.
case: szd => _ -> _ _ [_ _ [r c' ] _ _].
rewrite /dblock r c' !add0n leqnn leq_addr /=; eexists; split=> //.
by apply/matrixP => i j; rewrite !mxE.
Qed.

(* a non-contact task right below a contact task *)
Lemma nc_first_ok p s t : nc_sized c n t s -> u_nch s = 0%N -> dims (u_Null p) rm rm ->
  exists nR tnc force, [/\ nc_torque rb (Some p) s = Some (nR, tnc, force),
    [/\ dims nR rm 1, dims tnc n 1 & dims force 6 1] &
    exists temp, [/\ dims temp (6 + c + n) 1,
      mx_of (6 + c + n) 1 temp = (mx_of t (6 + c + n) (u_J s))^T *m (mx_of t t (u_Lam s) *m mx_of t 1 (u_f s)),
      (forall a, ent tnc a 0 = ent temp (6 + c + a)%N 0),
      mx_of 6 1 force = wrench (w_rot rb) temp &
      mx_of rm 1 nR = mx_of rm rm (u_Null p) *m
        col_mx (usubmx (mx_of rm 6 (w_Jb rb)) *m mx_of 6 1 force) (mx_of 6 n (w_JIT rb) *m mx_of n 1 tnc)]].
Proof.
case: (szd) => em ec en ev [er _ dJb dJT [dJI dNI _]] [_ df dJ _ dL] e0 dNp.
rewrite /nc_torque er en ev ec.
have [Lf [-> dLf mLf]] := dmul_mx dL df.
have [temp [-> dtemp mtemp]] := dmul_mx (dims_dtr dJ) dLf.
have [tnc [-> dtnc htnc]] := @seg_ok temp _ (6 + c) n dtemp (leqnn _).
have [|force [-> dfo mfo]] := @turned_ok temp _ dtemp; first by lia.
have [Jt [eJt dJt mJt]] := top_ok; rewrite ec in eJt; rewrite eJt.
have [a [ea da ma]] := dmul_mx dJt dfo.
have [b [eb db mb]] := dmul_mx dJT dtnc.
have [w1 [w2 [e1 e2 d2 h2]]] := two_segs da db.
rewrite ea e1 eb e2 e0 eqxx.
have [nR [-> dnR mnR]] := dmul_mx dNp d2.
exists nR, tnc, force; split=> //; exists temp; split=> //; first by rewrite mtemp mLf mx_dtr.
by rewrite mnR h2 ma mb mJt.
Qed.

Lemma nc_next_ok p s t tp : nc_sized c n t s -> u_nch s <> 0%N -> nc_sized c n tp p -> dims (u_Null p) rm rm ->
  exists nR nNC df, nc_torque rb (Some p) s = Some (nR, nNC, df) /\
    [/\ dims nR rm 1, dims nNC n 1 & dims df 6 1].
Proof.
case: (szd) => em ec en ev [er _ dJb dJT [dJI dNI dAN]] [_ df dJ _ dL] /eqP/negbTE e0 [_ _ dJp dJNC dLp] dNp.
rewrite /nc_torque er en ev ec.
have [Lf [-> dLf mLf]] := dmul_mx dL df.
have [temp [-> dtemp mtemp]] := dmul_mx (dims_dtr dJ) dLf.
have [tnc [-> dtnc htnc]] := @seg_ok temp _ (6 + c) n dtemp (leqnn _).
have [|force [-> dfo mfo]] := @turned_ok temp _ dtemp; first by lia.
have [Jt [eJt dJt mJt]] := top_ok; rewrite ec in eJt; rewrite eJt.
have [a [ea da ma]] := dmul_mx dJt dfo.
have [b [eb db mb]] := dmul_mx dJT dtnc.
have [w1 [w2 [e1 e2 d2 h2]]] := two_segs da db.
rewrite ea e1 eb e2 e0.
have [x1 [-> dx1 _]] := dmul_mx dAN dtemp.
have [x2 [-> dx2 _]] := dmul_mx dJp dx1.
have [nf [-> dnf _]] := dmul_mx dLp dx2.
have [temp2 [-> dt2 _]] := dmul_mx (dims_dtr dJp) dnf.
have [s2 [-> ds2 _]] := @seg_ok temp2 _ (6 + c) n dt2 (leqnn _).
have [nNC [-> dnNC _]] := dsub_mx dtnc ds2.
have [|f2 [-> df2 _]] := @turned_ok temp2 _ dt2; first by lia.
have [hc [-> dhc _]] := @seg_ok w2 _ 0 c d2 (leq_addr _ _).
have [y1 [-> dy1 _]] := dmul_mx dJt df2.
have [y2 [-> dy2 _]] := dsub_mx dhc dy1.
have [z1 [ez1 dz1 _]] := dmul_mx (dims_dtr dJNC) dnf.
have [z2 [ez2 dz2 _]] := dsub_mx dtnc dz1.
have [z3 [ez3 dz3 _]] := dmul_mx dJT dz2.
have [v1 [v2 [f1 f2' g2 _]]] := two_segs dy2 dz3.
rewrite f1 ez1 ez2 ez3 f2'.
have [nR [-> dnR _]] := dmul_mx dNp g2.
have [df' [-> ddf _]] := dsub_mx dfo df2.
by exists nR, nNC, df'.
Qed.
End Robot.
End RTqProofs.
