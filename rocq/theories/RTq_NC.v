(* What the QP of the non-contact tasks certifies, and the torque that is applied. *)
From mathcomp Require Import all_ssreflect all_algebra.
From mathcomp Require Import zify.
From Verif Require Import DMat DMatL Cone_Model Cone_Spec QP_Model QP_Spec QP_Proofs QP_Loop RTq_Model RTq_Spec RTq_Proofs RTq_Loop.
Set Implicit Arguments.
Unset Strict Implicit.
Unset Printing Implicit Defensive.
Import Order.TTheory GRing.Theory Num.Theory.
Local Open Scope ring_scope.

Section NC.
Variable R : realFieldType.
Variable solver : nat -> qp R -> option (nat -> R).
Variables (rb : rrobot R) (c n K : nat).
Hypothesis szd : rb_sized rb c n K.
Local Notation rm := (c + 6)%N.
Local Notation k := (6 * K - 6)%N.

(* the QP task of CalcSingleTaskTorqueWithQP_R_NC *)
Definition nc_ts (F : dm R) : tspace R :=
  TS F (w_Jb rb) (dident R 6) (dzero R rm rm) (dzero R 0 1) (dzero R 0 1) (dzero R 0 1) false.

Lemma nc_tail (p s : rtask R) done t (lR lN : dm R) (i : nat) : nc_sized c n t s -> u_nch s = 0%N ->
  dims (u_Null p) rm rm -> dims lR rm 1 -> dims lN n 1 -> mx_of n 1 lN = 0 -> i = size done ->
  let T := (mx_of t (6 + c + n) (u_J s))^T *m (mx_of t t (u_Lam s) *m mx_of t 1 (u_f s)) in
  let Fm := wrench (w_rot rb) (of_mx T) : 'cV_6 in
  let N := mx_of rm rm (u_Null p) in
  let Jb := mx_of rm 6 (w_Jb rb) in
  exists F tp q s1, [/\ dims F 6 1 /\ mx_of 6 1 F = Fm, dims tp rm 1 /\ mx_of rm 1 tp = mx_of rm 1 (w_grav rb) + mx_of rm 1 lR,
    TaskQP (rd_of rb) (nc_ts F) (u_Null p) tp = Some q,
    one solver true rb i.+1 (LS lR lN None (dzero R 6 1) (p :: done)) s = Some (LS lR lN (Some i.+1) F (s1 :: p :: done), true) &
    exists res, (let ts := rev (s1 :: p :: done) in
      p <- (if i.+1 is k'.+1 then ohead (drop k' ts) else None) ;;
        tprev <- dadd (w_grav rb) lR ;;
        r <- CalcSingleTaskTorqueWithQP_R_NC solver rb i.+1 F (u_Null p) tprev ;;
        let '(fq, ok2) := r in
        if ok2 then
          a <- add_nc (drop i.+1 ts) lR lN ;;
          Jt <- dblock (w_Jb rb) 0 0 (w_co rb) (nc (w_Jb rb)) ;;
          tqp <- dmul Jt fq ;;
          t <- spread rb a.1 a.2 tqp ;;
          Some (RRes t a.1 (Some fq) ts true)
        else Some (RRes (dzero R (w_m rb) 1) lR (Some fq) ts false)) = Some res /\
     match solver i.+1 q with
     | Some x => [/\ z_ok res, exists fq, z_fqp res = Some fq /\ mx_of 6 1 fq = col_of 6 x,
         mx_of rm 1 (z_R res) = mx_of rm 1 lR + N *m col_mx (usubmx Jb *m Fm) (mx_of 6 n (w_JIT rb) *m dsubmx T),
         distributed rb (mx_of (c + n) 1 (z_task res)) (applied rb c res) (dsubmx T) &
         z_ts res = rev (s1 :: p :: done)]
     | None => z_ok res = false
     end].
Proof.
case: (szd) => em ec en ev [er rdok dJb dJT [dJI dNI _]]; case: (rdok) => _ _ _ _ [_ _ dG _].
move=> sz0 e0 dNp dR dN mN ei T Fm N Jb.
have [nR [tnc [force [e1 [d1 d2 d3] [temp [h1 h2 h3 h4 h5]]]]]] := nc_first_ok szd sz0 e0 dNp.
have [F [eF dF mF]] := dadd_mx (conj erefl erefl : dims (dzero R 6 1) 6 1) d3.
rewrite mx_zero add0r in mF.
have oft a : (a < 6 + c + n)%N -> ent temp a 0 = ent (of_mx T) a 0.
  move=> la; rewrite (of_mxO _ la (isT : (0 < 1)%N)).
  by have -> : ent temp a 0 = mx_of (6 + c + n) 1 temp (Ordinal la) (Ordinal (isT : (0 < 1)%N)); [rewrite mxE|rewrite h2].
have mFm : mx_of 6 1 F = Fm.
  have x1 : col_of 3 (fun k => ent temp k 0) = col_of 3 (fun k => ent (of_mx T) k 0).
    by apply/matrixP => a b; rewrite 2!mxE oft //; have := ltn_ord a; lia.
  have x2 : col_of 3 (fun k => ent temp (3 + k)%N 0) = col_of 3 (fun k => ent (of_mx T) (3 + k)%N 0).
    by apply/matrixP => a b; rewrite 2!mxE oft //; have := ltn_ord a; lia.
  by rewrite mF h4 /Fm /wrench x1 x2.
have mtnc : mx_of n 1 tnc = dsubmx T.
  apply/matrixP => a b; rewrite (ord1 b) [LHS]mxE h3 oft; last by have := ltn_ord a; lia.
  have la : (6 + c + a < 6 + c + n)%N by rewrite ltn_add2l.
  rewrite (of_mxO _ la (isT : (0 < 1)%N)) [RHS]mxE.
  have -> : Ordinal la = rshift (6 + c) a by apply: val_inj.
  by have -> : Ordinal (isT : (0 < 1)%N) = 0 by apply: val_inj.
have [tp [etp dtp mtp]] := dadd_mx dG dR.
have tsz : ts_sized rm 6 (nc_ts F) by [].
have [s1' [ok [eQ [dfq _ [q [eq hq]]]]]] := qp2_ok solver szd i.+1 tsz dNp dtp.
exists F, tp, q, (with_null s nR tnc); split=> //.
  by case: (sz0) => esn _ _ _ _; rewrite /one esn /= e1 e0 eqxx eF.
have -> : rev (with_null s nR tnc :: p :: done) = rcons (rev done) p ++ [:: with_null s nR tnc].
  by rewrite !rev_cons cats1.
cbv zeta.
have szr : size (rev done) = i by rewrite size_rev.
have -> : drop i (rcons (rev done) p ++ [:: with_null s nR tnc]) = [:: p; with_null s nR tnc].
  by rewrite cat_rcons -szr drop_size_cat.
have -> : drop i.+1 (rcons (rev done) p ++ [:: with_null s nR tnc]) = [:: with_null s nR tnc].
  by rewrite drop_size_cat // size_rcons szr.
rewrite /= etp /CalcSingleTaskTorqueWithQP_R_NC er -/(nc_ts F) eQ.
case es: (solver i.+1 q) hq => [x|] hq; last by case: hq => -> _ _ _; eexists; split.
case: hq => -> _ hf _; case: (sz0) => -> _ _ _ _.
have [X1 [-> dX1 mX1]] := dadd_mx dR d1.
have [Y1 [-> dY1 mY1]] := dadd_mx dN d2.
have [Jt [-> dJt mJt]] := top_ok szd.
have [tq [-> dtq mtq]] := dmul_mx dJt dfq.
have [t1 [/= -> dt ht]] := @spread_ok _ _ _ _ _ szd X1 Y1 tq c dX1 dY1 dtq (leqnn _).
eexists; split; first by []; split=> //=.
- by exists (t_fqp s1').
- by rewrite mX1 h5 -mF mFm mtnc.
by rewrite ht /applied /= mtq mJt mY1 mN add0r mtnc.
Qed.
End NC.
