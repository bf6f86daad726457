From Coq Require Import String.
From mathcomp Require Import all_ssreflect all_algebra.
From mathcomp Require Import ring.
From Verif Require Import Geo_Model Geo_Spec Geo_Proofs Inr_Model Inr_Proofs Chg_Model Chg_Proofs Vmd_Model Vmd_Spec.
Set Implicit Arguments.
Unset Strict Implicit.
Unset Printing Implicit Defensive.
Import GRing.Theory.
Local Open Scope ring_scope.

Section P.
Variable R : fieldType.
Implicit Types (links ls : seq (vlink R)) (joints : seq (joint R)) (m : rmodel R).

Definition with_id (l : vlink R) id := VLink (v_name l) (v_parent l) (v_body l) id.

Lemma onth_put_id links k id i : onth (put_id links k id) i =
  if i == k then omap (with_id^~ id) (onth links i) else onth links i.
Proof.
rewrite /put_id /onth -map_drop.
have h a (s : seq (vlink R)) j : ohead [seq (if p.1 == k then VLink (v_name p.2) (v_parent p.2) (v_body p.2) id else p.2)
    | p <- drop j (zip (iota a (size s)) s)] = if (a + j)%N == k then omap (with_id^~ id) (ohead (drop j s)) else ohead (drop j s).
  elim: s a j => [|l s IH] a j /=; first by case: j => [|j] /=; rewrite ?if_same.
  case: j => [|j] /=; first by rewrite addn0; case: ifP.
  by rewrite (IH a.+1 j) addSnnS.
exact: (h 0%N links i).
Qed.
Lemma size_put_id links k id : size (put_id links k id) = size links.
Proof. by rewrite /put_id size_map size2_zip ?size_iota. Qed.
Lemma onth_some (T : Type) (s : seq T) i : (i < size s)%N -> exists x, onth s i = Some x.
Proof. rewrite /onth; elim: s i => [|a s IH] [|i] //=; [by exists a|exact: IH]. Qed.
Lemma onth_rcons (T : Type) (s : seq T) x i : onth (rcons s x) i = if i == size s then Some x else onth s i.
Proof. by rewrite /onth; elim: s i => [|a s IH] [|i] //=; apply: IH. Qed.

(* what k passes of the loop leave *)
Definition built links joints k m ls : Prop :=
  [/\ size ls = size links, size (m_bodies m) = k,
      (forall i l, onth links i = Some l -> exists l', [/\ onth ls i = Some l', v_name l' = v_name l, v_parent l' = v_parent l & v_body l' = v_body l]),
      (forall i l, (i < k)%N -> onth ls i = Some l -> (0 < v_body_id l <= m_last m)%N) &
      forall i l j, (i < k)%N -> onth ls i = Some l -> onth joints i = Some j ->
        exists b, onth (m_bodies m) i = Some b /\
          [/\ b_id b = v_body_id l, b_name b = v_name l /\ b_body b = v_body l, joint_kind j (b_joint b),
              joint_rotation j = Some (b_E b) /\ joint_translation j = Some (b_r b) &
              if (v_parent l, joint_type j == JOINT_FLOATING_BASE) is (Some p, false)
              then exists2 lp, onth ls p = Some lp & b_lambda b = v_body_id lp else b_lambda b = 0%N]].

Lemma ids_pos (j : rjoint R) : (0 < ids_of j)%N. Proof. by case: j. Qed.

Lemma kind_ok (j : joint R) : complete j -> exists r, ToRBDLJoint j = Some r /\ joint_kind j r.
Proof.
case=> _ [h|[h|[h ha]]]; rewrite /ToRBDLJoint; move: h; rewrite ?/floating_joint => h; rewrite h /=.
- by exists (RFloating R).
- by exists (R6DoF R).
- by case e: (joint_axis j) ha => [a|//] _; exists (RRevolute a).
Qed.

Lemma loop_built links joints k : (size links <= size joints)%N -> (k <= size links)%N ->
  (forall i j, onth joints i = Some j -> (i < size links)%N -> complete j) -> ordered links joints ->
  exists m ls, init_loop k links joints = Some (m, ls) /\ built links joints k m ls.
Proof.
move=> hs + hc ho; elim: k => [_|k IH hk].
  by exists (RModel [::] 0), links; split=> //; split=> // i l h; exists l.
have [m [ls [e [s1 s2 h1 h2 h3]]]] := IH (ltnW hk); rewrite /= e /add_one.
have kl : (k < size ls)%N by rewrite s1.
have [l el] := onth_some kl; have [j ej] := onth_some (leq_trans hk hs); rewrite el ej.
have [[r1 r2] _] := hc _ _ ej hk; have [rj [erj krj]] := kind_ok (hc _ _ ej hk).
case er: (joint_rotation j) r1 => [E|//] _; case et: (joint_translation j) r2 => [r|//] _; rewrite erj.
have [l0 el0] := onth_some hk; have [l0' [el0' n0 p0 b0]] := h1 _ _ el0.
move: el0'; rewrite el => -[e0]; rewrite -e0 in n0 p0 b0.
pose par := if (v_parent l, joint_type j == JOINT_FLOATING_BASE) is (Some p, false) then
   (if onth ls p is Some lp then v_body_id lp else 0%N) else 0%N.
have hpar : exists pid, (if v_parent l is Some p then omap (@v_body_id R) (onth ls p) else Some 0%N) = Some pid /\
   (if joint_type j == JOINT_FLOATING_BASE then 0%N else pid) = par /\ (par <= m_last m)%N /\
   (if (v_parent l, joint_type j == JOINT_FLOATING_BASE) is (Some p, false) then (p < k)%N else True).
  rewrite /par; case ep: (v_parent l) => [p|]; last by exists 0%N; case: ifP.
  have hp := ho _ _ _ p el0 ej; rewrite -p0 ep in hp.
  have pl : (p < size ls)%N by rewrite s1; case: (hp erefl) => [h|[_ //]]; exact: ltn_trans hk.
  have [lp elp] := onth_some pl; rewrite elp; exists (v_body_id lp); split=> //.
  case: eqP => // nf; split=> //; case: (hp erefl) => [pk|[]]; last by rewrite /floating_joint.
  by split=> //; have /andP[] := h2 _ _ pk elp.
case: hpar => pid [-> [-> [hle hpk]]]; rewrite /AddBody hle.
set id := (m_last m + ids_of rj)%N; set nb := RBody _ _ _ _ _ _ _.
have idp : (m_last m < id)%N by rewrite /id -addn1 leq_add2l ids_pos.
exists (RModel (rcons (m_bodies m) nb) id), (put_id ls k id); split=> //; split.
- by rewrite size_put_id.
- by rewrite /= size_rcons s2.
- move=> i li o; have [l' [o' q1 q2 q3]] := h1 _ _ o; rewrite onth_put_id; case: ifP => _; last by exists l'.
  by rewrite o' /=; exists (with_id l' id).
- move=> i li; rewrite onth_put_id /= ltnS; case: eqP => [-> _|/eqP ne]; first by rewrite el /= => -[<-] /=; rewrite leqnn andbT (leq_ltn_trans _ idp).
  rewrite leq_eqVlt (negbTE ne) /= => ik o; have /andP[u1 u2] := h2 _ _ ik o.
  by rewrite u1 (leq_trans u2) // ltnW.
move=> i li ji; rewrite onth_put_id /= ltnS; case: eqP => [-> _|/eqP ne].
  rewrite el /= => -[<-]; rewrite ej => -[<-]; exists nb; rewrite onth_rcons s2 eqxx; split=> //; split=> //=.
  rewrite /par; move: hpk; case ep: (v_parent l) => [p|//]; case: ifP => // nf pk.
  have pl : (p < size ls)%N by rewrite s1 (ltn_trans pk).
  have [lp elp] := onth_some pl; rewrite elp; exists lp => //.
  by rewrite onth_put_id elp; case: eqP => // pe; rewrite pe ltnn in pk.
rewrite leq_eqVlt (negbTE ne) /= => ik o oj; have [b [ob [q1 q2 q3 q4 q5]]] := h3 _ _ _ ik o oj.
exists b; rewrite onth_rcons s2; case: eqP => [ie|_]; first by rewrite ie ltnn in ik.
split=> //; split=> //; move: q5; case ep: (v_parent li) => [p|//]; case: ifP => // nf [lp elp el'].
have il : (i < size links)%N := ltn_trans ik hk.
have [lo eo] := onth_some il; have [lo' [eo' _ po _]] := h1 _ _ eo; move: eo'; rewrite o => -[e1]; rewrite -e1 ep in po.
have [pi|[ff _]] := ho _ _ _ _ eo oj (esym po); last by move: ff; rewrite /floating_joint => ff; rewrite ff in nf.
exists lp => //; rewrite onth_put_id; case: eqP => // pe.
by move: (ltn_trans pi ik); rewrite pe ltnn.
Qed.

Lemma fill_eq n (k : kin R n) s r : fill k s r = col_mx (\sum_(j <- s) k_w k j *m delta_mx 0 (k_index k j))
   (\sum_(j <- s) k_u k j *m delta_mx 0 (k_index k j) - skew r *m \sum_(j <- s) k_w k j *m delta_mx 0 (k_index k j)).
Proof.
rewrite /fill; elim: s => [|j s IH]; first by rewrite !big_nil mulmx0 subr0 col_mx0.
rewrite !big_cons IH mul_col_mx add_col_mx; congr col_mx.
by rewrite mulmxBl mulmxDr -mulmxA opprD addrACA.
Qed.
End P.
