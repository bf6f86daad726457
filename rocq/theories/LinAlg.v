(* General linear algebra over an arbitrary ordered field used by the models:
   quadratic forms, positive (semi)definite matrices, and the Moore-Penrose
   inverse constructed by full-rank factorisation.

   `mpinv` is the model of Eigen's CompleteOrthogonalDecomposition::pseudoInverse()
   as called from src/wbd.cpp:5-53 (PinvCODWBt, PinvCODWB) and
   src/math.cpp:23-53 (PinvCOD).  Simplified: the numerical rank threshold
   COD_THRESHOLD is replaced by the exact rank. *)
From mathcomp Require Import all_ssreflect all_algebra.
From mathcomp.algebra_tactics Require Import ring.
Set Implicit Arguments.
Unset Strict Implicit.
Unset Printing Implicit Defensive.
Import Order.TTheory GRing.Theory Num.Theory.
Local Open Scope ring_scope.

Section LinAlg.
Variable R : realFieldType.

(* value of a 1x1 matrix *)
Definition sc (x : 'M[R]_1) : R := x 0 0.

(* quadratic form and inner product *)
Definition quad n (A : 'M[R]_n) (x : 'cV[R]_n) : R := sc (x^T *m A *m x).
Definition dot n (x y : 'cV[R]_n) : R := sc (x^T *m y).

Definition symmetric n (A : 'M[R]_n) : Prop := A^T = A.
Definition posdef n (A : 'M[R]_n) : Prop :=
  symmetric A /\ forall x : 'cV[R]_n, x != 0 -> 0 < quad A x.
Definition psd n (A : 'M[R]_n) : Prop :=
  symmetric A /\ forall x : 'cV[R]_n, 0 <= quad A x.

Lemma sc0 : sc 0 = 0. Proof. by rewrite /sc mxE. Qed.
Lemma scD x y : sc (x + y) = sc x + sc y. Proof. by rewrite /sc mxE. Qed.
Lemma scN x : sc (- x) = - sc x. Proof. by rewrite /sc mxE. Qed.
Lemma scB x y : sc (x - y) = sc x - sc y. Proof. by rewrite /sc !mxE. Qed.
Lemma scZ a x : sc (a *: x) = a * sc x. Proof. by rewrite /sc mxE. Qed.
Lemma scT x : sc x^T = sc x. Proof. by rewrite /sc mxE. Qed.
Lemma sc_inj x y : sc x = sc y -> x = y.
Proof. by move=> e; apply/matrixP=> i j; rewrite !ord1. Qed.

Lemma trD m n (x y : 'M[R]_(m,n)) : (x + y)^T = x^T + y^T.
Proof. exact: linearD. Qed.
Lemma trB m n (x y : 'M[R]_(m,n)) : (x - y)^T = x^T - y^T.
Proof. exact: linearB. Qed.
Lemma trN m n (x : 'M[R]_(m,n)) : (- x)^T = - x^T.
Proof. exact: linearN. Qed.
Lemma trZ m n a (x : 'M[R]_(m,n)) : (a *: x)^T = a *: x^T.
Proof. exact: linearZ. Qed.
Lemma tr0 m n : (0 : 'M[R]_(m,n))^T = 0.
Proof. exact: linear0. Qed.

Lemma dotC n (x y : 'cV[R]_n) : dot x y = dot y x.
Proof. by rewrite /dot -scT trmx_mul trmxK. Qed.

Lemma dotE n (x y : 'cV[R]_n) : dot x y = \sum_i x i 0 * y i 0.
Proof. by rewrite /dot /sc mxE; apply: eq_bigr => i _; rewrite mxE. Qed.

Lemma dot_ge0 n (x : 'cV[R]_n) : 0 <= dot x x.
Proof. by rewrite dotE; apply: sumr_ge0 => i _; rewrite -expr2 sqr_ge0. Qed.

Lemma dot_eq0 n (x : 'cV[R]_n) : dot x x = 0 -> x = 0.
Proof.
rewrite dotE => /eqP; rewrite psumr_eq0 => [/allP h|i _]; last by rewrite -expr2 sqr_ge0.
apply/matrixP => i j; rewrite ord1 mxE.
by have := h i (mem_index_enum _); rewrite /= -expr2 sqrf_eq0 => /eqP.
Qed.

Lemma dot_gt0 n (x : 'cV[R]_n) : x != 0 -> 0 < dot x x.
Proof.
move=> h; rewrite lt_neqAle dot_ge0 andbT eq_sym.
by apply: contra h => /eqP /dot_eq0 ->.
Qed.

Lemma quadE n (A : 'M[R]_n) x : quad A x = dot x (A *m x).
Proof. by rewrite /quad /dot mulmxA. Qed.

Lemma posdef_psd n (A : 'M[R]_n) : posdef A -> psd A.
Proof.
case=> s p; split=> // x; have [->|h] := eqVneq x 0.
  by rewrite /quad mulmx0 sc0.
exact/ltW/p.
Qed.

Lemma mx_colP m n (A B : 'M[R]_(m,n)) : (forall x : 'cV[R]_n, A *m x = B *m x) -> A = B.
Proof.
move=> h; apply/matrixP=> i j.
have := h (delta_mx j 0); rewrite -!colE => /matrixP /(_ i 0).
by rewrite !mxE.
Qed.

Lemma unitmx_ker n (A : 'M[R]_n) :
  (forall x : 'cV[R]_n, A *m x = 0 -> x = 0) -> A \in unitmx.
Proof.
move=> h; rewrite -unitmx_tr -row_free_unit -kermx_eq0; apply/eqP/row_matrixP => i.
have := mulmx_ker A^T => /(congr1 (row i)); rewrite row_mul => /(congr1 trmx).
by rewrite trmx_mul trmxK !linear0 => /h /(congr1 trmx); rewrite trmxK => ->; rewrite !linear0.
Qed.

Lemma posdef_unit n (A : 'M[R]_n) : posdef A -> A \in unitmx.
Proof.
case=> _ p; apply: unitmx_ker => x e.
by apply/eqP; apply: contraT => /p; rewrite quadE e /dot mulmx0 sc0 ltxx.
Qed.

Lemma posdef_inv n (A : 'M[R]_n) : posdef A -> posdef (invmx A).
Proof.
move=> h; have u := posdef_unit h; case: h => s p; split.
  by rewrite /symmetric trmx_inv s.
move=> x nx; have e : x = A *m (invmx A *m x) by rewrite mulmxA mulmxV // mul1mx.
have -> : quad (invmx A) x = quad A (invmx A *m x).
  rewrite /quad trmx_mul trmx_inv s -!mulmxA; congr sc; congr (_ *m _).
  by rewrite mulKmx.
by apply: p; apply: contra nx => /eqP z; rewrite e z mulmx0.
Qed.

(* a psd form vanishes at x only if the matrix kills x *)
Lemma psd_quad0 n (A : 'M[R]_n) x : psd A -> quad A x = 0 -> A *m x = 0.
Proof.
case=> s p q0; apply/dot_eq0/eqP/contraT => nz.
set y := A *m x in nz *.
have ypos : 0 < dot y y by rewrite lt_neqAle dot_ge0 eq_sym nz.
have qy : 0 <= quad A y by [].
have expand t : quad A (x - t *: y) = t * (t * quad A y - 2%:R * dot y y).
  rewrite quadE mulmxBr -scalemxAr -/y /dot trB trZ mulmxBl !mulmxBr.
  rewrite -!scalemxAl -!scalemxAr !scB !scZ.
  have -> : sc (x^T *m y) = 0 by rewrite -q0 quadE.
  have -> : sc (x^T *m (A *m y)) = dot y y by rewrite mulmxA /dot /y trmx_mul s.
  by rewrite -[sc (y^T *m (A *m y))]quadE -/(dot y y); ring.
pose t := dot y y / (quad A y + 1).
have d1 : 0 < quad A y + 1 by exact: (ltr_spaddr ltr01 qy).
have tpos : 0 < t by rewrite divr_gt0.
have := p (x - t *: y); rewrite expand pmulr_rge0 // subr_ge0 => h.
have : t * quad A y < 2%:R * dot y y.
  rewrite /t mulrAC ltr_pdivr_mulr //.
  rewrite [2%:R * _]mulrC -mulrA ltr_pmul2l //.
  rewrite mulrDr mulr1 mulr_natl mulr2n -addrA.
  by rewrite ltr_addl; apply: (ltr_paddl qy); rewrite ltr_paddr ?ltr01 ?ler01.
by rewrite ltNge h.
Qed.

(* ------------------------------------------------------------------ *)
(* Gram matrices *)

Lemma gram_ker m n (C : 'M[R]_(m,n)) (x : 'cV_n) : C^T *m C *m x = 0 -> C *m x = 0.
Proof.
move=> h; apply: dot_eq0; rewrite /dot trmx_mul -!mulmxA.
by rewrite -mulmxA in h; rewrite h mulmx0 sc0.
Qed.

Lemma full_ker m n (C : 'M[R]_(m,n)) (x : 'cV_n) : row_full C -> C *m x = 0 -> x = 0.
Proof. by case/row_fullP=> B e h; rewrite -[x]mul1mx -e -mulmxA h mulmx0. Qed.

Lemma gram_unit m n (C : 'M[R]_(m,n)) : row_full C -> C^T *m C \in unitmx.
Proof. by move=> f; apply: unitmx_ker => x /gram_ker; apply: full_ker. Qed.

Lemma free_tr_full m n (F : 'M[R]_(m,n)) : row_free F -> row_full F^T.
Proof. by rewrite /row_free /row_full mxrank_tr. Qed.

Lemma gram_unit_free m n (F : 'M[R]_(m,n)) : row_free F -> F *m F^T \in unitmx.
Proof. by move=> f; have := gram_unit (free_tr_full f); rewrite trmxK. Qed.

(* ------------------------------------------------------------------ *)
(* Moore-Penrose inverse *)

Definition is_mpinv m n (A : 'M[R]_(m,n)) (X : 'M[R]_(n,m)) : Prop :=
  [/\ A *m X *m A = A, X *m A *m X = X, (A *m X)^T = A *m X & (X *m A)^T = X *m A].

(* Model of CompleteOrthogonalDecomposition::pseudoInverse(), src/wbd.cpp:5-53:
   A = C F full-rank factorisation, A^+ = F^T (F F^T)^-1 (C^T C)^-1 C^T. *)
Definition mpinv m n (A : 'M[R]_(m,n)) : 'M[R]_(n,m) :=
  let C := col_base A in let F := row_base A in
  F^T *m invmx (F *m F^T) *m (invmx (C^T *m C) *m C^T).

Lemma frf_mpinv m n r (C : 'M[R]_(m,r)) (F : 'M[R]_(r,n)) :
  row_full C -> row_free F ->
  is_mpinv (C *m F) (F^T *m invmx (F *m F^T) *m (invmx (C^T *m C) *m C^T)).
Proof.
move=> /gram_unit uC /gram_unit_free uF.
have eF : F *m (F^T *m invmx (F *m F^T)) = 1%:M by rewrite mulmxA mulmxV.
have eC : invmx (C^T *m C) *m C^T *m C = 1%:M by rewrite -mulmxA mulVmx.
have eAX : C *m F *m (F^T *m invmx (F *m F^T) *m (invmx (C^T *m C) *m C^T))
           = C *m (invmx (C^T *m C) *m C^T).
  by rewrite -mulmxA; congr (_ *m _); rewrite mulmxA eF mul1mx.
have eXA : F^T *m invmx (F *m F^T) *m (invmx (C^T *m C) *m C^T) *m (C *m F)
           = F^T *m invmx (F *m F^T) *m F.
  by rewrite -mulmxA; congr (_ *m _); rewrite mulmxA eC mul1mx.
split.
- by rewrite eAX -mulmxA; congr (_ *m _); rewrite mulmxA eC mul1mx.
- by rewrite eXA -[_ *m F *m _]mulmxA; congr (_ *m _); rewrite mulmxA eF mul1mx.
- by rewrite eAX !trmx_mul trmxK trmx_inv trmx_mul trmxK mulmxA.
- by rewrite eXA !trmx_mul trmxK trmx_inv trmx_mul trmxK mulmxA.
Qed.

Lemma mpinvP m n (A : 'M[R]_(m,n)) : is_mpinv A (mpinv A).
Proof.
rewrite /mpinv /= -{1}[A]mulmx_base; apply: frf_mpinv.
  exact: col_base_full.
exact: row_base_free.
Qed.

Lemma mpinv_uniq m n (A : 'M[R]_(m,n)) X Y : is_mpinv A X -> is_mpinv A Y -> X = Y.
Proof.
case=> x1 x2 x3 x4 [y1 y2 y3 y4].
have a1 : A *m X = A *m Y.
  rewrite -{1}y1 -mulmxA -[A *m Y *m _]trmxK trmx_mul x3 y3.
  by rewrite mulmxA x1.
have a2 : X *m A = Y *m A.
  rewrite -{1}y1 2!mulmxA -[X *m A *m Y *m A]mulmxA.
  by rewrite -[_ *m (Y *m A)]trmxK trmx_mul x4 y4 -mulmxA [A *m (X *m A)]mulmxA x1 y4.
by rewrite -x2 a2 -mulmxA a1 mulmxA y2.
Qed.

Lemma mpinvE m n (A : 'M[R]_(m,n)) X : is_mpinv A X -> mpinv A = X.
Proof. exact/mpinv_uniq/mpinvP. Qed.

Lemma mpinv_sym n (A : 'M[R]_n) : symmetric A -> symmetric (mpinv A).
Proof.
move=> s; apply/esym; apply: mpinvE; have [h1 h2 h3 h4] := mpinvP A.
split.
- by have := congr1 trmx h1; rewrite !trmx_mul s mulmxA.
- by have := congr1 trmx h2; rewrite !trmx_mul s mulmxA.
- by rewrite trmx_mul trmxK s -h4 trmx_mul s.
- by rewrite trmx_mul trmxK s -h3 trmx_mul s.
Qed.

Lemma mpinv_unit n (A : 'M[R]_n) : A \in unitmx -> mpinv A = invmx A.
Proof.
by move=> u; apply: mpinvE; split; rewrite ?mulmxV ?mulVmx ?trmx1 ?mul1mx.
Qed.

(* for symmetric A the two projectors coincide *)
Lemma mpinv_comm n (A : 'M[R]_n) : symmetric A -> A *m mpinv A = mpinv A *m A.
Proof.
move=> s; have [h1 h2 h3 h4] := mpinvP A.
by rewrite -h3 trmx_mul (mpinv_sym s) s.
Qed.

Lemma mpinv_psd n (A : 'M[R]_n) : psd A -> psd (mpinv A).
Proof.
case=> s p; have [h1 h2 h3 h4] := mpinvP A; have ss := mpinv_sym s.
split=> // x; have := p (mpinv A *m x).
rewrite /quad trmx_mul ss (_ : _ *m _ *m _ *m _ = x^T *m (mpinv A *m A *m mpinv A) *m x).
  by rewrite h2.
by rewrite !mulmxA.
Qed.

(* The orthogonal projection of x is the shorter one, strictly unless x is fixed. *)
Lemma proj_least n (P : 'M[R]_n) (x : 'cV[R]_n) : P^T = P -> P *m P = P ->
  dot (P *m x) (P *m x) <= dot x x /\ (dot x x = dot (P *m x) (P *m x) -> x = P *m x).
Proof.
move=> s i; have [y yE] : exists y, y = x - P *m x by eexists.
have xE : x = P *m x + y by rewrite yE addrC subrK.
have o : (P *m x)^T *m y = 0.
  by rewrite trmx_mul s yE mulmxBr -!mulmxA (mulmxA P P) i subrr.
have o' : y^T *m (P *m x) = 0 by rewrite -[LHS]trmxK trmx_mul trmxK o tr0.
have e : dot x x = dot (P *m x) (P *m x) + dot y y.
  have -> : dot x x = dot (P *m x + y) (P *m x + y) by rewrite -xE.
  by rewrite /dot trD mulmxDl !mulmxDr o o' !scD !sc0 addr0 add0r.
split; first by rewrite e ler_addl dot_ge0.
rewrite {1}e => /eqP; rewrite -subr_eq0 addrC addKr => /eqP/dot_eq0 y0.
by rewrite {1}xE y0 addr0.
Qed.

End LinAlg.
