(* Dynamically sized matrices with checked block writes, the model of Eigen's MatrixXd used
   where the code addresses a matrix by computed offsets.

   A block write or product whose sizes do not fit is None: Eigen asserts in debug builds and
   accesses memory out of bounds in release builds.  Entries are elements of an ordered field,
   not doubles. *)
From mathcomp Require Import all_ssreflect all_algebra.
Set Implicit Arguments.
Unset Strict Implicit.
Unset Printing Implicit Defensive.
Import Order.TTheory GRing.Theory Num.Theory.
Local Open Scope ring_scope.

Section DMat.
Variable R : realFieldType.

Record dm := DM { nr : nat; nc : nat; ent : nat -> nat -> R }.

(* M.setZero(r, c) *)
Definition dzero (r c : nat) : dm := DM r c (fun _ _ => 0).

(* M.block(i, j, h, w) = B *)
Definition blockw (M : dm) (i j h w : nat) (B : dm) : option dm :=
  if [&& nr B == h, nc B == w, i + h <= nr M & j + w <= nc M]%N
  then Some (DM (nr M) (nc M) (fun a b =>
         if ((i <= a < i + h) && (j <= b < j + w))%N then ent B (a - i) (b - j) else ent M a b))
  else None.

(* A * B *)
Definition dmul (A B : dm) : option dm :=
  if (nc A == nr B)%N
  then Some (DM (nr A) (nc B) (fun i j => \sum_(0 <= k < nc A) ent A i k * ent B k j))
  else None.

(* -A, A^T, A + B, A - B *)
Definition dopp (A : dm) : dm := DM (nr A) (nc A) (fun i j => - ent A i j).
Definition dtr (A : dm) : dm := DM (nc A) (nr A) (fun i j => ent A j i).
Definition dadd (A B : dm) : option dm :=
  if ((nr A == nr B) && (nc A == nc B))%N
  then Some (DM (nr A) (nc A) (fun i j => ent A i j + ent B i j)) else None.
Definition dsub (A B : dm) : option dm := dadd A (dopp B).

(* M.block(i, j, h, w) as a value; M.topRows etc. *)
Definition dblock (M : dm) (i j h w : nat) : option dm :=
  if ((i + h <= nr M) && (j + w <= nc M))%N
  then Some (DM h w (fun a b => ent M (i + a) (j + b))) else None.

(* a statically sized matrix *)
Definition of_mx m n (M : 'M[R]_(m, n)) : dm :=
  DM m n (fun i j => if insub i is Some i' then if insub j is Some j' then M i' j' else 0 else 0).

(* identity *)
Definition dident (n : nat) : dm := DM n n (fun i j => (i == j)%:R).

(* (A F)_i for a vector F given by its entries *)
Definition rowdot (A : dm) (i : nat) (F : nat -> R) : R := \sum_(0 <= j < nc A) ent A i j * F j.

Lemma of_mxE m n (M : 'M[R]_(m, n)) (i : 'I_m) (j : 'I_n) : ent (of_mx M) i j = M i j.
Proof. by rewrite /= !valK. Qed.

Lemma of_mxO m n (M : 'M[R]_(m, n)) (i j : nat) (hi : (i < m)%N) (hj : (j < n)%N) :
  ent (of_mx M) i j = M (Ordinal hi) (Ordinal hj).
Proof. by rewrite -of_mxE. Qed.

Lemma blockwP M i j h w B M' : blockw M i j h w B = Some M' ->
  [/\ nr B = h, nc B = w, (i + h <= nr M)%N & (j + w <= nc M)%N] /\
  [/\ nr M' = nr M, nc M' = nc M & forall a b,
    ent M' a b = if ((i <= a < i + h) && (j <= b < j + w))%N then ent B (a - i) (b - j) else ent M a b].
Proof. by rewrite /blockw; case: and4P => // -[/eqP <- /eqP <- ? ?] [<-]. Qed.

Lemma blockw_some M i j h w B : nr B = h -> nc B = w -> (i + h <= nr M)%N -> (j + w <= nc M)%N ->
  exists M', blockw M i j h w B = Some M'.
Proof. by move=> <- <- h3 h4; rewrite /blockw !eqxx h3 h4 /=; eexists. Qed.

Lemma blockw_none M i j h w B : ~~ (i + h <= nr M)%N \/ ~~ (j + w <= nc M)%N ->
  blockw M i j h w B = None.
Proof. by rewrite /blockw; case: and4P => // -[_ _ -> ->] []. Qed.

Lemma dmulP A B C : dmul A B = Some C ->
  nc A = nr B /\ [/\ nr C = nr A, nc C = nc B &
    forall i j, ent C i j = \sum_(0 <= k < nc A) ent A i k * ent B k j].
Proof. by rewrite /dmul; case: eqP => // e [<-]. Qed.

Lemma daddP A B C : dadd A B = Some C ->
  [/\ nr A = nr B & nc A = nc B] /\ [/\ nr C = nr A, nc C = nc A &
    forall i j, ent C i j = ent A i j + ent B i j].
Proof. by rewrite /dadd; case: andP => // -[/eqP e1 /eqP e2] [<-]. Qed.

Lemma dsubP A B C : dsub A B = Some C ->
  [/\ nr A = nr B & nc A = nc B] /\ [/\ nr C = nr A, nc C = nc A &
    forall i j, ent C i j = ent A i j - ent B i j].
Proof. by move/daddP => /= []. Qed.

Lemma sum_nat_eq n (f g : nat -> R) : (forall k, (k < n)%N -> f k = g k) ->
  \sum_(0 <= k < n) f k = \sum_(0 <= k < n) g k.
Proof. by move=> h; rewrite !big_nat; apply: eq_bigr => k /andP[_]; apply: h. Qed.

Lemma sum_nat0 n (f : nat -> R) : (forall k, (k < n)%N -> f k = 0) -> \sum_(0 <= k < n) f k = 0.
Proof. by move=> h; rewrite (@sum_nat_eq n f (fun=> 0)) // sumr_const_nat mul0rn. Qed.

Lemma sum_shift a n (f : nat -> R) : \sum_(a <= k < (a + n)%N) f k = \sum_(0 <= k < n) f (a + k)%N.
Proof.
rewrite -{1}[a]add0n big_addn addKn.
by apply: eq_bigr => i _; rewrite addnC.
Qed.

(* a sum whose terms vanish outside a window *)
Lemma sum_window b w n (f : nat -> R) : (b + w <= n)%N ->
  (forall j, (j < n)%N -> ~~ (b <= j < b + w)%N -> f j = 0) ->
  \sum_(0 <= j < n) f j = \sum_(0 <= j < w) f (b + j)%N.
Proof.
move=> le h; have leb : (b <= n)%N by apply: leq_trans le; apply: leq_addr.
rewrite (@big_cat_nat _ _ _ b) //= (@big_cat_nat _ _ _ (b + w) b) ?leq_addr //=.
have -> : \sum_(0 <= i < b) f i = 0.
  rewrite big_nat big1 // => j /andP[_ h2]; apply: h; first exact: leq_trans h2 leb.
  by rewrite negb_and -ltnNge h2.
have -> : \sum_((b + w)%N <= i < n) f i = 0.
  rewrite big_nat big1 // => j /andP[h1 h2]; apply: h => //.
  by rewrite negb_and -!leqNgt h1 orbT.
by rewrite add0r addr0 sum_shift.
Qed.

Lemma sum_split a b (f : nat -> R) :
  \sum_(0 <= j < (a + b)%N) f j = \sum_(0 <= j < a) f j + \sum_(0 <= j < b) f (a + j)%N.
Proof.
rewrite (@big_cat_nat _ _ _ a 0%N (a + b)%N) /=; [|exact: leq0n|exact: leq_addr].
by rewrite (sum_shift a b).
Qed.

Lemma sum_ord n (f : nat -> R) : \sum_(0 <= j < n) f j = \sum_(j < n) f j.
Proof. by rewrite big_mkord. Qed.

End DMat.
