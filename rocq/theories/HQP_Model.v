(* Model of the hierarchical QP of src/dwbc_hqp.cpp.

   None is an out-of-range access, a failed assert or a product / sum of mismatched sizes.
   Simplified: double arithmetic is exact; timers and verbose output are left out; OSQP is an
   oracle that receives the problem and returns a vector of the requested size (getSolution
   returns a vector even if the solve failed).  qp_lb_ and qp_ub_ are written by the code but
   never handed to OSQP, so they are left out; qp_lbA_ is overwritten with -INFTY before every
   solve (line 589), so the problem has upper bounds only. *)
From mathcomp Require Import all_ssreflect all_algebra.
From Verif Require Import DMat Cone_Model QP_Model.
Set Implicit Arguments.
Unset Strict Implicit.
Unset Printing Implicit Defensive.
Import Order.TTheory GRing.Theory Num.Theory.
Local Open Scope ring_scope.

Section HQPModel.
Variable R : realFieldType.
Local Notation dm := (dm R).

(* min 1/2 x'Hx + g'x  s.t.  A x <= ub: what OSQP is given, src/dwbc_hqp.cpp:594-602, 618-622 *)
Record oqp := OQP { o_H : dm; o_g : dm; o_A : dm; o_ub : dm }.

(* include/dwbc_hqp.h:9-112, class HQP_Hierarch, the members that matter here *)
Record level := LV {
  l_nin : nat;                  (* ineq_const_size_ *)
  l_neq : nat;                  (* eq_const_size_ *)
  l_A : dm; l_a : dm;           (* A_, a_ *)
  l_V : dm;                     (* V_ *)
  l_B : dm; l_b : dm;           (* B_, b_ *)
  l_W : dm;                     (* W_ *)
  l_cost : bool;                (* enable_cost_ *)
  l_H : dm; l_g : dm;           (* H_, g_ *)
  l_Z : dm; l_ns : nat;         (* Z_, null_space_size_ *)
  l_y : dm; l_v : dm; l_w : dm; (* y_ans_, v_ans_, w_ans_ *)
  l_qH : dm; l_qg : dm; l_qA : dm; l_qub : dm;   (* qp_H_, qp_g_, qp_A_, qp_ubA_ *)
  l_nv : nat; l_ncon : nat;     (* qp_variable_size_, qp_constraint_size_ *)
  l_ans : dm                    (* the vector ans filled in by solveOSQP; a local of the caller
                                   in the code, kept to speak about it *)
}.

(* member assignments *)
Definition setAa (l : level) A a := LV (l_nin l) (l_neq l) A a (l_V l) (l_B l) (l_b l) (l_W l) (l_cost l)
  (l_H l) (l_g l) (l_Z l) (l_ns l) (l_y l) (l_v l) (l_w l) (l_qH l) (l_qg l) (l_qA l) (l_qub l) (l_nv l) (l_ncon l) (l_ans l).
Definition setBb (l : level) B b := LV (l_nin l) (l_neq l) (l_A l) (l_a l) (l_V l) B b (l_W l) (l_cost l)
  (l_H l) (l_g l) (l_Z l) (l_ns l) (l_y l) (l_v l) (l_w l) (l_qH l) (l_qg l) (l_qA l) (l_qub l) (l_nv l) (l_ncon l) (l_ans l).
Definition setVW (l : level) V W := LV (l_nin l) (l_neq l) (l_A l) (l_a l) V (l_B l) (l_b l) W (l_cost l)
  (l_H l) (l_g l) (l_Z l) (l_ns l) (l_y l) (l_v l) (l_w l) (l_qH l) (l_qg l) (l_qA l) (l_qub l) (l_nv l) (l_ncon l) (l_ans l).
Definition setCost (l : level) H g := LV (l_nin l) (l_neq l) (l_A l) (l_a l) (l_V l) (l_B l) (l_b l) (l_W l) true
  H g (l_Z l) (l_ns l) (l_y l) (l_v l) (l_w l) (l_qH l) (l_qg l) (l_qA l) (l_qub l) (l_nv l) (l_ncon l) (l_ans l).
Definition setZ (l : level) Z ns := LV (l_nin l) (l_neq l) (l_A l) (l_a l) (l_V l) (l_B l) (l_b l) (l_W l) (l_cost l)
  (l_H l) (l_g l) Z ns (l_y l) (l_v l) (l_w l) (l_qH l) (l_qg l) (l_qA l) (l_qub l) (l_nv l) (l_ncon l) (l_ans l).
Definition setAns (l : level) y v w ans := LV (l_nin l) (l_neq l) (l_A l) (l_a l) (l_V l) (l_B l) (l_b l) (l_W l) (l_cost l)
  (l_H l) (l_g l) (l_Z l) (l_ns l) y v w (l_qH l) (l_qg l) (l_qA l) (l_qub l) (l_nv l) (l_ncon l) ans.
Definition setQP (l : level) H g A ub nv ncon := LV (l_nin l) (l_neq l) (l_A l) (l_a l) (l_V l) (l_B l) (l_b l) (l_W l) (l_cost l)
  (l_H l) (l_g l) (l_Z l) (l_ns l) (l_y l) (l_v l) (l_w l) H g A ub nv ncon (l_ans l).

(* src/dwbc_hqp.cpp:436-481, HQP_Hierarch::initialize with variable_size_ = n.  Members it does
   not touch are default constructed: empty matrices; H_ and g_ are empty too.  The three int
   members null_space_size_, qp_variable_size_, qp_constraint_size_ are uninitialised in the
   code; they are written before any use except in solveSequentialSingle without prepare. *)
Definition initLevel (n nin neq : nat) : level :=
  let e := dzero R 0 0 in
  LV nin neq
     (if (0 < nin)%N then dzero R nin n else e) (if (0 < nin)%N then dzero R nin 1 else dzero R 0 1)
     (if (0 < nin)%N then dident R nin else e)
     (dzero R neq n) (dzero R neq 1) (dident R neq) false e (dzero R 0 1)
     e 0 (dzero R n 1) (if (0 < nin)%N then dzero R nin 1 else dzero R 0 1) (dzero R neq 1)
     e (dzero R 0 1) e (dzero R 0 1) 0 0 (dzero R 0 1).

(* src/dwbc_hqp.cpp:425-434, HQP::addHierarchy; n = acceleration + torque + contact size *)
Definition addHierarchy (n : nat) (hs : seq level) (nin neq : nat) : seq level :=
  rcons hs (initLevel n nin neq).

(* assert(M.rows() == r); assert(M.cols() == c) *)
Definition sized (M : dm) (r c : nat) : bool := (nr M == r) && (nc M == c).

(* src/dwbc_hqp.cpp:525-546 (and 494-503, 514-523), updateConstraintMatrix *)
Definition updateConstraintMatrix (n : nat) (l : level) (A a B b : dm) : option level :=
  l1 <- (if (0 < l_nin l)%N
         then if sized A (l_nin l) n && sized a (l_nin l) 1 then Some (setAa l A a) else None
         else Some l) ;;
  if sized B (l_neq l) n && sized b (l_neq l) 1 then Some (setBb l1 B b) else None.

(* src/dwbc_hqp.cpp:483-493, updateCostMatrix *)
Definition updateCostMatrix (n : nat) (l : level) (H g : dm) : option level :=
  if sized H n n && sized g n 1 then Some (setCost l H g) else None.

(* src/dwbc_hqp.cpp:548-552, updateConstraintWeight *)
Definition updateConstraintWeight (l : level) (V W : dm) : level := setVW l V W.

(* src/dwbc_math: getNullSpace(A, N), src/math.cpp:349-360: complete orthogonal decomposition.
   Any function of A; the theorems assume it returns a basis of the kernel. *)
Variable getNullSpace : dm -> dm.

(* src/dwbc_hqp.cpp:40-58: levels 1, 2, ... given the Z_ of the level above *)
Fixpoint prepare_rest (Zp : dm) (hs : seq level) : option (seq level) :=
  match hs with
  | [::] => Some [::]
  | l :: hs' =>
      Bn <- dmul (l_B l) Zp ;;
      Z <- dmul Zp (getNullSpace Bn) ;;
      r <- prepare_rest Z hs' ;;
      Some (setZ l Z (nc Z) :: r)
  end.

(* src/dwbc_hqp.cpp:23-85, HQP::prepare; no level: hqp_hs_[0] is out of range *)
Definition prepare (hs : seq level) : option (seq level) :=
  match hs with
  | [::] => None
  | l :: hs' =>
      let Z := getNullSpace (l_B l) in
      r <- prepare_rest Z hs' ;;
      Some (setZ l Z (nc Z) :: r)
  end.

(* M.bottomRightCorner(h, h) = B, M.topRightCorner(h, h) = B, v.tail(h) = s *)
Definition brcw (M : dm) (h : nat) (B : dm) : option dm :=
  if ((h <= nr M) && (h <= nc M))%N then blockw M (nr M - h) (nc M - h) h h B else None.
Definition trcw (M : dm) (h : nat) (B : dm) : option dm :=
  if (h <= nc M)%N then blockw M 0 (nc M - h) h h B else None.
Definition tailw (v : dm) (h : nat) (s : dm) : option dm :=
  if (h <= nr v)%N then segw v (nr v - h) h s else None.
Definition tail (v : dm) (h : nat) : option dm :=
  if (h <= nr v)%N then seg v (nr v - h) h else None.

(* src/dwbc_hqp.cpp:313-333: the inequality rows of the level itself *)
Definition own_rows (l : level) (Zp yp : dm) (ns : nat) (q : oqp) : option oqp :=
  let nin := l_nin l in
  if (0 < nin)%N then
    H <- brcw (o_H q) nin (dident R nin) ;;
    g <- tailw (o_g q) nin (dzero R nin 1) ;;
    AZ <- dmul (l_A l) Zp ;;
    A1 <- blockw (o_A q) 0 0 nin ns AZ ;;
    A2 <- trcw A1 nin (dopp (dident R nin)) ;;
    Ay <- dmul (l_A l) yp ;;
    u <- dsub (dopp Ay) (l_a l) ;;
    ub <- segw (o_ub q) 0 nin u ;;
    Some (OQP H g A2 ub)
  else Some q.

(* src/dwbc_hqp.cpp:337-341: the least squares cost of the level *)
Definition own_cost (l : level) (Zp yp : dm) (ns : nat) (q : oqp) : option oqp :=
  temp <- dmul (l_B l) Zp ;;
  By <- dmul (l_B l) yp ;;
  temp2 <- dadd By (l_b l) ;;
  TT <- dmul (dtr temp) temp ;;
  H <- blockw (o_H q) 0 0 ns ns TT ;;
  Tt <- dmul (dtr temp) temp2 ;;
  g <- segw (o_g q) 0 ns Tt ;;
  Some (OQP H g (o_A q) (o_ub q)).

(* src/dwbc_hqp.cpp:343-356: the additional cost; g_ is not used *)
Definition extra_cost (l : level) (Zp yp : dm) (ns : nat) (q : oqp) : option oqp :=
  if l_cost l then
    ZtH <- dmul (dtr Zp) (l_H l) ;;
    ZHZ <- dmul ZtH Zp ;;
    H0 <- dblock (o_H q) 0 0 ns ns ;;
    H1 <- dadd H0 ZHZ ;;
    H <- blockw (o_H q) 0 0 ns ns H1 ;;
    ZHy <- dmul ZtH yp ;;
    g0 <- seg (o_g q) 0 ns ;;
    g1 <- dadd g0 ZHy ;;
    g <- segw (o_g q) 0 ns g1 ;;
    Some (OQP H g (o_A q) (o_ub q))
  else Some q.

(* src/dwbc_hqp.cpp:363-379: the inequality rows inherited from the levels above *)
Fixpoint inherited_rows (above : seq level) (Zp yp : dm) (ns : nat) (idx : nat) (q : oqp) : option oqp :=
  match above with
  | [::] => Some q
  | j :: above' =>
      if (0 < l_nin j)%N then
        if ((nc (l_V j) == nr (l_A j)) && (nc (l_A j) == nr Zp))%N then
          AZ <- dmul (l_A j) Zp ;;
          A <- blockw (o_A q) idx 0 (l_nin j) ns AZ ;;
          Ay <- dmul (dopp (l_A j)) yp ;;
          u1 <- dadd Ay (l_v j) ;;
          u <- dsub u1 (l_a j) ;;
          ub <- segw (o_ub q) idx (l_nin j) u ;;
          inherited_rows above' Zp yp ns (idx + l_nin j) (OQP (o_H q) (o_g q) A ub)
        else None
      else inherited_rows above' Zp yp ns idx q
  end.

(* src/dwbc_hqp.cpp:297-379: the problem of level l under level p with the levels above given
   top first (p is the last of them); nv, ncon are the new qp_variable_size_, qp_constraint_size_ *)
Definition levelQP (above : seq level) (p l : level) (init : bool) (nv ncon : nat) : option oqp :=
  let q0 := if init then OQP (dzero R nv nv) (dzero R nv 1) (dzero R ncon nv) (dzero R ncon 1)
            else OQP (l_qH l) (l_qg l) (l_qA l) (l_qub l) in
  q1 <- own_rows l (l_Z p) (l_y p) (l_ns p) q0 ;;
  q2 <- own_cost l (l_Z p) (l_y p) (l_ns p) q1 ;;
  q3 <- extra_cost l (l_Z p) (l_y p) (l_ns p) q2 ;;
  inherited_rows above (l_Z p) (l_y p) (l_ns p) (l_nin l) q3.

(* M.sparseView(1E-5), src/dwbc_hqp.cpp:586-587.  Eigen drops the coefficients that are much
   smaller than the reference: |x| <= 1e-5 * NumTraits<double>::dummy_precision() = 1e-17. *)
Definition sparse_tol : R := (10%:R ^+ 17)^-1.
Definition sparseView (M : dm) : dm :=
  DM (nr M) (nc M) (fun i j => if `|ent M i j| <= sparse_tol then 0 else ent M i j).

(* the problem handed to OSQP, src/dwbc_hqp.cpp:586-622 *)
Definition osqp_problem (l : level) : oqp := OQP (sparseView (l_qH l)) (l_qg l) (sparseView (l_qA l)) (l_qub l).

(* OSQP: level, init flag, problem -> qp_ans, of which qp_variable_size_ entries are used *)
Variable osqp : nat -> bool -> oqp -> (nat -> R).

(* src/dwbc_hqp.cpp:291-395, HQP::solveSequentialSingle on level i = size above.
   above = hqp_hs_[0 .. i-1]; p = hqp_hs_[i-1]; l = hqp_hs_[i]. *)
Definition solve_level (above : seq level) (p l : level) (init : bool) : option level :=
  let i := size above in
  let nv := (l_ns p + l_nin l)%N in
  let pcon := if i == 1%N then l_nin p else l_ncon p in      (* lines 297-300 *)
  let ncon := (pcon + l_nin l)%N in
  q <- levelQP above p l init nv ncon ;;
  let l1 := setQP l (o_H q) (o_g q) (o_A q) (o_ub q) nv ncon in
  let ans := vec nv (osqp i init (osqp_problem l1)) in
  u <- seg ans 0 (l_ns p) ;;
  Zu <- dmul (l_Z p) u ;;
  y <- dadd (l_y p) Zu ;;
  v <- tail ans (l_nin l) ;;
  By <- dmul (l_B l) y ;;
  w <- dadd By (l_b l) ;;
  Some (setAns l1 y v w ans).

(* src/dwbc_hqp.cpp:397-403, HQP::solveSequential: levels 1, 2, ...; above grows.
   Line 299 writes hqp_hs_[0].qp_constraint_size_ when i = 1. *)
Fixpoint solve_rest (above : seq level) (p : level) (hs : seq level) (init : bool) : option (seq level) :=
  match hs with
  | [::] => Some above
  | l :: hs' =>
      l' <- solve_level above p l init ;;
      solve_rest (rcons above l') l' hs' init
  end.

Definition solveSequential (hs : seq level) (init : bool) : option (seq level) :=
  match hs with
  | [::] => Some [::]
  | l :: hs' =>
      let l0 := if hs' is [::] then l
                else setQP l (l_qH l) (l_qg l) (l_qA l) (l_qub l) (l_nv l) (l_nin l) in
      solve_rest [:: l0] l0 hs' init
  end.

(* src/dwbc_hqp.cpp:222-289, HQP::solvefirst: level 0 with weights, always rebuilt.
   The lines 251-274 are as in own_cost with W_ and Z_ = identity; g_ is not used. *)
Definition firstQP (n : nat) (l : level) : option oqp :=
  let nin := l_nin l in
  let nv := (n + nin)%N in
  q1 <- (if (0 < nin)%N then
    H <- brcw (dzero R nv nv) nin (dident R nin) ;;
    VA <- dmul (l_V l) (l_A l) ;;
    A1 <- blockw (dzero R nin nv) 0 0 nin n VA ;;
    A2 <- trcw A1 nin (dopp (dident R nin)) ;;
    u <- dmul (dopp (l_V l)) (l_a l) ;;
    ub <- segw (dzero R nin 1) 0 nin u ;;
    Some (OQP H (dzero R nv 1) A2 ub)
  else Some (OQP (dzero R nv nv) (dzero R nv 1) (dzero R nin nv) (dzero R nin 1))) ;;
  temp <- dmul (l_W l) (l_B l) ;;
  temp2 <- dmul (l_W l) (l_b l) ;;
  TT <- dmul (dtr temp) temp ;;
  H <- blockw (o_H q1) 0 0 n n TT ;;
  Tt <- dmul (dtr temp) temp2 ;;
  g <- segw (o_g q1) 0 n Tt ;;
  H' <- (if l_cost l then H0 <- dblock H 0 0 n n ;; H1 <- dadd H0 (l_H l) ;; blockw H 0 0 n n H1 else Some H) ;;
  Some (OQP H' g (o_A q1) (o_ub q1)).

Definition solvefirst (n : nat) (hs : seq level) (init : bool) : option (seq level) :=
  match hs with
  | [::] => None
  | l :: hs' =>
      let nin := l_nin l in
      q <- firstQP n l ;;
      let l1 := setQP l (o_H q) (o_g q) (o_A q) (o_ub q) (n + nin) nin in
      let ans := vec (n + nin) (osqp 0 init (osqp_problem l1)) in
      y <- seg ans 0 n ;;
      v <- tail ans nin ;;
      Some (setAns l1 y v (l_w l1) ans :: hs')
  end.

End HQPModel.

(* src/dwbc_hqp.cpp:555-581, normalizeConstraintMatrix: rows divided by their Euclidean norm *)
Section Normalize.
Variable R : rcfType.

(* M.row(i).norm() *)
Definition rownorm (M : dm R) (i : nat) : R := Num.sqrt (\sum_(0 <= j < nc M) ent M i j ^+ 2).

(* rows of M, and the entries of m, divided by the norm where that is positive *)
Definition normalized (n : nat) (M m : dm R) : dm R * dm R :=
  let s i := if (i < n)%N && (0 < rownorm M i) then rownorm M i else 1 in
  (DM (nr M) (nc M) (fun i j => ent M i j / s i), DM (nr m) (nc m) (fun i j => ent m i j / s i)).

Definition normalizeConstraintMatrix (l : level R) : level R :=
  let l1 := if (0 < l_nin l)%N
            then let '(A, a) := normalized (l_nin l) (l_A l) (l_a l) in setAa l A a else l in
  let '(B, b) := normalized (l_neq l) (l_B l1) (l_b l1) in setBb l1 B b.
End Normalize.
