(* Model of the rigid-body inertia helpers of src/link.cpp, src/math.cpp and src/dwbc.cpp.
   Entries are elements of a field, not doubles.  A division by a zero mass is the outcome None. *)
From mathcomp Require Import all_ssreflect all_algebra.
From Verif Require Import Geo_Model.
Set Implicit Arguments.
Unset Strict Implicit.
Unset Printing Implicit Defensive.
Import GRing.Theory.
Local Open Scope ring_scope.

Section InrModel.
Variable R : fieldType.
Local Notation vec := 'cV[R]_3.
Local Notation mat := 'M[R]_3.
Local Notation "[ A , B ; C , D ]6" := (block_mx A B C D : 'M[R]_(3 + 3)) (at level 0).

(* include/dwbc_link.h: the inertial fields of Link: mass, com_position_l_, inertia *)
Record body := Body { mass : R; com : vec; inertia : mat }.

(* src/link.cpp:247-269.  (inertia_other is computed there but not used.) *)
Definition AddLink (this other_link : body) (rotm : mat) (xpos : vec) : option body :=
  let new_mass := mass this + mass other_link in
  if new_mass == 0 then None
  else
    let other_com := rotm *m com other_link + xpos in
    let new_com := new_mass^-1 *: (mass this *: com this + mass other_link *: other_com) in
    let com_skm_this := skew (com this) in
    let inertia_this := inertia this + mass this *: (com_skm_this *m com_skm_this^T) in
    let com_skm_other := skew other_com in
    let inertia_other_com_rotated_this_origin :=
      rotm *m inertia other_link *m rotm^T + mass other_link *: (com_skm_other *m com_skm_other^T) in
    let inertia_summed := inertia_this + inertia_other_com_rotated_this_origin in
    let new_inertia := inertia_summed - new_mass *: (skew new_com *m (skew new_com)^T) in
    Some (Body new_mass new_com new_inertia).

(* src/link.cpp:200-219 *)
Definition GetSpatialInertiaMatrix (l : body) (rotation_first : bool) : 'M[R]_(3 + 3) :=
  if rotation_first then
    [inertia l + mass l *: (skew (com l) *m (skew (com l))^T), mass l *: skew (com l);
     mass l *: (skew (com l))^T, (mass l)%:M]6
  else
    [(mass l)%:M, mass l *: (skew (com l))^T;
     mass l *: skew (com l), inertia l + mass l *: (skew (com l) *m (skew (com l))^T)]6.

(* src/math.cpp:304-310; the result is (inertia, mass_center, mass) *)
Definition InertiaMatrixSegment (inertia_matrix : 'M[R]_(3 + 3)) : option (mat * vec * R) :=
  let mass := inertia_matrix (lshift 3 (inord 0)) (lshift 3 (inord 0)) in
  if mass == 0 then None
  else
    let skm_temp := mass^-1 *: dlsubmx inertia_matrix in
    let mass_center := vec3 (skm_temp (inord 2) (inord 1)) (skm_temp (inord 0) (inord 2)) (skm_temp (inord 1) (inord 0)) in
    Some (drsubmx inertia_matrix - mass *: (skew mass_center *m (skew mass_center)^T), mass_center, mass).

(* src/math.cpp:312-320 *)
Definition InertiaMatrix (inertia : mat) (mass : R) : 'M[R]_(3 + 3) := [mass%:M, 0; 0, inertia]6.

(* src/math.cpp:293-302 *)
Definition spatialTransformMatrix (pos : vec) (rot : mat) : 'M[R]_(3 + 3) := [rot, skew pos *m rot; 0, rot]6.

(* src/link.cpp:189-198 *)
Definition GetAdjointMatrix (xpos : vec) (rotm : mat) : 'M[R]_(3 + 3) := [rotm, 0; skew xpos *m rotm, rotm]6.

(* include/dwbc_link.h: the kinematic fields of Link used below; the six rows of jac_ are kept as two
   blocks of three (jac_.topRows(3): linear, jac_.bottomRows(3): angular, src/link.cpp:98-107) *)
Record link (n : nat) := Link {
  bd : body; rotm : mat; xpos : vec; xipos : vec;
  v : vec; w : vec; vi : vec;
  jac_top : 'M[R]_(3, n); jac_bottom : 'M[R]_(3, n) }.

Section Links.
Variable n : nat.

(* src/link.cpp:76-96: the fields UpdatePos derives from the others *)
Definition UpdatePos (l : link n) : link n :=
  Link (bd l) (rotm l) (xpos l) (xpos l + rotm l *m com (bd l)) (v l) (w l)
       (v l + skew (w l) *m (rotm l *m com (bd l))) (jac_top l) (jac_bottom l).

(* src/dwbc.cpp:2505-2605; links: the list without the trailing "COM" link.
   The unused com_vel__ is omitted.  The result is (com_inertia, com_momentum). *)
Definition CalcCOMInertia (links : seq (link n)) : option ('M[R]_(3 + 3) * 'cV[R]_(3 + 3)) :=
  let total_mass := \sum_(l <- links) mass (bd l) in
  if total_mass == 0 then None
  else
    let com_pos := \sum_(l <- links) total_mass^-1 *: (mass (bd l) *: xipos l) in
    let AdT l := [rotm l, 0; skew (xpos l - com_pos) *m rotm l, rotm l]6 in
    let AdTinv l := [(rotm l)^T, 0; skew (- ((rotm l)^T *m (xpos l - com_pos))) *m (rotm l)^T, (rotm l)^T]6 in
    let baseframe l := (AdTinv l)^T *m GetSpatialInertiaMatrix (bd l) true *m AdTinv l in
    let rotm_temp l := [(rotm l)^T, 0; 0, (rotm l)^T]6 in
    let vel l := col_mx (w l) (v l) in
    Some (\sum_(l <- links) baseframe l,
          \sum_(l <- links) (baseframe l *m AdT l *m rotm_temp l *m vel l)).

(* one link's contribution to H_C, src/dwbc.cpp:1649-1659 (and 1672-1679, 1705-1707) *)
Definition H_top (l : link n) : 'M[R]_(3, n) :=
  let r_ := rotm l in let i_ := inertia (bd l) in let c_ := com (bd l) in let x_ := xpos l in let m_ := mass (bd l) in
  (r_ *m (i_ + m_ *: (skew c_ *m (skew c_)^T)) *m r_^T + m_ *: (skew x_ *m r_ *m (skew c_)^T *m r_^T)) *m jac_bottom l
  + (m_ *: (r_ *m skew c_ *m r_^T) + m_ *: skew x_) *m jac_top l.
Definition H_bottom (l : link n) : 'M[R]_(3, n) :=
  let r_ := rotm l in let c_ := com (bd l) in let m_ := mass (bd l) in
  m_ *: (r_ *m (skew c_)^T *m r_^T *m jac_bottom l) + m_ *: jac_top l.

(* src/dwbc.cpp:1633-1662; links: link_ without its last element, com_xpos: link_.back().xpos *)
Definition CalcAngularMomentumMatrix (links : seq (link n)) (com_xpos : vec) : 'M[R]_(3, n) :=
  \sum_(l <- links) H_top l - skew com_xpos *m \sum_(l <- links) H_bottom l.

(* src/dwbc.cpp:1664-1682 (the overload with an output argument) *)
Definition CalcAngularMomentumMatrix6 (links : seq (link n)) (com_xpos : vec) : 'M[R]_(3 + 3, n) :=
  col_mx (\sum_(l <- links) H_top l - skew com_xpos *m \sum_(l <- links) H_bottom l)
         (\sum_(l <- links) H_bottom l).
End Links.

(* include/dwbc_link.h: the fields of Link and Joint used by CalcVirtualInertia (a negative
   parent_id_ is None; joints[i] is stored with links[i]) *)
Record tlink := TLink { tbody : body; parent_id : option nat; child_id : seq nat; jrot : mat; jtrans : vec }.

(* src/dwbc.cpp:2656-2660: the scan from the last link to the first for one without children *)
Fixpoint last_leaf (i : nat) (links : seq tlink) : option nat :=
  if links is l :: rest then
    if last_leaf i.+1 rest is Some j then Some j
    else if child_id l is [::] then Some i else None
  else None.

(* element i of a vector; None outside *)
Definition onth (T : Type) (s : seq T) (i : nat) : option T := ohead (drop i s).

(* outcomes of the loop: a result, an endless loop, or an access outside the vector / division by 0 *)
Inductive virtual_outcome := VResult of body | VLoop | VUndefined.

Definition set_nth_link (links : seq tlink) (p : nat) (l : tlink) : seq tlink :=
  take p links ++ l :: drop p.+1 links.

(* src/dwbc.cpp:2649-2692: one pass of while(true) per unit of fuel.  A pass that finds no leaf repeats
   for ever; one that finds a leaf removes a link, so as many passes as links suffice: VLoop is
   returned when fuel runs out or no leaf exists.  joints keeps its own index: joints[i] where i is the
   index in links_copy; so the joint list is a separate argument. *)
Fixpoint virtual_loop (fuel : nat) (joints : seq (mat * vec)) (links : seq tlink) : virtual_outcome :=
  match links with
  | [:: l] => VResult (tbody l)
  | _ =>
    if fuel is fuel'.+1 then
      match last_leaf 0 links with
      | None => VLoop
      | Some i =>
          match onth links i, onth joints i with
          | Some li, Some (jr, jt) =>
              match parent_id li with
              | None => VUndefined
              | Some p =>
                  match onth links p with
                  | None => VUndefined
                  | Some lp =>
                      match AddLink (tbody lp) (tbody li) jr jt with
                      | None => VUndefined
                      | Some b =>
                          let lp' := TLink b (parent_id lp) (rem i (child_id lp)) (jrot lp) (jtrans lp) in
                          let links' := set_nth_link links p lp' in
                          virtual_loop fuel' joints (take i links' ++ drop i.+1 links')
                      end
                  end
              end
          | _, _ => VUndefined
          end
      end
    else VLoop
  end.

(* src/dwbc.cpp:2607-2705; links: the vector without a trailing "COM" link; rotm0, xpos0: world pose of
   links[0].  The result is (new_inertia, new_com, new_mass). *)
Definition CalcVirtualInertia (links : seq tlink) (rotm0 : mat) (xpos0 : vec) : option (mat * vec * R) :=
  if virtual_loop (size links) [seq (jrot l, jtrans l) | l <- links] links is VResult b
  then Some (inertia b, xpos0 + rotm0 *m com b, mass b) else None.
End InrModel.
