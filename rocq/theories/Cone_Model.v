(* Model of the contact constraint matrix and of getZMP.
   None is an out-of-range block or element access. *)
From mathcomp Require Import all_ssreflect all_algebra.
From Verif Require Import DMat.
Set Implicit Arguments.
Unset Strict Implicit.
Unset Printing Implicit Defensive.
Import Order.TTheory GRing.Theory Num.Theory.
Local Open Scope ring_scope.

(* include/dwbc_wbd.h:7-8 *)
Definition CONTACT_CONSTRAINT_ZMP := 4%N.
Definition CONTACT_CONSTRAINT_FORCE := 6%N.

Section ConeModel.
Variable R : realFieldType.

(* include/dwbc_contact_constraint.h:27-63, the members used here *)
Record pcontact := PContact {
  p_on : bool;               (* contact *)
  p_dof : nat;               (* contact_dof_ *)
  p_num : nat;               (* constraint_number_ *)
  p_rotm : 'M[R]_3;          (* rotm *)
  p_lx : R; p_ly : R;        (* contact_plane_x_, contact_plane_y_ *)
  p_mu : R; p_muz : R;       (* friction_ratio_, friction_ratio_z_ *)
  p_xc : 'cV[R]_3            (* xc_pos *)
}.

(* src/wbd.cpp:59-76 (through src/contact_constraint.cpp:100-103): a 4x6 matrix *)
Definition GetZMPConstMatrix (lx ly : R) : dm R :=
  DM 4 6 (fun i j =>
    match i, j with
    | 0%N, 2%N => - lx | 0%N, 4%N => -1
    | 1%N, 2%N => - lx | 1%N, 4%N => 1
    | 2%N, 2%N => - ly | 2%N, 3%N => -1
    | 3%N, 2%N => - ly | 3%N, 3%N => 1
    | _, _ => 0
    end).

(* src/wbd.cpp:77-97: a 6x6 matrix *)
Definition GetForceConstMatrix (mu muz : R) : dm R :=
  DM 6 6 (fun i j =>
    match i, j with
    | 0%N, 0%N => 1 | 0%N, 2%N => - mu
    | 1%N, 0%N => -1 | 1%N, 2%N => - mu
    | 2%N, 1%N => 1 | 2%N, 2%N => - mu
    | 3%N, 1%N => -1 | 3%N, 2%N => - mu
    | 4%N, 5%N => 1 | 4%N, 2%N => - muz
    | 5%N, 5%N => -1 | 5%N, 2%N => - muz
    | _, _ => 0
    end).

(* src/dwbc.cpp:497-510, the body of the loop for an active contact *)
Definition constraint_step (c : pcontact) (const_idx contact_idx : nat) (A_const A_rot : dm R)
  : option (dm R * dm R) :=
  let rt := of_mx (p_rotm c)^T in
  match blockw A_rot contact_idx contact_idx 3 3 rt with
  | None => None
  | Some A_rot1 =>
  match blockw A_rot1 (contact_idx + 3) (contact_idx + 3) 3 3 rt with
  | None => None
  | Some A_rot2 =>
  match blockw A_const const_idx contact_idx 4 6 (GetZMPConstMatrix (p_lx c) (p_ly c)) with
  | None => None
  | Some A_const1 =>
  match blockw A_const1 (const_idx + CONTACT_CONSTRAINT_ZMP) contact_idx 6 6
               (GetForceConstMatrix (p_mu c) (p_muz c)) with
  | None => None
  | Some A_const2 => Some (A_const2, A_rot2)
  end end end end.

(* src/dwbc.cpp:495-511, the loop over cc_ *)
Fixpoint constraint_loop (cc : seq pcontact) (const_idx contact_idx : nat) (A_const A_rot : dm R)
  : option (dm R * dm R) :=
  match cc with
  | [::] => Some (A_const, A_rot)
  | c :: cc' =>
      if p_on c then
        match constraint_step c const_idx contact_idx A_const A_rot with
        | Some (A_const', A_rot') =>
            constraint_loop cc' (const_idx + p_num c) (contact_idx + p_dof c) A_const' A_rot'
        | None => None
        end
      else constraint_loop cc' const_idx contact_idx A_const A_rot
  end.

(* src/dwbc.cpp:480-513; contact_link_num and contact_dof are the members contact_link_num_
   and contact_dof_ *)
Definition getContactConstraintMatrix (cc : seq pcontact) (contact_link_num contact_dof : nat)
  : option (dm R) :=
  let A_const0 := dzero R ((CONTACT_CONSTRAINT_ZMP + CONTACT_CONSTRAINT_FORCE) * contact_link_num)%N
                        contact_dof in
  let A_rot0 := dzero R contact_dof contact_dof in
  match constraint_loop cc 0 0 A_const0 A_rot0 with
  | Some (A_const, A_rot) => dmul (dopp A_const) A_rot
  | None => None
  end.

(* contact_force(k) *)
Definition at_ (F : seq R) (k : nat) : option R := nth None [seq Some x | x <- F] k.

(* src/dwbc.cpp:908-916, total_fz; i is the loop counter *)
Fixpoint total_fz (cc : seq pcontact) (i : nat) (F : seq R) (acc : R) : option R :=
  match cc with
  | [::] => Some acc
  | c :: cc' =>
      if p_on c then
        match at_ F (2 + i * 6) with Some v => total_fz cc' i.+1 F (acc + v) | None => None end
      else total_fz cc' i.+1 F acc
  end.

(* src/dwbc.cpp:918-936, cc_[i].zmp_pos; the threshold is -1.0E-3 *)
Definition contact_zmp (c : pcontact) (mx my fz : R) : 'cV[R]_3 :=
  if fz > - (1 / 1000%:R) then p_xc c
  else \col_k (if k == 0 :> 'I_3 then p_xc c 0 0 + - my / fz
               else if k == 1 :> 'I_3 then p_xc c 1 0 + mx / fz
               else p_xc c k 0).

(* src/dwbc.cpp:918-936, the second loop.  Simplified: the copies kept in cc_[i].zmp_pos are
   not returned. *)
Fixpoint zmp_loop (cc : seq pcontact) (i : nat) (F : seq R) (tot : R) (acc : 'cV[R]_3)
  : option 'cV[R]_3 :=
  match cc with
  | [::] => Some acc
  | c :: cc' =>
      if p_on c then
        match at_ F (i * 6 + 2), at_ F (i * 6 + 3), at_ F (i * 6 + 4) with
        | Some fz, Some mx, Some my =>
            zmp_loop cc' i.+1 F tot (acc + (fz / tot) *: contact_zmp c mx my fz)
        | _, _, _ => None
        end
      else zmp_loop cc' i.+1 F tot acc
  end.

(* src/dwbc.cpp:898-939 *)
Definition getZMP (cc : seq pcontact) (F : seq R) : option 'cV[R]_3 :=
  match total_fz cc 0 F 0 with
  | Some tot => zmp_loop cc 0 F tot 0
  | None => None
  end.

End ConeModel.
