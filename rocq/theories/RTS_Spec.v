(* Vocabulary of the theorems on the task space of the reduced model *)
From mathcomp Require Import all_ssreflect all_algebra.
From Verif Require Import LinAlg DMat DMatL Dyn_Model RedM_Model Red_Model Geo_Spec RTq_Model RTq_Spec RTS_Model.
Set Implicit Arguments.
Unset Strict Implicit.
Unset Printing Implicit Defensive.
Import Order.TTheory GRing.Theory Num.Theory.
Local Open Scope ring_scope.

Section RTSSpec.
Variable R : realFieldType.
Variables c n : nat.
Implicit Types (s : stask R c n).

(* a task on links of the contact chains, which the other joints do not move.  The flags (include/dwbc_task.h:140-142)
   are false or as the last call for the task left them *)
Definition chain_task (link_num : nat) (co_link : seq nat) s : Prop :=
  [/\ [/\ rt_custom (s_fl s) = false, rt_noncont (s_fl s) = false & rt_cmm (s_fl s) = false],
      rt_links (s_fl s) <> [::], all (fun i => (i \in co_link) && (i != link_num)) (rt_links (s_fl s)) &
      rsubmx (s_J s) = 0].

(* a task on the centre of mass: its velocity is the momentum over the mass, so the Jacobian is made of the first six
   rows of the mass matrix *)
Definition com_task (A : 'M[R]_(6 + c + n)) (link_num : nat) s : Prop :=
  [/\ [/\ rt_custom (s_fl s) = false & rt_noncont (s_fl s) = false],
      rt_links (s_fl s) <> [::], all (fun i => i == link_num) (rt_links (s_fl s)) &
      exists L : 'M[R]_(s_dof s, 6), s_J s = L *m usubmx (usubmx A)].

(* a task on one link that hangs off the base by other joints than those of the contact chains *)
Definition limb_task (link_num : nat) (co_link : seq nat) s : Prop :=
  [/\ [/\ rt_custom (s_fl s) = false, rt_reduced (s_fl s) = false & rt_cmm (s_fl s) = false],
      exists i, rt_links (s_fl s) = [:: i] /\ (i \notin co_link) && (i != link_num) &
      rsubmx (lsubmx (s_J s)) = 0 :> 'M_(_, c)].

(* the same tasks for the full robot *)
Definition as_task s : task R (c + n) := @Task R (c + n) (s_dof s) (s_J s) (s_f s).

(* link_[0].jac_ of a base turned by rot *)
Definition base_jac (rot : 'M[R]_3) : 'M[R]_(6, 6 + c + n) := row_mx (row_mx (block_mx 1%:M 0 0 rot : 'M_(3 + 3)) 0) 0.

(* the members of rb as ReducedDynamicsCalculate and UpdateKinematics leave them *)
Definition reduced_members (rb : rrobot R) (rd : reduced R c n) (rot : 'M[R]_3) : Prop :=
  [/\ mx_of 6 n (w_JI rb) = rd_JI rd, mx_of n n (w_NI rb) = rd_NI rd, mx_of 6 n (w_JIT rb) = rd_JIinvT rd & w_rot rb = rot].
End RTSSpec.
