(* Concrete models: a base with links X and y, X carrying c1 and c2 (y sits between them in the body order). *)
From Coq Require Import String.
From mathcomp Require Import all_ssreflect all_algebra zify.
From Verif Require Con_Model.
From Verif Require Import Tree_Model Tree_Spec Tree_Proofs Tree_Thm Tree_Init Tree_More.
Set Implicit Arguments.
Unset Strict Implicit.
Unset Printing Implicit Defensive.
Local Open Scope string_scope.

Definition ZM := int_ZmodType.
Definition bm (b : int) : ZM := b.
Definition jn (a b : int) (_ : unit) : int := (a + b)%R.
Definition ex_m : rbdl int unit :=
  Rbdl [:: 0; 0; 10; 1; 2; 3; 4]%R (nseq 7 tt) [:: 0; 0; 1; 2; 3; 2; 3] [:: [:: 1]; [:: 2]; [:: 3; 5]; [:: 4; 6]; [::]; [::]; [::]]
    [:: 0; 3; 3; 1; 1; 1; 1] [:: 0; 0; 3; 6; 7; 8; 9]
    [:: ("base", 2); ("X", 3); ("c1", 4); ("y", 5); ("c2", 6); ("tip", 100); ("cam", 101)] 10 100 2.
Definition ex_nm (i : nat) : string := nth "" [:: "world"; "t"; "base"; "X"; "c1"; "y"; "c2"] i.
Definition empty : state ZM int unit := St [::] [::] [::] [::] [::] (0 : ZM)%R None 0 0 0 [::] false ex_m.
Definition ex_links : seq (mlink int) :=
  [:: MLink "base" 2 0 [:: 1; 3] 0 0 10%R; MLink "X" 3 0 [:: 2; 4] 1 1 1%R; MLink "c1" 4 1 [::] 2 2 2%R;
      MLink "y" 5 0 [::] 3 3 3%R; MLink "c2" 6 1 [::] 4 4 4%R].
Definition ex_state (fr : option unit) (ts : seq mtask) (qp : seq nat) (cc : seq nat) (lim : seq ZM) (set : bool) : state ZM int unit :=
  St ex_links [:: MJoint tt fr 3; MJoint tt fr 6; MJoint tt fr 7; MJoint tt fr 8; MJoint tt fr 9] ts qp cc (20 : ZM)%R None 5 10 4 lim set ex_m.

Lemma ex_rt : rbdl_tree bm 2 ex_m ex_nm.
Proof.
split=> //.
- by move=> [|[|[|[|[|[|[|i]]]]]]] b //= [<-].
- by move=> [|[|[|[|[|[|[|i]]]]]]] x //= [<-].
- by move=> [|[|[|[|[|[|[|i]]]]]]] x //= [<-].
- by move=> [|[|[|[|[|[|[|i]]]]]]] x //= _ [<-].
- by move=> [|[|[|[|[|[|[|i]]]]]]].
Qed.

Lemma ex_wf fr ts qp cc lim set : wf bm 2 (ex_state fr ts qp cc lim set).
Proof.
split=> //.
- by move=> [|[|[|[|[|k]]]]] l //= [<-]; split.
- by rewrite /= /ex_links !big_cons big_nil.
- by move=> [|[|[|[|[|k]]]]] l //= [<-].
- by move=> [|[|[|[|[|k]]]]] l //= [<-].
- by move=> [|[|[|[|[|k]]]]] l //= [<-].
- by move=> [|[|[|[|[|k]]]]] l //= [<-].
- by move=> [|[|[|b]]] // _ x [<-].
- by move=> [|[|b]] // _ x [<-].
- by move=> [|[|[|[|[|k]]]]] d //= _ [<-].
Qed.
