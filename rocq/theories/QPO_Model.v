(* Model of the options of CQuadraticProgram: EnableEqualityCondition and DisableEqualityCondition
   (src/qp_wrapper.cpp:158-168) and their use in SolveQPoases.  Extends QPW_Model: the rest of the object is as there.
   qpOASES's Options is external; as its sources have it, setToMPC and setToReliable first call setToDefault, which
   assigns every option, and setToMPC then enables the treatment of equalities. *)
From Coq Require Import List Arith ZArith Bool.
From Verif Require Import QPW_Model.
Import ListNotations.

(* qpOASES::Options: enableEqualities, boundRelaxation (in units of the default), and the rest, which only setTo... assigns *)
Record options := Options { o_eq : bool; o_relax : Z; o_rest : opts }.
(* qpOASES Options::setToMPC, setToReliable *)
Definition setToMPC (_ : options) : options := Options true 1 OptMPC.
Definition setToReliable (_ : options) : options := Options false 1 OptReliable.

Section QPO.
Context {E : Type} (zero : E).
Context {S : Type} (snew : nat -> nat -> S) (sdefault : S)
        (srun : kind -> S -> options -> @call E -> Z -> S * bool * Z) (ssol : S -> bool * vec E).

(* the object with _options, include/dwbc_qp_wrapper.h:52-54 *)
Definition qpo := (@qpw E S * options)%type.

(* src/qp_wrapper.cpp:158-163.  The tolerance is not used: the line that would is commented out *)
Definition EnableEqualityCondition (w : qpo) (tol : Z) : qpo := (fst w, Options true (o_relax (snd w)) (o_rest (snd w))).
(* src/qp_wrapper.cpp:165-168 *)
Definition DisableEqualityCondition (w : qpo) : qpo := (fst w, Options false (o_relax (snd w)) (o_rest (snd w))).

(* as ev of QPW_Model, with the options the solver is given *)
Inductive oev :=
| PNew (nv nc : nat)
| PCall (k : kind) (o : options) (a : @call E) (n : Z) (ok : bool)
| PSol (ok : bool)
| PRet (r : Z) (x : vec E).

(* src/qp_wrapper.cpp:192-380; the options are set at 226-240 and, for the second attempt, at 315-319 *)
Definition SolveQPoases (w : qpo) (n : Z) (mpc : bool) : option (qpo * list oev) :=
  let (q, o) := w in
  match arguments q with
  | None => None
  | Some a =>
      let o1 := if mpc then setToMPC o else setToReliable o in
      let k := if w_init q then KHot else KInit in
      let '(s1, ok1, n1) := srun k (w_s q) o1 a n in
      let '(s2, ok2, o2, evs) :=
        if ok1 then (s1, true, o1, [PCall k o1 a n true])
        else
          let n2 := (n1 * 10)%Z in
          let o2 := setToReliable o1 in
          let '(s2, ok2, _) := srun KInit (snew (w_nv q) (w_nc q)) o2 a n2 in
          (s2, ok2, o2, [PCall k o1 a n false; PNew (w_nv q) (w_nc q); PCall KInit o2 a n2 ok2]) in
      let '(scs, x) := ssol s2 in
      Some ((setSolver q s2 true, o2), evs ++ [PSol scs; PRet (if ok2 && scs then 1 else 0)%Z x])
  end.

(* the public interface: that of QPW_Model and the two calls *)
Inductive oop := OpEnable (tol : Z) | OpDisable | OpOther (o : @op E).

(* the calls other than SolveQPoases do not touch the options; InitializeProblemSize does not either
   (src/qp_wrapper.cpp:33-56) *)
Definition ostep (w : qpo) (p : oop) : option (qpo * list oev) :=
  match p with
  | OpEnable tol => Some (EnableEqualityCondition w tol, [])
  | OpDisable => Some (DisableEqualityCondition w, [])
  | OpOther (OInit nv nc) => Some ((InitializeProblemSize zero snew nv nc, snd w), [PNew nv nc])
  | OpOther (OMin H g) => Some ((UpdateMinProblem (fst w) H g, snd w), [])
  | OpOther (OAx A lb ub) => Some ((UpdateSubjectToAx (fst w) A lb ub, snd w), [])
  | OpOther (OAxUb A ub) => Some ((UpdateSubjectToAxUb (fst w) A ub, snd w), [])
  | OpOther (OX lb ub) => Some ((UpdateSubjectToX (fst w) lb ub, snd w), [])
  | OpOther ODelAx => Some ((DeleteSubjectToAx (fst w), snd w), [])
  | OpOther ODelX => Some ((DeleteSubjectToX (fst w), snd w), [])
  | OpOther (OSolve n mpc) => SolveQPoases w n mpc
  end.

Fixpoint oexec (w : qpo) (os : list oop) : option (qpo * list oev) :=
  match os with
  | [] => Some (w, [])
  | o :: os' =>
      match ostep w o with
      | None => None
      | Some (w1, t1) =>
          match oexec w1 os' with
          | None => None
          | Some (w2, t2) => Some (w2, t1 ++ t2)
          end
      end
  end.

(* a new object; Options() calls setToDefault *)
Definition ofresh : qpo := (fresh zero sdefault, Options false 1 OptReliable).
End QPO.
