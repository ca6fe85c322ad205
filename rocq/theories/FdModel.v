(** Numeric differentiation of the residual of an element
    (opm/models/discretization/common/fvbasefdlocallinearizer.hh) on the element context
    (opm/models/discretization/common/fvbaseelementcontext.hh).

    Simplifications.  Scalars are exact rationals.  The intensive and extensive quantities
    are values of any type, computed by any function.  Only time index 0 of the context is
    kept: the differentiation never touches the others.  The thermodynamic hints are left
    out. *)
From Coq Require Import List ZArith QArith Lia.
Import ListNotations.
Open Scope Q_scope.

(** Writing one entry of an array; writing behind the end has no effect here (the code has
    assertions). *)
Fixpoint put {A} (k : nat) (x : A) (l : list A) : list A :=
  match l, k with
  | [], _ => []
  | _ :: t, O => x :: t
  | y :: t, S k => y :: put k x t
  end.

(** One primary variable of a degree of freedom set to a value. *)
Definition setVar (pv : list Q) (p : nat) (v : Q) : list Q := put p v pv.

(** What the pointers [priVars] of the degrees of freedom point to: an entry of the
    solution vector, the member [priVarsStashed_] of the context, or a variable on the stack
    of [evalPartialDerivative_] (fvbaseelementcontext.hh:64-74, 497, 584). *)
Inductive pvPointer := AtSolution (g : nat) | AtStash | AtStack.

Section Context.
Variables (IQ EQ : Type).
(** [IntensiveQuantities::update], called for the degree of freedom with the given index in
    the context; it reads the primary variables of that degree of freedom. *)
Variable iqUpdate : nat -> list Q -> IQ.
(** [updateExtensiveQuantities] (fvbaseelementcontext.hh:230-239): the quantities of all
    faces as a function of the intensive quantities of all degrees of freedom. *)
Variable eqUpdate : list IQ -> list EQ.
(** [LocalResidual::eval] (fvbaselocalresidual.hh:158-199): from the primary variables, the
    intensive quantities and the extensive quantities which the context returns, one number
    per degree of freedom and equation. *)
Variable evalResidual : list (list Q) -> list IQ -> list EQ -> nat -> nat -> Q.

(** The element context (fvbaseelementcontext.hh:586-602). *)
Record context := mkContext {
  slot : list pvPointer;          (* dofVars_[].priVars[0] *)
  intQuants : list IQ;            (* dofVars_[].intensiveQuantities[0] *)
  extQuants : list EQ;            (* extensiveQuantities_ *)
  stashPv : list Q;               (* priVarsStashed_ *)
  stashIq : option IQ;            (* intensiveQuantitiesStashed_ *)
  stashedDof : option nat         (* stashedDofIdx_, -1 is None *)
}.

Variable solution : nat -> list Q.   (* model().solution(0) *)
Variable cached : nat -> option IQ.  (* model().cachedIntensiveQuantities(., 0) *)
Variable spaceIndex : list nat.      (* globalSpaceIndex of each degree of freedom *)

Definition numDof : nat := length spaceIndex.

(** Following a pointer; [stack] is the value of the local variable [priVars]. *)
Definition deref (c : context) (stack : list Q) (p : pvPointer) : list Q :=
  match p with
  | AtSolution g => solution g
  | AtStash => stashPv c
  | AtStack => stack
  end.

(** [primaryVars(dofIdx, 0)] (fvbaseelementcontext.hh:452-456). *)
Definition primaryVars (c : context) (stack : list Q) (d : nat) : list Q :=
  deref c stack (nth d (slot c) AtStack).

Definition allPrimaryVars (c : context) (stack : list Q) : list (list Q) :=
  map (deref c stack) (slot c).

(** [updateAll] (fvbaseelementcontext.hh:110-133): the loop of
    [updateIntensiveQuantities_] (547-571) and the update of the extensive quantities. *)
Definition freshIq (d g : nat) : IQ :=
  match cached g with Some q => q | None => iqUpdate d (solution g) end.

Definition updateAll (c : context) : context :=
  let iqs := map (fun dg => freshIq (fst dg) (snd dg)) (combine (seq 0 numDof) spaceIndex) in
  mkContext (map AtSolution spaceIndex) iqs (eqUpdate iqs) (stashPv c) (stashIq c) (stashedDof c).

(** [stashIntensiveQuantities] (fvbaseelementcontext.hh:481-488). *)
Definition stash (c : context) (d : nat) : context :=
  mkContext (slot c) (intQuants c) (extQuants c) (primaryVars c [] d)
            (nth_error (intQuants c) d) (Some d).

(** [restoreIntensiveQuantities] (fvbaseelementcontext.hh:495-500). *)
Definition restore (c : context) (d : nat) : context :=
  mkContext (put d AtStash (slot c))
            (match stashIq c with Some q => put d q (intQuants c) | None => intQuants c end)
            (extQuants c) (stashPv c) (stashIq c) None.

(** [updateIntensiveQuantities(priVars, dofIdx, 0)] followed by
    [updateAllExtensiveQuantities()] (fvbaseelementcontext.hh:220-221, 573-584, 227-239);
    [priVars] is the variable on the stack. *)
Definition deflect (c : context) (d : nat) (priVars : list Q) : context :=
  let iqs := put d (iqUpdate d priVars) (intQuants c) in
  mkContext (put d AtStack (slot c)) iqs (eqUpdate iqs) (stashPv c) (stashIq c) (stashedDof c).

(** [localResidual_.eval(..., elemCtx)] in a given state of the context. *)
Definition evalLocal (c : context) (stack : list Q) : nat -> nat -> Q :=
  evalResidual (allPrimaryVars c stack) (intQuants c) (extQuants c).

Variable method : Z.                     (* numericDifferenceMethod_() *)
Variable baseEpsilon : Q.                (* baseEpsilon(), the property BaseEpsilon *)
Variable weight : nat -> nat -> Q.       (* model().primaryVarWeight(globalIdx, pvIdx) *)

(** [numericEpsilon] (fvbasefdlocallinearizer.hh:279-290). *)
Definition epsilon (d p : nat) : Q := baseEpsilon / weight (nth d spaceIndex 0%nat) p.

(** [evalPartialDerivative_] (fvbasefdlocallinearizer.hh:417-485): the context afterwards and
    [derivResidual_]. *)
Definition evalPartialDerivative (c : context) (residual : nat -> nat -> Q) (d p : nat)
  : context * (nat -> nat -> Q) :=
  let c1 := stash c d in
  let priVars := primaryVars c1 [] d in
  let eps := epsilon d p in
  let '(c2, priVars2, delta2, deriv2) :=
    if (0 <=? method)%Z
    then let pv := setVar priVars p (nth p priVars 0 + eps) in
         let c2 := deflect c1 d pv in
         (c2, pv, 0 + eps, evalLocal c2 pv)
    else (c1, priVars, 0, residual) in
  let '(c3, delta3, deriv3) :=
    if (method <=? 0)%Z
    then let pv := setVar priVars2 p (nth p priVars2 0 - (delta2 + eps)) in
         let c3 := deflect c2 d pv in
         let r := evalLocal c3 pv in
         (c3, delta2 + eps, fun i e => deriv2 i e - r i e)
    else (c2, delta2, fun i e => deriv2 i e - residual i e) in
  (restore c3 d, fun i e => deriv3 i e / delta3).

(** A matrix entry: row degree of freedom, column degree of freedom, equation, variable. *)
Definition jacobian := nat -> nat -> nat -> nat -> Q.

Variable numEq : nat.
Variable numPrimaryDof : nat.

(** [updateLocalJacobian_] (fvbasefdlocallinearizer.hh:492-508). *)
Definition updateLocalJacobian (J : jacobian) (deriv : nat -> nat -> Q) (focus pv : nat)
  : jacobian :=
  fun d f e p =>
    if ((d <? numDof) && (e <? numEq) && (f =? focus) && (p =? pv))%nat%bool
    then deriv d e else J d f e p.

(** The body of the two loops of [linearize] (fvbasefdlocallinearizer.hh:248-256). *)
Definition column (residual : nat -> nat -> Q) (s : context * jacobian) (dp : nat * nat)
  : context * jacobian :=
  let '(c, deriv) := evalPartialDerivative (fst s) residual (fst dp) (snd dp) in
  (c, updateLocalJacobian (snd s) deriv (fst dp) (snd dp)).

Definition columns : list (nat * nat) :=
  flat_map (fun d => map (pair d) (seq 0 numEq)) (seq 0 numPrimaryDof).

(** [linearize] (fvbasefdlocallinearizer.hh:236-258): the context afterwards, the residual and
    the matrix.  [reset_] (361-372) makes the matrix zero first. *)
Definition linearize (c : context) : context * (nat -> nat -> Q) * jacobian :=
  let c0 := updateAll c in
  let residual := evalLocal c0 [] in
  let '(c', J) := fold_left (column residual) columns (c0, fun _ _ _ _ => 0) in
  (c', residual, J).

End Context.

Arguments mkContext {IQ EQ}.
Arguments slot {IQ EQ}.
Arguments intQuants {IQ EQ}.
Arguments extQuants {IQ EQ}.
Arguments stashPv {IQ EQ}.
Arguments stashIq {IQ EQ}.
Arguments stashedDof {IQ EQ}.
