(** Vocabulary for the linearizer of the finite volume discretizations: the system of equations
    as sums over elements, the grids, and the histories of an object. *)
From Coq Require Import List Bool Arith QArith.
Import ListNotations.
From Verif Require Import TpfaModel TpfaSpec FvLinModel.
Open Scope Q_scope.

Section Spec.
Context {PV : Type}.
Variable numElements : nat.
Variable numTotal : nat.
Variable dofs : nat -> list nat.
Variable primaries : nat -> nat.
Variable interior : nat -> bool.
Variable nonLocal : bool.
Variable enableConstraints : bool.

(** The degree of freedom [i] is a primary one of an element. *)
Definition primaryOf (e i : nat) : Prop := In i (firstn (primaries e) (dofs e)).
Definition owned (elems : list nat) (i : nat) : Prop := exists e, In e elems /\ primaryOf e i.

(** A grid: all indices are degrees of freedom of the model, and if [j] is in the stencil of an
    element with the primary degree of freedom [i], then also the other way round. *)
Definition fvGrid : Prop :=
  forall e i j, (e < numElements)%nat -> primaryOf e i -> In j (dofs e) ->
    (i < numTotal)%nat /\
    exists e', (e' < numElements)%nat /\ primaryOf e' j /\ In i (dofs e').

(** The elements of a domain, and those which are linearized. *)
Definition elementsOf (d : option (list nat)) : list nat :=
  match d with Some l => l | None => seq 0 numElements end.
Definition fvDomain (d : option (list nat)) : Prop :=
  Forall (fun e => (e < numElements)%nat) (elementsOf d).
Definition linearized (d : option (list nat)) : list nat :=
  filter (fun e => nonLocal || interior e)%bool (elementsOf d).

(** What the local linearizer computes for the elements with the solutions of a state. *)
Definition results (E : fvEnv PV) (s : fvLin PV) (e : nat) : local :=
  match localOf E (solution0 s) (solution1 s) e with
  | Some L => L
  | None => mkLocal (fun _ => zeroV) (fun _ _ => zeroM)
  end.

(** The equation of the degree of freedom [i], and the block in row [r] and column [c]: the sum
    of what the elements contribute. *)
Definition rowSum (R : nat -> local) (els : list nat) (i q : nat) : Q :=
  total (fun e =>
    total (fun kd => if (snd kd =? i)%nat then locResidual (R e) (fst kd) q else 0)
          (firstn (primaries e) (numbered (dofs e)))) els.
Definition blockSum (R : nat -> local) (els : list nat) (r c q p : nat) : Q :=
  total (fun e =>
    total (fun kd => if (snd kd =? c)%nat
                     then total (fun ld => if (snd ld =? r)%nat
                                           then locJacobian (R e) (fst ld) (fst kd) q p else 0)
                                (numbered (dofs e))
                     else 0)
          (firstn (primaries e) (numbered (dofs e)))) els.

(** Values and blocks of the matrix. *)
Definition fvEntry (s : fvLin PV) (i j q p : nat) : Q :=
  match fvMatrix s with
  | Some m => match m i j with Some b => b q p | None => 0 end
  | None => 0
  end.
Definition fvHas (s : fvLin PV) (i j : nat) : Prop :=
  exists m b, fvMatrix s = Some m /\ m i j = Some b.

(** A degree of freedom whose value is prescribed. *)
Definition constrained (s : fvLin PV) (i : nat) : Prop := exists v, In (i, v) (constraintsMap s).

(** The calls of a user and the states they lead to.  A linearization which fails because of an
    element ends with an exception; the linearizer can be used again afterwards. *)
Inductive fvUse :=
  | FvDomain (E : fvEnv PV) (d : option (list nat))
  | FvAux (E : fvEnv PV)
  | FvErase
  | FvSolution (sol0 sol1 : nat -> PV).    (* the model's solutions are changed *)

Let linearize := fvLinearizeDomain (PV := PV) numElements numTotal dofs primaries interior nonLocal enableConstraints.

Inductive fvReaches : fvLin PV -> list fvUse -> fvLin PV -> Prop :=
  | fv_end : forall s, fvReaches s [] s
  | fv_domain : forall s E d us s' t,
      fvDomain d -> linearize E d s = Done s' \/ linearize E d s = Problem s' ->
      fvReaches s' us t -> fvReaches s (FvDomain E d :: us) t
  | fv_aux : forall s E us s' t, fvLinearizeAux E s = Done s' ->
      fvReaches s' us t -> fvReaches s (FvAux E :: us) t
  | fv_erase : forall s us t, fvReaches (fvErase s) us t -> fvReaches s (FvErase :: us) t
  | fv_solution : forall s u v us t,
      fvReaches (mkFvLin (fvMatrix s) (fvResidual s) (constraintsMap s) u v) us t ->
      fvReaches s (FvSolution u v :: us) t.

End Spec.
Arguments fvUse : clear implicits.
