(** The linearizer of the finite volume discretizations
    (opm/models/discretization/common/fvbaselinearizer.hh) on the matrix of
    opm/simulators/linalg/istlsparsematrixadapter.hh.

    Simplifications.  Scalars are exact rationals.  What the local linearizer computes for an
    element is any function of the solutions at the two time levels.  The loop over the elements
    is executed by one thread (the parallel loop is the subject of ParLoopModel).  One process:
    the minimum over the communicator is the identity; elements outside of the interior of the
    partition exist nevertheless. *)
From Coq Require Import List Bool Arith QArith.
Import ListNotations.
From Verif Require Import TpfaModel.
Open Scope Q_scope.

Section Types.
Variable PV : Type.       (* primary variables of a degree of freedom *)

(** What the local linearizer returns for an element: the residual of each primary degree of
    freedom, and a block for each degree of freedom and each primary one
    (fvbaseadlocallinearizer.hh, [residual(dofIdx)], [jacobian(domainScvIdx, rangeScvIdx)]). *)
Record local := mkLocal { locResidual : nat -> vec; locJacobian : nat -> nat -> mat }.

(** The environment of a call. *)
Record fvEnv := mkFvEnv {
  localOf : (nat -> PV) -> (nat -> PV) -> nat -> option local;  (* None: an exception *)
  constraintOf : nat -> nat -> option PV;      (* problem().constraints for an element and a
                                                  primary degree of freedom, if active *)
  auxBlocks : nat -> list nat;                 (* what the modules' addNeighbors adds to a row *)
  auxResidual : nat -> vec;                    (* what the modules add to the residual *)
  auxJacobian : list ((nat * nat) * mat);      (* and to blocks *)
  newtonIteration : nat                        (* newtonMethod().numIterations() *)
}.

(** The members of the linearizer (fvbaselinearizer.hh:668-690), and the solutions of the model
    for the time indices 0 and 1. *)
Record fvLin := mkFvLin {
  fvMatrix : option matrix;
  fvResidual : nat -> vec;
  constraintsMap : list (nat * PV);     (* std::map: one entry per index *)
  solution0 : nat -> PV;
  solution1 : nat -> PV
}.

Inductive fvOutcome :=
  | Done (s : fvLin)
  | Problem (s : fvLin)     (* NumericalProblem; the object can be used again *)
  | BadAccess.              (* a block is accessed which is not in the sparsity pattern *)

(** std::map::operator[] and assignment. *)
Fixpoint putKey (k : nat) (v : PV) (m : list (nat * PV)) : list (nat * PV) :=
  match m with
  | [] => [(k, v)]
  | (k', v') :: m' => if (k =? k')%nat then (k, v) :: m' else (k', v') :: putKey k v m'
  end.

Section Grid.
Variable numElements : nat.
Variable numTotal : nat.                 (* model().numTotalDof() *)
Variable dofs : nat -> list nat.         (* global indices of the stencil of an element *)
Variable primaries : nat -> nat.         (* numPrimaryDof: the first ones are primary *)
Variable interior : nat -> bool.         (* partitionType() == Dune::InteriorEntity *)
Variable nonLocal : bool.                (* LinearizeNonLocalElements *)
Variable enableConstraints : bool.

Definition primaryDofs (e : nat) : list nat := firstn (primaries e) (dofs e).

(** [createMatrix_] (fvbaselinearizer.hh:418-452) and [reserve]
    (istlsparsematrixadapter.hh:76-101): the blocks; their values are cleared right after. *)
Definition pattern (E : fvEnv) (i j : nat) : bool :=
  ((i <? numTotal)%nat &&
   (existsb (fun e => existsb (Nat.eqb i) (primaryDofs e) && existsb (Nat.eqb j) (dofs e))
            (seq 0 numElements)
    || existsb (Nat.eqb j) (auxBlocks E i)))%bool.

(** [initFirstIteration_] (fvbaselinearizer.hh:402-415). *)
Definition fvInit (E : fvEnv) (s : fvLin) : fvLin :=
  mkFvLin (Some (fun i j => if pattern E i j then Some zeroM else None)) (fun _ => zeroV)
          (constraintsMap s) (solution0 s) (solution1 s).

Definition withSystem (s : fvLin) (m : matrix) (r : nat -> vec) : fvLin :=
  mkFvLin (Some m) r (constraintsMap s) (solution0 s) (solution1 s).

(** [IstlSparseMatrixAdapter::clear] and [clearRow] (istlsparsematrixadapter.hh:126-150). *)
Definition clearAll (m : matrix) : matrix :=
  fun i j => match m i j with Some _ => Some zeroM | None => None end.
Definition diagonal (d : Q) : mat := fun e p => if (e =? p)%nat then d else 0.
Definition clearRowTo (d : Q) (m : matrix) (r : nat) : matrix :=
  fun i j => if (i =? r)%nat
             then match m i j with
                  | Some _ => Some (if (j =? r)%nat then diagonal d else zeroM)
                  | None => None
                  end
             else m i j.

(** [addToBlock] (istlsparsematrixadapter.hh:171-172). *)
Definition addToBlock (i j : nat) (b : mat) (m : matrix) : option matrix :=
  match m i j with
  | Some x => Some (fun r c => if ((r =? i)%nat && (c =? j)%nat)%bool then Some (addM x b) else m r c)
  | None => None
  end.

(** [resetSystem_()] and [resetSystem_(domain)] (fvbaselinearizer.hh:455-460, 342-374). *)
Definition fvReset (elems : list nat) (m : matrix) (r : nat -> vec) : matrix * (nat -> vec) :=
  if (length elems =? numTotal)%nat
  then (clearAll m, fun _ => zeroV)
  else (fold_left (clearRowTo 0) (flat_map primaryDofs elems) m,
        fold_left (fun r i => at_ r i zeroV) (flat_map primaryDofs elems) r).

(** [updateConstraintsMap_] (fvbaselinearizer.hh:464-506). *)
Definition newConstraints (E : fvEnv) : list (nat * PV) :=
  fold_left (fun m ek => match constraintOf E (fst ek) (snd ek) with
                         | Some v => putKey (nth (snd ek) (dofs (fst ek)) 0%nat) v m
                         | None => m
                         end)
            (flat_map (fun e => map (pair e) (seq 0 (primaries e))) (seq 0 numElements)) [].

(** [applyConstraintsToSolution_] (fvbaselinearizer.hh:630-645). *)
Definition applyToSolution (m : list (nat * PV)) (sol : nat -> PV) : nat -> PV :=
  fold_left (fun s kv => at_ s (fst kv) (snd kv)) m sol.

(** The additions of one element (fvbaselinearizer.hh:609-622), for one primary degree of
    freedom. *)
Fixpoint addColumn (L : local) (k : nat) (globI : nat) (l : list (nat * nat)) (m : matrix)
  : option matrix :=
  match l with
  | [] => Some m
  | (dofIdx, globJ) :: l' =>
      match addToBlock globJ globI (locJacobian L dofIdx k) m with
      | Some m' => addColumn L k globI l' m'
      | None => None
      end
  end.

Fixpoint addPrimaries (L : local) (all : list (nat * nat)) (ks : list (nat * nat))
    (mr : matrix * (nat -> vec)) : option (matrix * (nat -> vec)) :=
  match ks with
  | [] => Some mr
  | (k, globI) :: ks' =>
      match addColumn L k globI all (fst mr) with
      | Some m' => addPrimaries L all ks'
                     (m', at_ (snd mr) globI (addV (snd mr globI) (locResidual L k)))
      | None => None
      end
  end.

Definition numberedDofs (e : nat) : list (nat * nat) := combine (seq 0 (length (dofs e))) (dofs e).
Definition numberedPrimaries (e : nat) : list (nat * nat) := firstn (primaries e) (numberedDofs e).

(** The loop of [linearize_] (fvbaselinearizer.hh:534-585) over the remaining elements. *)
Fixpoint elementLoop (E : fvEnv) (sol0 sol1 : nat -> PV) (elems : list nat)
    (mr : matrix * (nat -> vec)) : (matrix * (nat -> vec)) * option bool :=
  match elems with
  | [] => (mr, Some true)
  | e :: rest =>
      if (negb nonLocal && negb (interior e))%bool then elementLoop E sol0 sol1 rest mr
      else match localOf E sol0 sol1 e with
           | None => (mr, Some false)
           | Some L =>
               match addPrimaries L (numberedDofs e) (numberedPrimaries e) mr with
               | Some mr' => elementLoop E sol0 sol1 rest mr'
               | None => (mr, None)
               end
           end
  end.

(** [applyConstraintsToLinearization_] (fvbaselinearizer.hh:649-667). *)
Definition applyToSystem (cm : list (nat * PV)) (mr : matrix * (nat -> vec)) : matrix * (nat -> vec) :=
  fold_left (fun mr kv => (clearRowTo 1 (fst mr) (fst kv), at_ (snd mr) (fst kv) zeroV)) cm mr.

(** [linearizeDomain(domain)] (fvbaselinearizer.hh:195-241), [linearize_] (509-590). *)
Definition fvLinearizeDomain (E : fvEnv) (domain : option (list nat)) (s : fvLin) : fvOutcome :=
  let s1 := match fvMatrix s with None => fvInit E s | Some _ => s end in
  let elems := match domain with Some l => l | None => seq 0 numElements end in
  match fvMatrix s1 with
  | None => BadAccess
  | Some m =>
      let mr := fvReset elems m (fvResidual s1) in
      let cm := if enableConstraints
                then if (newtonIteration E =? 0)%nat then newConstraints E else constraintsMap s1
                else constraintsMap s1 in
      let sol0 := if enableConstraints then applyToSolution cm (solution0 s1) else solution0 s1 in
      let sol1 := if enableConstraints then applyToSolution cm (solution1 s1) else solution1 s1 in
      match elementLoop E sol0 sol1 elems mr with
      | (_, None) => BadAccess
      | ((m', r'), Some false) => Problem (mkFvLin (Some m') r' cm sol0 sol1)
      | ((m', r'), Some true) =>
          let '(m2, r2) := if enableConstraints then applyToSystem cm (m', r') else (m', r') in
          Done (mkFvLin (Some m2) r2 cm sol0 sol1)
      end
  end.

(** [linearizeAuxiliaryEquations] (fvbaselinearizer.hh:250-285); the modules add to the residual
    and to blocks of the matrix. *)
Definition fvLinearizeAux (E : fvEnv) (s : fvLin) : fvOutcome :=
  match fvMatrix s with
  | None => BadAccess
  | Some m =>
      match fold_left (fun om ijb => match om with
                                     | Some m => addToBlock (fst (fst ijb)) (snd (fst ijb)) (snd ijb) m
                                     | None => None
                                     end) (auxJacobian E) (Some m) with
      | Some m' => Done (withSystem s m' (fun i => addV (fvResidual s i) (auxResidual E i)))
      | None => BadAccess
      end
  end.

(** [linearize()] (fvbaselinearizer.hh:179-183). *)
Definition fvLinearize (E : fvEnv) (s : fvLin) : fvOutcome :=
  match fvLinearizeDomain E None s with Done s' => fvLinearizeAux E s' | o => o end.

(** [eraseMatrix] (fvbaselinearizer.hh:165-168). *)
Definition fvErase (s : fvLin) : fvLin :=
  mkFvLin None (fvResidual s) (constraintsMap s) (solution0 s) (solution1 s).

End Grid.

(** After [init]: no matrix, no constraints. *)
Definition fvNew (sol0 sol1 : nat -> PV) : fvLin := mkFvLin None (fun _ => zeroV) [] sol0 sol1.

End Types.

Arguments mkFvEnv {PV}. Arguments localOf {PV}. Arguments constraintOf {PV}. Arguments auxBlocks {PV}.
Arguments auxResidual {PV}. Arguments auxJacobian {PV}. Arguments newtonIteration {PV}.
Arguments mkFvLin {PV}. Arguments fvMatrix {PV}. Arguments fvResidual {PV}.
Arguments constraintsMap {PV}. Arguments solution0 {PV}. Arguments solution1 {PV}.
Arguments Done {PV}. Arguments Problem {PV}. Arguments BadAccess {PV}.
Arguments putKey {PV}. Arguments pattern {PV}. Arguments fvInit {PV}. Arguments withSystem {PV}.
Arguments newConstraints {PV}. Arguments applyToSolution {PV}. Arguments elementLoop {PV}.
Arguments applyToSystem {PV}. Arguments fvLinearizeDomain {PV}. Arguments fvLinearizeAux {PV}.
Arguments fvLinearize {PV}. Arguments fvErase {PV}. Arguments fvNew {PV}.
