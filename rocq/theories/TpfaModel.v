(** The linearizer of the two-point flux method
    (opm/models/discretization/common/tpfalinearizer.hh).

    Simplifications.  Scalars are exact rationals.  What the local residual and the problem
    compute (fluxes, storage, sources, boundary fluxes, well terms) is given by any functions;
    a flux carries its value and its derivatives with regard to the primary variables of the
    inner cell.  Addresses of matrix blocks are pairs of row and column.  The tables for the
    output of flows and velocities are left out.  One process: the [min] over the
    communicator in [linearizeDomain()] is the identity. *)
From Coq Require Import List Bool ZArith QArith.
Import ListNotations.
From Verif Require Import StencilModel.
Open Scope Q_scope.

(** [VectorBlock], [MatrixBlock] and [ADVectorBlock]: functions of the equation, of equation
    and variable, and a vector of numbers with derivatives. *)
Definition vec := nat -> Q.
Definition mat := nat -> nat -> Q.
Record ad := mkAd { val : vec; der : mat }.

Definition zeroV : vec := fun _ => 0.
Definition zeroM : mat := fun _ _ => 0.
Definition addV (a b : vec) : vec := fun e => a e + b e.
Definition subV (a b : vec) : vec := fun e => a e - b e.
Definition scaleV (a : vec) (f : Q) : vec := fun e => a e * f.
Definition addM (a b : mat) : mat := fun e p => a e p + b e p.
Definition scaleM (a : mat) (f : Q) : mat := fun e p => a e p * f.

(** The environment of a linearization: what the problem, the model and the local residual
    supply at that moment. *)
Record env := mkEnv {
  flux : nat -> nat -> nat -> ad;       (* computeFlux for cell, face and neighbour, times the area *)
  storage : nat -> ad;                  (* computeStorage at the current solution *)
  storageOld : nat -> vec;              (* computeStorage at time index 1 *)
  source : nat -> ad;                   (* computeSource or computeSourceDense *)
  boundaryFlux : nat -> nat -> option ad;  (* computeBoundaryFlux times the area for a cell and
                                              boundary face; None for BCType::NONE *)
  wells : list (nat * ad);              (* addReservoirSourceTerms: what is added to which cell *)
  volume : nat -> Q;
  dt : Q;
  storageCache : bool;                  (* model().enableStorageCache() *)
  recycle : bool;                       (* problem().recycleFirstIterationStorage() *)
  intQuantsCache : bool;                (* model().storeIntensiveQuantities() *)
  iteration : nat;                      (* newtonMethod().numIterations() *)
  separateSources : bool                (* separateSparseSourceTerms_ *)
}.

(** The matrix: [None] where the sparsity pattern has no block. *)
Definition matrix := nat -> nat -> option mat.

(** The members of the linearizer (tpfalinearizer.hh:855-930), and the storage cache of the
    model for the time indices 0 and 1. *)
Record lin := mkLin {
  jacobian : option matrix;
  residual : nat -> vec;
  neighborInfo : list (list nat);
  boundaryInfo : list (nat * nat);      (* cell and boundary face *)
  fullDomain : list nat;
  cached0 : nat -> vec;
  cached1 : nat -> vec
}.

Inductive outcome :=
  | Ok (s : lin)
  | NoMatrix              (* a null pointer is dereferenced *)
  | NoBlock               (* a block is accessed that is not in the sparsity pattern *)
  | BehindTable           (* a row of neighborInfo_ is accessed that does not exist *)
  | Throws.               (* a std::exception *)

Definition withJacobian (s : lin) (j : option matrix) : lin :=
  mkLin j (residual s) (neighborInfo s) (boundaryInfo s) (fullDomain s) (cached0 s) (cached1 s).
Definition withResidual (s : lin) (r : nat -> vec) : lin :=
  mkLin (jacobian s) r (neighborInfo s) (boundaryInfo s) (fullDomain s) (cached0 s) (cached1 s).

Definition at_ {A} (f : nat -> A) (i : nat) (x : A) : nat -> A :=
  fun k => if (k =? i)%nat then x else f k.

(** [init] (tpfalinearizer.hh:145-149) and [eraseMatrix] (158-161). *)
Definition eraseMatrix (s : lin) : lin := withJacobian s None.

Section Grid.
Variable intersections : nat -> list intersection.
Variable mapper : nat -> nat.
Variable numElements : nat.             (* elements of the grid view *)
Variable numAux : nat.                  (* degrees of freedom of auxiliary modules *)
Variable auxNeighbors : nat -> list nat.   (* what addNeighbors adds to a row *)
Variable nonTrivialBoundary : bool.     (* problem().nonTrivialBoundaryConditions() *)

(** [model().numTotalDof()]. *)
Definition numTotalDof : nat := numElements + numAux.

(** The global indices of the degrees of freedom of an element's stencil. *)
Definition dofsOf (e : nat) : list nat := map mapper (elements (update intersections e emptyStencil)).

(** The sparsity pattern as [createMatrix_] collects it (tpfalinearizer.hh:435-443, 495-500):
    is the block in the pattern? *)
Definition inPattern (i j : nat) : bool :=
  existsb (fun e => (mapper e =? i)%nat && existsb (Nat.eqb j) (dofsOf e)) (seq 0 numElements)
  || existsb (Nat.eqb j) (auxNeighbors i).

(** The boundary faces of an element that get an entry (tpfalinearizer.hh:471-490). *)
Definition boundaryOf (e : nat) : list (nat * nat) :=
  let faces := boundaryFaces (update intersections e emptyStencil) in
  map (fun k => (mapper e, fst k))
      (filter (fun k => negb (dirId (snd k) <? 0)%Z) (combine (seq 0 (length faces)) faces)).

(** The addresses taken at the end of [createMatrix_] (tpfalinearizer.hh:506-513). *)
Definition addressesOf (rows : list (list nat)) (i : nat) : option bool :=
  match nth_error rows i with
  | None => None
  | Some nbs => Some (inPattern i i && forallb (fun j => inPattern j i) nbs)
  end.

(** [createMatrix_] (tpfalinearizer.hh:409-525).  Rows are appended in the order of the
    elements; the values of a new matrix are not initialised, here they are zero (they are
    cleared right after). *)
Definition createMatrix (s : lin) : outcome :=
  match neighborInfo s with
  | _ :: _ => Ok s
  | [] =>
      let rows := map (fun e => tl (dofsOf e)) (seq 0 numElements) in
      let bdy := if nonTrivialBoundary then flat_map boundaryOf (seq 0 numElements) else [] in
      let checks := map (addressesOf rows) (seq 0 numTotalDof) in
      if existsb (fun c => match c with None => true | _ => false end) checks then BehindTable
      else if existsb (fun c => match c with Some false => true | _ => false end) checks then NoBlock
      else Ok (mkLin (Some (fun i j => if ((i <? numTotalDof)%nat && inPattern i j)%bool then Some zeroM else None))
                     (residual s) rows (boundaryInfo s ++ bdy) (seq 0 numTotalDof)
                     (cached0 s) (cached1 s))
  end.

(** [resetSystem_()] (tpfalinearizer.hh:528-533). *)
Definition resetAll (s : lin) : outcome :=
  match jacobian s with
  | None => NoMatrix
  | Some m => Ok (withJacobian (withResidual s (fun _ => zeroV))
                    (Some (fun i j => match m i j with Some _ => Some zeroM | None => None end)))
  end.

(** [initFirstIteration_] (tpfalinearizer.hh:394-406); the flow tables are left out. *)
Definition initFirstIteration (s : lin) : outcome :=
  match createMatrix s with Ok s => resetAll s | o => o end.

(** [IstlSparseMatrixAdapter::clearRow(row, 0.0)] (linalg/istlsparsematrixadapter.hh:131-148). *)
Definition clearRow (m : matrix) (r : nat) : matrix :=
  fun i j => if (i =? r)%nat then match m i j with Some _ => Some zeroM | None => None end
             else m i j.

(** [resetSystem_(domain)] (tpfalinearizer.hh:364-374). *)
Definition resetCells (cells : list nat) (s : lin) : outcome :=
  match jacobian s with
  | None => NoMatrix
  | Some m =>
      Ok (withJacobian (withResidual s (fold_left (fun r i => at_ r i zeroV) cells (residual s)))
            (Some (fold_left clearRow cells m)))
  end.

(** The memory operations of the loops of [linearize_]. *)
Inductive stmt :=
  | AddResidual (i : nat) (v : vec)         (* residual_[i] += v *)
  | AddBlock (i j : nat) (b : mat)          (* block (i, j) += b *)
  | Store0 (i : nat) (v : vec)              (* updateCachedStorage(i, 0, v) *)
  | Store1 (i : nat) (v : vec).             (* updateCachedStorage(i, 1, v) *)

Definition exec (s : lin) (t : stmt) : lin :=
  match t with
  | AddResidual i v => withResidual s (at_ (residual s) i (addV (residual s i) v))
  | AddBlock i j b =>
      withJacobian s
        (match jacobian s with
         | None => None
         | Some m => Some (fun r c => if ((r =? i)%nat && (c =? j)%nat)%bool
                                      then match m r c with Some x => Some (addM x b) | None => None end
                                      else m r c)
         end)
  | Store0 i v => mkLin (jacobian s) (residual s) (neighborInfo s) (boundaryInfo s) (fullDomain s)
                        (at_ (cached0 s) i v) (cached1 s)
  | Store1 i v => mkLin (jacobian s) (residual s) (neighborInfo s) (boundaryInfo s) (fullDomain s)
                        (cached0 s) (at_ (cached1 s) i v)
  end.

(** The flux terms of a cell (tpfalinearizer.hh:694-722). *)
Definition fluxStmts (E : env) (i : nat) (nbs : list nat) : list stmt :=
  flat_map (fun kj => let f := flux E i (fst kj) (snd kj) in
                      [AddResidual i (val f); AddBlock i i (der f);
                       AddBlock (snd kj) i (scaleM (der f) (-1))])
           (combine (seq 0 (length nbs)) nbs).

(** The accumulation term (tpfalinearizer.hh:724-775): [old] is what the cache holds for time
    index 1 when the cell is reached, [onFull] is on_full_domain. *)
Definition storageStmts (E : env) (onFull : bool) (old : vec) (i : nat) : list stmt :=
  let new := val (storage E i) in
  let storefac := volume E i / dt E in
  let first := (iteration E =? 0)%nat in
  let '(updates, start) :=
    if storageCache E
    then if first
         then if recycle E
              then if onFull then ([Store0 i new; Store1 i new], new) else ([Store0 i new], old)
              else ([Store0 i new; Store1 i (storageOld E i)], storageOld E i)
         else ([Store0 i new], old)
    else ([], storageOld E i) in
  updates ++ [AddResidual i (scaleV (subV new start) storefac);
              AddBlock i i (scaleM (der (storage E i)) storefac)].

(** The source term (tpfalinearizer.hh:777-791). *)
Definition sourceStmts (E : env) (i : nat) : list stmt :=
  [AddResidual i (scaleV (val (source E i)) (- volume E i));
   AddBlock i i (scaleM (der (source E i)) (- volume E i))].

(** The body of the loop over the cells (tpfalinearizer.hh:681-792). *)
Definition cellStmts (E : env) (onFull : bool) (s : lin) (i : nat) : list stmt :=
  fluxStmts E i (nth i (neighborInfo s) []) ++ storageStmts E onFull (cached1 s i) i
  ++ sourceStmts E i.

Definition cellBody (E : env) (onFull : bool) (s : lin) (i : nat) : lin :=
  fold_left exec (cellStmts E onFull s i) s.

(** Well terms and boundary terms (tpfalinearizer.hh:794-817). *)
Definition extraStmts (E : env) (s : lin) : list stmt :=
  (if separateSources E
   then flat_map (fun w => [AddResidual (fst w) (val (snd w)); AddBlock (fst w) (fst w) (der (snd w))])
                 (wells E)
   else [])
  ++ flat_map (fun b => match boundaryFlux E (fst b) (snd b) with
                        | None => []
                        | Some f => [AddResidual (fst b) (val f); AddBlock (fst b) (fst b) (der f)]
                        end) (boundaryInfo s).

(** [linearize_] (tpfalinearizer.hh:658-818). *)
Definition linearizeCells (E : env) (cells : list nat) (s : lin) : outcome :=
  if (negb (recycle E) && negb (intQuantsCache E) && negb (storageCache E))%bool then Throws
  else if existsb (fun i => (length (neighborInfo s) <=? i)%nat) cells then BehindTable
  else let onFull := (length cells =? numTotalDof)%nat in
       let s1 := fold_left (cellBody E onFull) cells s in
       Ok (fold_left exec (extraStmts E s1) s1).

(** [linearizeDomain(domain)] (tpfalinearizer.hh:229-248); [None] is the member [fullDomain_],
    which is only filled by [createMatrix_]. *)
Definition linearizeDomain (E : env) (domain : option (list nat)) (s : lin) : outcome :=
  match (match jacobian s with None => initFirstIteration s | Some _ => Ok s end) with
  | Ok s =>
      let cells := match domain with Some c => c | None => fullDomain s end in
      match (if (length cells =? numTotalDof)%nat then resetAll s else resetCells cells s) with
      | Ok s => linearizeCells E cells s
      | o => o
      end
  | o => o
  end.

End Grid.

(** A linearizer right after [init]. *)
Definition newLin : lin := mkLin None (fun _ => zeroV) [] [] [] (fun _ => zeroV) (fun _ => zeroV).
