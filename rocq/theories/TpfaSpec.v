(** Vocabulary for the two-point flux linearizer: the system of equations written down as sums,
    the grids it is meant for, and derivatives of functions of a rational number. *)
From Coq Require Import List Bool ZArith QArith Qabs.
Import ListNotations.
From Verif Require Import StencilModel StencilSpec TpfaModel.
Open Scope Q_scope.

Definition total {A} (f : A -> Q) (l : list A) : Q := fold_right (fun a s => f a + s) 0 l.

(** The neighbours of a cell with the number of the face in front. *)
Definition numbered (nbs : list nat) : list (nat * nat) := combine (seq 0 (length nbs)) nbs.

(** The cells of the grid are numbered in the order of the iteration, every cell behind an
    intersection is a cell of the grid, neighbours are mutual, and no cell is its own
    neighbour. *)
Definition tpfaGrid (intersections : nat -> list intersection) (mapper : nat -> nat) (n : nat)
  : Prop :=
  (0 < n)%nat /\
  (forall c, (c < n)%nat -> mapper c = c) /\
  (forall c d, (c < n)%nat -> In d (behind (intersections c)) ->
     (d < n)%nat /\ d <> c /\ In c (behind (intersections d))).

(** The boundary faces that can carry a boundary condition: those of the grid's boundary with
    a face number. *)
Definition openFaces (intersections : nat -> list intersection) (c : nat) : list (nat * nat) :=
  map (pair c)
    (filter (fun k => match nth_error (outerOf (intersections c)) k with
                      | Some i => negb (indexInInside i <? 0)%Z
                      | None => false
                      end) (seq 0 (length (outerOf (intersections c))))).

(** What wells and boundary conditions contribute to a cell. *)
Definition extraResidual (E : env) (bdy : list (nat * nat)) (i e : nat) : Q :=
  (if separateSources E
   then total (fun w => if (fst w =? i)%nat then val (snd w) e else 0) (wells E) else 0)
  + total (fun b => if (fst b =? i)%nat
                    then match boundaryFlux E (fst b) (snd b) with Some f => val f e | None => 0 end
                    else 0) bdy.
Definition extraBlock (E : env) (bdy : list (nat * nat)) (i e p : nat) : Q :=
  (if separateSources E
   then total (fun w => if (fst w =? i)%nat then der (snd w) e p else 0) (wells E) else 0)
  + total (fun b => if (fst b =? i)%nat
                    then match boundaryFlux E (fst b) (snd b) with Some f => der f e p | None => 0 end
                    else 0) bdy.

(** The balance equation of a cell: what flows out, plus the change of what is stored since the
    beginning of the time step per time, minus what is produced, plus wells and boundary. *)
Definition balance (E : env) (nbs : nat -> list nat) (bdy : list (nat * nat)) (start : nat -> vec)
  (i e : nat) : Q :=
  total (fun kj => val (flux E i (fst kj) (snd kj)) e) (numbered (nbs i))
  + (val (storage E i) e - start i e) * (volume E i / dt E)
  - volume E i * val (source E i) e
  + extraResidual E bdy i e.

(** The block in row [i] and column [j]. *)
Definition ownBlock (E : env) (nbs : nat -> list nat) (i e p : nat) : Q :=
  total (fun kj => der (flux E i (fst kj) (snd kj)) e p) (numbered (nbs i))
  + der (storage E i) e p * (volume E i / dt E)
  - volume E i * der (source E i) e p.
Definition otherBlock (E : env) (nbs : nat -> list nat) (i j e p : nat) : Q :=
  - total (fun kc => if (snd kc =? i)%nat then der (flux E j (fst kc) i) e p else 0)
          (numbered (nbs j)).

(** Does a linearization of all cells, or of some, replace the stored amounts of the beginning
    of the time step? *)
Definition startAmounts (E : env) (onAll : bool) (cached : nat -> vec) (i : nat) : vec :=
  if negb (storageCache E) then storageOld E i
  else if (0 <? iteration E)%nat then cached i
  else if negb (recycle E) then storageOld E i
  else if onAll then val (storage E i) else cached i.

(** A value of the matrix, zero where there is no block. *)
Definition entryOf (s : lin) (i j e p : nat) : Q :=
  match jacobian s with
  | Some m => match m i j with Some b => b e p | None => 0 end
  | None => 0
  end.

(** There is a block. *)
Definition hasBlock (s : lin) (i j : nat) : Prop :=
  exists m b, jacobian s = Some m /\ m i j = Some b.

(** The calls of a user. *)
Inductive use := Linearize (E : env) (domain : option (list nat)) | Erase.

Section Uses.
Variables (intersections : nat -> list intersection) (mapper : nat -> nat) (numElements numAux : nat)
          (auxNeighbors : nat -> list nat) (nonTrivialBoundary : bool).

Inductive reaches : lin -> list use -> outcome -> Prop :=
  | reach_end : forall s, reaches s [] (Ok s)
  | reach_erase : forall s us o, reaches (eraseMatrix s) us o -> reaches s (Erase :: us) o
  | reach_lin : forall s E d us s' o,
      linearizeDomain intersections mapper numElements numAux auxNeighbors nonTrivialBoundary E d s = Ok s' ->
      reaches s' us o -> reaches s (Linearize E d :: us) o
  | reach_stop : forall s E d us o,
      linearizeDomain intersections mapper numElements numAux auxNeighbors nonTrivialBoundary E d s = o ->
      (forall s', o <> Ok s') -> reaches s (Linearize E d :: us) o.
End Uses.

(** [a] is the derivative at zero of a function of a rational number. *)
Definition derivative (f : Q -> Q) (a : Q) : Prop :=
  forall eps, 0 < eps -> exists delta, 0 < delta /\
    forall h, Qabs h < delta -> Qabs (f h - f 0 - a * h) <= eps * Qabs h.

(** The environments [P h] belong to solutions which differ in one variable [p] of one cell [c]
    by [h].  The numbers the linearizer is given for the cell carry the right derivatives, the
    numbers of other cells do not change, and what flows from one cell into a second one leaves
    the first one. *)
Record variation (nbs : nat -> list nat) (bdy : list (nat * nat)) (P : Q -> env) (c e p : nat)
  : Prop := mkVariation {
  var_flux : forall k j, In (k, j) (numbered (nbs c)) ->
    derivative (fun h => val (flux (P h) c k j) e) (der (flux (P 0) c k j) e p);
  var_storage : derivative (fun h => val (storage (P h) c) e) (der (storage (P 0) c) e p);
  var_source : derivative (fun h => val (source (P h) c) e) (der (source (P 0) c) e p);
  var_extra : derivative (fun h => extraResidual (P h) bdy c e) (extraBlock (P 0) bdy c e p);
  far_flux : forall h i k j, In (k, j) (numbered (nbs i)) -> i <> c -> j <> c ->
    val (flux (P h) i k j) e == val (flux (P 0) i k j) e;
  far_storage : forall h i, i <> c -> val (storage (P h) i) e == val (storage (P 0) i) e;
  far_source : forall h i, i <> c -> val (source (P h) i) e == val (source (P 0) i) e;
  far_extra : forall h i, i <> c -> extraResidual (P h) bdy i e == extraResidual (P 0) bdy i e;
  far_volume : forall h i, volume (P h) i == volume (P 0) i;
  far_dt : forall h, dt (P h) == dt (P 0);
  equal_and_opposite : forall h j, j <> c ->
    total (fun kc => if (snd kc =? c)%nat then val (flux (P h) j (fst kc) c) e else 0) (numbered (nbs j))
    == - total (fun kj => if (snd kj =? j)%nat then val (flux (P h) c (fst kj) j) e else 0)
               (numbered (nbs c))
}.

(** The neighbours of a cell and the boundary faces of the grid. *)
Definition neighboursIn (intersections : nat -> list intersection) (c : nat) : list nat :=
  behind (intersections c).
Definition boundaryIn (intersections : nat -> list intersection) (n : nat) (conditions : bool)
  : list (nat * nat) :=
  if conditions then flat_map (openFaces intersections) (seq 0 n) else [].

(** A domain: all cells, or a list of different cells of the grid. *)
Definition cellsOf (n : nat) (domain : option (list nat)) : list nat :=
  match domain with Some cells => cells | None => seq 0 n end.
Definition validDomain (n : nat) (domain : option (list nat)) : Prop :=
  NoDup (cellsOf n domain) /\ Forall (fun i => (i < n)%nat) (cellsOf n domain).
Definition validUses (n : nat) (us : list use) : Prop :=
  forall E d, In (Linearize E d) us -> validDomain n d.

(** The statements of the loop bodies of all cells, executed in any order which respects the
    order within each cell: the statements are labelled by the cell they belong to. *)
Definition interleaves (body : nat -> list stmt) (cells : list nat) (l : list (nat * stmt)) : Prop :=
  forall c, map snd (filter (fun x => (fst x =? c)%nat) l)
            = if existsb (Nat.eqb c) cells then body c else [].
