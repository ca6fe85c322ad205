(** * Overlapping matrices and operators

    Model of [OverlappingBCRSMatrix]
    (/repo/opm/simulators/linalg/overlappingbcrsmatrix.hh) and [OverlappingOperator]
    (/repo/opm/simulators/linalg/overlappingoperator.hh).  A block (MatrixBlock) is a value
    of an arbitrary type V.

    Simplifications: a sparse matrix is its structure (for each row the columns which have
    an entry) and a function from row and column to the value; reading or writing an entry
    which is not in the structure, which [Dune::BCRSMatrix] does not define, is the outcome
    [None].  A column index -1 in the sets of columns (the process does not know the column),
    which the construction of the structure skips (lines 417-419, 435-437), is not put into
    the set in the first place. *)

From Coq Require Import Arith List Bool.
From Verif Require Import MpiModel ExchangeModel GlobalIndexModel ForeignModel DomesticModel VectorModel PipelineModel.
Import ListNotations.

(** The index buffers for one peer (lines 676-686): the rows, how many entries each row has
    and the columns of all entries, row by row; [None] is -1. *)
Record indexBuffers : Type := mkIndexBuffers {
  bRows : list nat;
  bSizes : list nat;
  bCols : list (option nat)
}.

(** The matrix without its values; [mxOk] becomes false when the code has undefined
    behaviour. *)
Record structure : Type := mkStructure {
  mxOk : bool;
  mxColumns : list (list nat);
  mxSend : nat -> indexBuffers;
  mxRecv : nat -> indexBuffers
}.

Definition noBuffers : indexBuffers := mkIndexBuffers [] [] [].

(** std::map: operator[] followed by an assignment. *)
Definition setPeer (q : nat) (b : indexBuffers) (f : nat -> indexBuffers) : nat -> indexBuffers :=
  fun k => if Nat.eqb k q then b else f k.

Definition sum (l : list nat) : nat := fold_left Nat.add l 0.

(** The nested loops over the rows of a buffer and the entries of each row with the running
    index k (lines 569-576, 591-603, 622-633, 650-661). *)
Fixpoint entriesOf (rows sizes : list nat) (cols : list (option nat)) : list (nat * option nat) :=
  match rows, sizes with
  | r :: rows', s :: sizes' =>
      map (fun c => (r, c)) (firstn s cols) ++ entriesOf rows' sizes' (skipn s cols)
  | _, _ => []
  end.

Definition bufferEntries (b : indexBuffers) : list (nat * option nat) :=
  entriesOf (bRows b) (bSizes b) (bCols b).

Section Process.
Context {V : Type}.
Variable zero : V.
Variable fo : foreignOverlap.
Variable shared : nat -> list (nat * nat).
Variable dom : domestic.
Variable black : list (nat * option nat).   (* the map of the black list *)
Variable localToNative : nat -> nat.
Variable numRows : nat.                     (* nativeMatrix.N() *)
Variable graph : nat -> list nat.           (* the columns of each native row *)

(** The domestic index of a native column, lines 235-247, 353-363, 482-493. *)
Definition columnOf (n : nat) : option nat :=
  match nativeToLocal fo n with
  | Some l => Some l
  | None => nativeToDomesticOf n black
  end.

(** The domestic columns of a native row, in the order of the native matrix. *)
Definition rowColumns (n : nat) : list nat :=
  flat_map (fun c => match columnOf c with Some j => [j] | None => [] end) (graph n).

(** std::set: inserting several elements. *)
Definition insertAll (xs : list nat) (s : list nat) : list nat := fold_left (fun s x => setInsert x s) xs s.

(** The entries of the native matrix, lines 341-367. *)
Definition localEntries : list (list nat) :=
  fold_left (fun es n =>
      match nativeToLocal fo n with
      | Some l => upd es l (insertAll (rowColumns n) (nth l es []))
      | None => es
      end) (seq 0 numRows) (repeat [] (domSize dom)).

(* ----- the indices which are sent ----- *)

(** The global columns of the row with the domestic index l, lines 471-499. *)
Definition globalColumns (l : nat) : list (option nat) :=
  map (domesticToGlobal (domIdx dom)) (rowColumns (localToNative l)).

(** The set of them.  The map from rows to sets (lines 467-469, 476) has one set for each row of
    the foreign overlap since no row is in it twice. *)
Definition columnSet (l : nat) : list nat := insertAll (values0 (globalColumns l)) [].

Definition rowsFor (q : nat) : list (option nat) :=
  map (fun ld => domesticToGlobal (domIdx dom) (fst ld)) (shared q).
Definition setsFor (q : nat) : list (list nat) := map (fun ld => columnSet (fst ld)) (shared q).

(** [numEntries], lines 470, 497: every column counts, also if the set has it already. *)
Definition numEntriesFor (q : nat) : nat :=
  sum (map (fun ld => length (globalColumns (fst ld))) (shared q)).

(** The buffer of the columns has [numEntries] elements; those which the loop (lines
    503-520) does not write are arbitrary (here 0). *)
Definition columnsFor (q : nat) : list nat :=
  concat (setsFor q) ++ repeat 0 (numEntriesFor q - length (concat (setsFor q))).

(** All indices are known, and the loop does not write beyond the end of the buffer. *)
Definition sendDefinedFor (q : nat) : bool :=
  allSome (rowsFor q) && forallb (fun ld => allSome (globalColumns (fst ld))) (shared q).

(** [sendIndices_], lines 448-530: four messages. *)
Definition sendIndices (q : nat) {S : Type} (s : S) : proc (bmsg nat) S :=
  Isend q (Count (length (shared q)))
  (Isend q (Items (map (@length nat) (setsFor q)))
  (Isend q (Items (values0 (rowsFor q)))
  (Isend q (Items (columnsFor q)) (Ret s)))).

(* ----- the indices which are received ----- *)

(** [globalToDomesticBuff_], lines 666-670. *)
Definition toDomestic (gs : list nat) : list (option nat) := map (globalToDomestic (domIdx dom)) gs.

(** Adding entries to the sets of columns, lines 568-577. *)
Definition addEntries (es : list (nat * option nat)) (cs : list (list nat)) : list (list nat) :=
  fold_left (fun cs e =>
      match snd e with
      | Some j => upd cs (fst e) (setInsert j (nth (fst e) cs []))
      | None => cs
      end) es cs.

(** A row which is not known (-1) is used as an index into the array of the sets: not
    defined. *)
Definition gotIndices (q : nat) (sizes rows cols : list nat) (st : structure) : structure :=
  let rs := toDomestic rows in
  let b := mkIndexBuffers (values0 rs) sizes (toDomestic cols) in
  mkStructure (mxOk st && allSome rs) (addEntries (bufferEntries b) (mxColumns st))
    (mxSend st) (setPeer q b (mxRecv st)).

Definition badStructure (st : structure) : structure :=
  mkStructure false (mxColumns st) (mxSend st) (mxRecv st).

(** [receiveIndices_], lines 533-579; receiving a message of another size than the buffer is
    not defined. *)
Definition receiveIndices (q : nat) (st : structure) : proc (bmsg nat) structure :=
  Recv q (fun c => Recv q (fun s => Recv q (fun r => Recv q (fun e => Ret (
    match c, s, r, e with
    | Count n, Items sizes, Items rows, Items cols =>
        if Nat.eqb n (length sizes) && Nat.eqb n (length rows) && Nat.eqb (sum sizes) (length cols)
        then gotIndices q sizes rows cols st
        else badStructure st
    | _, _, _, _ => badStructure st
    end))))).

(** The send buffers hold domestic indices at the end, lines 389-403. *)
Definition convertSent (st : structure) (q : nat) : structure :=
  let rs := toDomestic (values0 (rowsFor q)) in
  mkStructure (mxOk st && allSome rs) (mxColumns st)
    (setPeer q (mkIndexBuffers (values0 rs) (map (@length nat) (setsFor q)) (toDomestic (columnsFor q)))
       (mxSend st)) (mxRecv st).

(** [build_], [buildIndices_], lines 325-446. *)
Definition buildMatrix : proc (bmsg nat) structure :=
  bind (forEach (peerSet fo) (fun q s => sendIndices q s)
    (mkStructure (forallb sendDefinedFor (peerSet fo)) localEntries (fun _ => noBuffers) (fun _ => noBuffers)))
  (fun st => bind (forEach (peerSet fo) receiveIndices st)
  (fun st => bind (forEach (peerSet fo) (fun q s => Wait q (Wait q (Wait q (Wait q (Ret s))))) st)
  (fun st => Ret (fold_left convertSent (peerSet fo) st)))).

(* ----- the values ----- *)

Variable native : nat -> list (nat * V).    (* the entries of each native row *)

Definition values := nat -> nat -> V.

Definition setValue (i j : nat) (v : V) (m : values) : values :=
  fun i' j' => if Nat.eqb i' i && Nat.eqb j' j then v else m i' j'.

Variable st : structure.

(** Whether the matrix has an entry for row i and column j. *)
Definition stored (i j : nat) : bool := existsb (Nat.eqb j) (nth i (mxColumns st) []).

(** Writing an entry; [upd] gets the old value. *)
Definition writeEntry (f : V -> V) (i j : nat) (m : option values) : option values :=
  match m with
  | Some m => if stored i j then Some (setValue i j (f (m i j)) m) else None
  | None => None
  end.

(** [assignFromNative], lines 219-261. *)
Definition assignFromNative : option values :=
  fold_left (fun m n =>
      match nativeToLocal fo n with
      | Some l => fold_left (fun m e =>
            match columnOf (fst e) with
            | Some j => writeEntry (fun _ => snd e) l j m
            | None => m
            end) (native n) m
      | None => m
      end) (seq 0 numRows) (Some (fun _ _ => zero)).

(** [sendEntries_], lines 581-608; the elements of the buffer behind the last entry are
    arbitrary (here zero). *)
Definition entryValues (m : values) (q : nat) : list V :=
  let b := mxSend st q in
  map (fun e => match snd e with Some j => m (fst e) j | None => zero end) (bufferEntries b)
  ++ repeat zero (length (bCols b) - length (bufferEntries b)).

Definition entriesStored : bool :=
  forallb (fun q => forallb (fun e => match snd e with Some j => stored (fst e) j | None => false end)
                      (bufferEntries (mxSend st q))) (peerSet fo).

(** [receiveAddEntries_], lines 610-636, and [receiveCopyEntries_], lines 638-664. *)
Definition receiveEntries (f : V -> V -> V) (q : nat) (vs : list V) (m : option values) : option values :=
  fold_left (fun m ev =>
      match snd (fst ev) with
      | Some j => writeEntry (fun old => f old (snd ev)) (fst (fst ev)) j m
      | None => m
      end) (combine (bufferEntries (mxRecv st q)) vs) m.

Definition expectedFrom (q : nat) : nat := length (bCols (mxRecv st q)).

Definition syncWith (f : V -> V -> V) (m : option values) : proc (bmsg V) (option values) :=
  let m0 := match m with Some m => m | None => fun _ _ => zero end in
  exchangeValues (peerSet fo) (entryValues m0) expectedFrom (receiveEntries f) (fun _ => None)
    (if mxOk st && entriesStored then m else None).

Variable add : V -> V -> V.

(** [syncAdd], lines 264-291, and [syncCopy], lines 295-322. *)
Definition syncAddEntries (m : option values) : proc (bmsg V) (option values) := syncWith add m.
Definition syncCopyEntries (m : option values) : proc (bmsg V) (option values) := syncWith (fun _ v => v) m.

(** [assignAdd], lines 138-145; parallelbasebackend.hh:241-245.  [assignCopy], lines 153-161. *)
Definition assignAdd : proc (bmsg V) (option values) := syncAddEntries assignFromNative.
Definition assignCopy : proc (bmsg V) (option values) := syncCopyEntries assignFromNative.

(* ----- the operator ----- *)

Variable mul : V -> V -> V.

(** [Dune::BCRSMatrix::mv]: y = A x. *)
Definition mv (m : values) (x : list V) : list V :=
  map (fun i => fold_left (fun s j => add s (mul (m i j) (nth j x zero))) (nth i (mxColumns st) []) zero)
    (seq 0 (domSize dom)).

(** [Dune::BCRSMatrix::usmv]: y += alpha A x. *)
Definition usmv (alpha : V) (m : values) (x y : list V) : list V :=
  map (fun i => fold_left (fun s j => add s (mul alpha (mul (m i j) (nth j x zero))))
                  (nth i (mxColumns st) []) (nth i y zero))
    (seq 0 (domSize dom)).

(** [OverlappingOperator::apply] and [applyscaleadd], overlappingoperator.hh:57-70; [buf] are
    the index buffers of the vector y. *)
Definition apply (buf : buffers) (m : values) (x : list V) : proc (bmsg V) (option (list V)) :=
  sync fo dom zero buf (mv m x).

Definition applyscaleadd (buf : buffers) (alpha : V) (m : values) (x y : list V)
  : proc (bmsg V) (option (list V)) :=
  sync fo dom zero buf (usmv alpha m x y).

End Process.

(* ----- together with the construction of the overlap ----- *)

Section Whole.
Context {V : Type}.
Variable zero : V.
Variable add mul : V -> V -> V.
Variable rank size : nat.
Variable pt : partition.
Variable pb : peerBlackLists.
Variable maxDistance maxRank : nat.
Variable native : nat -> list (nat * V).

(** The constructor of the matrix, lines 74-89, once the overlap exists; it gets the same
    native matrix as the overlap. *)
Definition newMatrix (o : @overlapObject) : proc (message V) structure :=
  forBuffer (buildMatrix (ovAsForeign rank pt o) (overlapWith pt (ovForeign o)) (ovDomestic o)
    (blackIdx (ovBlack o)) (toNative pt) (numNative pt) (columns pt)).

(** [ParallelBaseBackend::setMatrix], parallelbasebackend.hh:241-245. *)
Definition setMatrix (o : @overlapObject) (st : structure) : proc (message V) (option values) :=
  forValues (assignAdd zero (ovAsForeign rank pt o) (blackIdx (ovBlack o)) (numNative pt) native st add).

(** What a parallel linear solver does with a matrix, parallelbasebackend.hh:194-202,
    241-245. *)
Definition buildAndAssemble : proc (message V) (overlapObject * structure * option values) :=
  bind (buildOverlap rank size pt pb maxDistance maxRank) (fun o =>
  bind (newMatrix o) (fun st =>
  bind (setMatrix o st) (fun m => Ret (o, st, m)))).

(** One application of the operator (parallelbasebackend.hh:194-207, 241-245, 262) to a
    native vector v. *)
Definition buildAndMultiply (v : list V) : proc (message V) (overlapObject * option (list V)) :=
  bind (buildOverlap rank size pt pb maxDistance maxRank) (fun o =>
  bind (newMatrix o) (fun st =>
  bind (newVector rank pt o) (fun b =>
  bind (setMatrix o st) (fun m =>
  bind (forValues (assign (ovAsForeign rank pt o) (ovDomestic o) zero b (toNative pt) v)) (fun x =>
  match m, x with
  | Some m, Some x =>
      bind (forValues (apply zero (ovAsForeign rank pt o) (ovDomestic o) st add mul b m x))
        (fun y => Ret (o, y))
  | _, _ => Ret (o, None)
  end))))).

(** The same for [applyscaleadd], with a second native vector w to which alpha times the
    product is added. *)
Definition buildAndUpdate (alpha : V) (v w : list V) : proc (message V) (overlapObject * option (list V)) :=
  bind (buildOverlap rank size pt pb maxDistance maxRank) (fun o =>
  bind (newMatrix o) (fun st =>
  bind (newVector rank pt o) (fun b =>
  bind (setMatrix o st) (fun m =>
  bind (forValues (assign (ovAsForeign rank pt o) (ovDomestic o) zero b (toNative pt) v)) (fun x =>
  bind (forValues (assign (ovAsForeign rank pt o) (ovDomestic o) zero b (toNative pt) w)) (fun y =>
  match m, x, y with
  | Some m, Some x, Some y =>
      bind (forValues (applyscaleadd zero (ovAsForeign rank pt o) (ovDomestic o) st add mul b alpha m x y))
        (fun y => Ret (o, y))
  | _, _, _ => Ret (o, None)
  end)))))).

(** [assignCopy] instead of [assignAdd]. *)
Definition buildAndCopy : proc (message V) (overlapObject * structure * option values) :=
  bind (buildOverlap rank size pt pb maxDistance maxRank) (fun o =>
  bind (newMatrix o) (fun st =>
  bind (forValues (assignCopy zero (ovAsForeign rank pt o) (blackIdx (ovBlack o)) (numNative pt) native st))
    (fun m => Ret (o, st, m)))).

End Whole.
