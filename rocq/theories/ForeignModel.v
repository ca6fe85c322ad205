(** * The foreign overlap

    Model of [ForeignOverlapFromBCRSMatrix]
    (/repo/opm/simulators/linalg/foreignoverlapfrombcrsmatrix.hh). *)

From Coq Require Import Arith List Bool.
From Verif Require Import MpiModel ExchangeModel GlobalIndexModel.
Import ListNotations.

(** What one process gives to the constructor: the number of native rows of the matrix,
    the columns of each row, the border list, the black list and the size of the overlap. *)
Record partition : Type := mkPartition {
  numNative : nat;
  columns : nat -> list nat;
  border : list borderIndex;
  blackListed : nat -> bool;
  overlapSize : nat
}.

(** [IndexRankDist], overlaptypes.hh:77-84; the index is a native one. *)
Record seed : Type := mkSeed {
  seedIdx : nat;
  seedRank : nat;
  seedDist : nat
}.

(** The members which the construction changes.  [defined] becomes false if a vector is
    accessed out of range.  A std::map from ranks to distances is an association list:
    the order of its entries has no influence. *)
Record overlapState : Type := mkOverlap {
  defined : bool;
  byIndex : list indexMap;     (* foreignOverlapByLocalIndex_ *)
  seeds : list seed;
  peerRanks : list nat         (* peerSet_, ascending *)
}.

(** std::set<ProcessRank>::insert. *)
Fixpoint setInsert (x : nat) (l : list nat) : list nat :=
  match l with
  | [] => [x]
  | y :: l' => if x <? y then x :: l else if Nat.eqb x y then l else y :: setInsert x l'
  end.

Definition hasKey (k : nat) (m : indexMap) : bool :=
  match mget k m with Some _ => true | None => false end.

Section Process.
Variable pt : partition.

(** [createLocalIndices_], foreignoverlapfrombcrsmatrix.hh:434-452: the local indices are
    the native ones without the black-listed ones, in the same order. *)
Definition localIndices : list nat :=
  filter (fun i => negb (blackListed pt i)) (seq 0 (numNative pt)).

Definition numLocalIndices : nat := length localIndices.

(** [nativeToLocal], foreignoverlapfrombcrsmatrix.hh:288-290 ([None]: -1, also for
    indices which are not native). *)
Definition toLocal (i : nat) : option nat :=
  if (i <? numNative pt) && negb (blackListed pt i)
  then Some (length (filter (fun j => negb (blackListed pt j)) (seq 0 i)))
  else None.

(** [localBorderIndices_], foreignoverlapfrombcrsmatrix.hh:91-102, [isBorder], 145-146. *)
Definition isBorder (l : nat) : bool :=
  existsb (fun e => match toLocal (localIdx e) with Some l' => Nat.eqb l' l | None => false end)
    (border pt).

(** [neighborPeerSet_], foreignoverlapfrombcrsmatrix.hh:104-106, overlaptypes.hh:158-166. *)
Definition neighbors : list nat :=
  fold_left (fun s e => setInsert (peerRank e) s) (border pt) [].

(** [localToPeerIdx_], foreignoverlapfrombcrsmatrix.hh:454-465: the first match. *)
Definition localToPeerIdx (l : nat) (r : nat) : option nat :=
  match find (fun e => Nat.eqb (localIdx e) l && Nat.eqb (peerRank e) r) (border pt) with
  | Some e => Some (peerIdx e)
  | None => None
  end.

(** What is sent to the neighbor r, foreignoverlapfrombcrsmatrix.hh:478-511. *)
Definition borderIndicesFor (st : overlapState) (r : nat) : list borderIndex :=
  flat_map (fun s =>
    match toLocal (seedIdx s) with
    | Some l =>
        if isBorder l
        then flat_map (fun nd =>
               let (neighbor, dist) := (nd : nat * nat) in
               if negb (Nat.eqb dist 0) then []
               else if Nat.eqb neighbor (seedRank s) then []
               else match localToPeerIdx l neighbor with
                    | Some peer => if Nat.eqb neighbor r
                                   then [mkBorder l peer (seedRank s) (seedDist s)] else []
                    | None => []
                    end) (nth l (byIndex st) [])
        else []
    | None => []
    end) (seeds st).

Definition hasSeed (i r : nat) (ss : list seed) : bool :=
  existsb (fun s => Nat.eqb (seedIdx s) i && Nat.eqb (seedRank s) r) ss.

(** One received entry, foreignoverlapfrombcrsmatrix.hh:562-598: the index is used as a
    local one and as a native one. *)
Definition receiveIndex (dist : nat) (st : overlapState) (e : borderIndex) : overlapState :=
  let i := peerIdx e in
  if i <? length (byIndex st)
  then if hasKey (peerRank e) (nth i (byIndex st) [])
       then st
       else if hasSeed i (peerRank e) (seeds st)
       then st
       else mkOverlap (defined st) (byIndex st)
              (seeds st ++ [mkSeed i (peerRank e) dist])
              (setInsert (peerRank e) (peerRanks st))
  else mkOverlap false (byIndex st) (seeds st) (peerRanks st).

(** [addNonNeighborOverlapIndices_], foreignoverlapfrombcrsmatrix.hh:467-610. *)
Definition addNonNeighbors (dist : nat) (st : overlapState) : proc (bmsg borderIndex) overlapState :=
  exchangeBuffers neighbors (borderIndicesFor st)
    (fun _ es st => fold_left (receiveIndex dist) es st)
    (fun st => mkOverlap false (byIndex st) (seeds st) (peerRanks st)) st.

(** foreignoverlapfrombcrsmatrix.hh:358-369: the seeds of the level enter the overlap. *)
Definition insertSeed (dist : nat) (m : list indexMap) (s : seed) : list indexMap :=
  match toLocal (seedIdx s) with
  | Some l => let ml := nth l m [] in
              if hasKey (seedRank s) ml then m else upd m l (mset (seedRank s) dist ml)
  | None => m
  end.

(** foreignoverlapfrombcrsmatrix.hh:376-423: the seeds of the next level. *)
Definition nextSeeds (st : overlapState) : list seed :=
  fold_left (fun next s =>
    match toLocal (seedIdx s) with
    | None => next
    | Some _ =>
        fold_left (fun next col =>
          match toLocal col with
          | None => next
          | Some lc =>
              if hasKey (seedRank s) (nth lc (byIndex st) []) then next
              else if hasSeed col (seedRank s) next then next
              else next ++ [mkSeed col (seedRank s) (S (seedDist s))]
          end) (columns pt (seedIdx s)) next
    end) (seeds st) [].

(** [extendForeignOverlap_], foreignoverlapfrombcrsmatrix.hh:345-431; [levels] is
    overlapSize - borderDistance. *)
Fixpoint extend (levels dist : nat) (st : overlapState) : proc (bmsg borderIndex) overlapState :=
  bind (addNonNeighbors dist st) (fun st =>
    let st1 := mkOverlap (defined st) (fold_left (insertSeed dist) (seeds st) (byIndex st))
                 (seeds st) (peerRanks st) in
    match levels with
    | 0 => Ret st1
    | S levels' =>
        extend levels' (S dist)
          (mkOverlap (defined st1) (byIndex st1) (nextSeeds st1) (peerRanks st1))
    end).

(** The constructor, foreignoverlapfrombcrsmatrix.hh:70-129, up to
    [computeMasterRanks_]; overlaptypes.hh:132-146. *)
Definition minBorderDist : nat :=
  fold_left (fun d e => Nat.min d (borderDistance e)) (border pt) (overlapSize pt).

Definition initialState : overlapState :=
  mkOverlap true (repeat [] numLocalIndices)
    (map (fun e => mkSeed (localIdx e) (peerRank e) (borderDistance e)) (border pt))
    neighbors.

Definition buildForeignOverlap : proc (bmsg borderIndex) overlapState :=
  extend (overlapSize pt - minBorderDist) minBorderDist initialState.

(** [computeMasterRanks_], foreignoverlapfrombcrsmatrix.hh:615-637. *)
Definition computeMasterRank (rank : nat) (st : overlapState) (l : nat) : nat :=
  if isBorder l
  then fold_left (fun m (nd : nat * nat) => if Nat.eqb (snd nd) 0 then Nat.min m (fst nd) else m)
         (nth l (byIndex st) []) rank
  else rank.

(** [groupForeignOverlapByRank_], foreignoverlapfrombcrsmatrix.hh:642-660: the local
    indices, with their distances, in the overlap of rank q. *)
Definition overlapWith (st : overlapState) (q : nat) : list (nat * nat) :=
  flat_map (fun l => match mget q (nth l (byIndex st) []) with
                     | Some d => [(l, d)]
                     | None => []
                     end) (seq 0 numLocalIndices).

(** The part of the object the other classes use. *)
Definition asForeign (rank : nat) (st : overlapState) : foreignOverlap :=
  mkForeign numLocalIndices (computeMasterRank rank st) toLocal (border pt) (peerRanks st).

End Process.
