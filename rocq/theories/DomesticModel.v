(** * The domestic overlap

    Model of [DomesticOverlapFromBCRSMatrix]
    (/repo/opm/simulators/linalg/domesticoverlapfrombcrsmatrix.hh). *)

From Coq Require Import Arith List Bool.
From Verif Require Import MpiModel ExchangeModel GlobalIndexModel ForeignModel.
Import ListNotations.

(** [IndexDistanceNpeers], overlaptypes.hh:91-96; the index is a global one. *)
Record indexDist : Type := mkIndexDist {
  idGlobal : nat;
  idDistance : nat;
  idPeers : nat
}.

(** std::map<ProcessRank, DomesticOverlapWithPeer>, overlaptypes.hh:181-187. *)
Definition peerLists := list (nat * list nat).

Fixpoint pget (q : nat) (m : peerLists) : option (list nat) :=
  match m with
  | [] => None
  | (q', v) :: m' => if Nat.eqb q q' then Some v else pget q m'
  end.

(** operator[] followed by push_back. *)
Fixpoint ppush (q x : nat) (m : peerLists) : peerLists :=
  match m with
  | [] => [(q, [x])]
  | (q', v) :: m' => if Nat.eqb q q' then (q', v ++ [x]) :: m' else (q', v) :: ppush q x m'
  end.

(** std::vector::resize. *)
Definition resize {A : Type} (n : nat) (x : A) (l : list A) : list A :=
  firstn n l ++ repeat x (n - length l).

(** The members; [domOk] becomes false when the code accesses a vector out of range or
    the value of an end iterator. *)
Record domestic : Type := mkDomestic {
  domOk : bool;
  domIdx : indices;                 (* globalIndices_ *)
  domByIndex : list indexMap;       (* domesticOverlapByIndex_ *)
  domWith : peerLists;              (* domesticOverlapWithPeer_ *)
  domDistance : list nat;           (* borderDistance_ *)
  domMaster : list nat              (* masterRank_ *)
}.

Section Process.

(** The foreign overlap of this process: [shared q] is [foreignOverlapWithPeer(q)] (local
    index and distance), [nPeers l] is [foreignOverlapByLocalIndex(l).size()]. *)
Variable fo : foreignOverlap.
Variable shared : nat -> list (nat * nat).
Variable nPeers : nat -> nat.

(** std::numeric_limits<int>::max(), line 515, and
    std::numeric_limits<ProcessRank>::max(), line 427. *)
Variable maxDistance maxRank : nat.

Definition badDomestic (st : domestic) : domestic :=
  mkDomestic false (domIdx st) (domByIndex st) (domWith st) (domDistance st) (domMaster st).

(** [sendIndicesToPeer_], domesticoverlapfrombcrsmatrix.hh:447-481.  Looking up a local
    index without a global one is not defined: see [sendDefined]. *)
Definition indicesFor (gi : indices) (q : nat) : list indexDist :=
  map (fun ld => mkIndexDist
         (match domesticToGlobal gi (fst ld) with Some g => g | None => 0 end)
         (snd ld) (nPeers (fst ld))) (shared q).

Definition sendDefined (gi : indices) : bool :=
  valid gi &&
  forallb (fun q => forallb (fun ld => match domesticToGlobal gi (fst ld) with
                                       | Some _ => true
                                       | None => false
                                       end) (shared q)) (peerSet fo).

(** One received index, domesticoverlapfrombcrsmatrix.hh:504-534. *)
Definition receiveDomestic (q : nat) (st : domestic) (e : indexDist) : domestic :=
  let g := idGlobal e in
  let st1 :=
    match globalToDomestic (domIdx st) g with
    | Some _ => st
    | None =>
        let idx := addIndex (domIdx st) (numDomestic (domIdx st)) g in
        let newSize := numDomestic idx in
        mkDomestic (domOk st) idx (resize newSize [] (domByIndex st)) (domWith st)
          (resize newSize maxDistance (domDistance st)) (domMaster st)
    end in
  match globalToDomestic (domIdx st1) g with
  | None => badDomestic st1
  | Some d =>
      if (d <? length (domByIndex st1)) && (d <? length (domDistance st1))
      then mkDomestic (domOk st1) (domIdx st1)
             (upd (domByIndex st1) d (mset q (idDistance e) (nth d (domByIndex st1) [])))
             (ppush q d (domWith st1))
             (upd (domDistance st1) d (Nat.min (idDistance e) (nth d (domDistance st1) 0)))
             (domMaster st1)
      else badDomestic st1
  end.

(** [buildDomesticOverlap_], domesticoverlapfrombcrsmatrix.hh:377-410. *)
Definition initialDomestic (gi : indices) : domestic :=
  mkDomestic (sendDefined gi) gi (repeat [] (numLocal fo)) [] (repeat 0 (numLocal fo)) [].

Definition buildDomesticOverlap (gi : indices) : proc (bmsg indexDist) domestic :=
  exchangeBuffers (peerSet fo) (indicesFor gi)
    (fun q es st => fold_left (receiveDomestic q) es st) badDomestic (initialDomestic gi).

(** [updateMasterRanks_], domesticoverlapfrombcrsmatrix.hh:412-445. *)
Definition updateMaster (q : nat) (st : domestic) (d : nat) : domestic :=
  if d <? numLocal fo then st
  else if d <? length (domMaster st)
  then mkDomestic (domOk st) (domIdx st) (domByIndex st) (domWith st) (domDistance st)
         (upd (domMaster st) d (Nat.min (nth d (domMaster st) 0) q))
  else badDomestic st.

Definition initialMasters (n : nat) : list nat :=
  map (masterRank fo) (seq 0 (numLocal fo)) ++ repeat maxRank (n - numLocal fo).

Definition updateMasterRanks (st : domestic) : domestic :=
  fold_left (fun st q =>
      match pget q (domWith st) with
      | Some l => fold_left (updateMaster q) l st
      | None => badDomestic st
      end)
    (peerSet fo)
    (mkDomestic (domOk st) (domIdx st) (domByIndex st) (domWith st) (domDistance st)
       (initialMasters (numDomestic (domIdx st)))).

(** The constructor after the members [foreignOverlap_] and [globalIndices_],
    domesticoverlapfrombcrsmatrix.hh:84-86. *)
Definition buildDomestic (gi : indices) : proc (bmsg indexDist) domestic :=
  bind (buildDomesticOverlap gi) (fun st => Ret (updateMasterRanks st)).

End Process.

(** [masterRank], domesticoverlapfrombcrsmatrix.hh:267-268. *)
Definition domMasterRank (st : domestic) (d : nat) : nat := nth d (domMaster st) 0.

(** [numDomestic], domesticoverlapfrombcrsmatrix.hh:240-241. *)
Definition domSize (st : domestic) : nat := numDomestic (domIdx st).
