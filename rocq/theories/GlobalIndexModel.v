(** * Numbering the degrees of freedom of all processes

    Model of [GlobalIndices] (/repo/opm/simulators/linalg/globalindices.hh:55-340). *)

From Coq Require Import Arith List Bool.
From Verif Require Import MpiModel.
Import ListNotations.

(** An entry of the border list, overlaptypes.hh:101-114: the (native) index on
    this process and on the peer process. *)
Record borderIndex : Type := mkBorder {
  localIdx : nat;
  peerIdx : nat;
  peerRank : nat;
  borderDistance : nat
}.

(** What [GlobalIndices] uses of the foreign overlap
    (foreignoverlapfrombcrsmatrix.hh:171-303) on one process.  [nativeToLocal]
    returns -1 for black-listed indices, here [None]. *)
Record foreignOverlap : Type := mkForeign {
  numLocal : nat;
  masterRank : nat -> nat;
  nativeToLocal : nat -> option nat;
  borderList : list borderIndex;
  peerSet : list nat           (* in ascending order *)
}.

(** The messages: an offset or a [PeerIndexGlobalIndex] (overlaptypes.hh:69-73). *)
Inductive gmsg : Type :=
| MOffset (offset : nat)
| MIndex (peer global : nat).

(** std::map<Index, Index>: [mset] is operator[] followed by an assignment. *)
Definition indexMap := list (nat * nat).

Fixpoint mget (k : nat) (m : indexMap) : option nat :=
  match m with
  | [] => None
  | (k', v) :: m' => if Nat.eqb k k' then Some v else mget k m'
  end.

Fixpoint mset (k v : nat) (m : indexMap) : indexMap :=
  match m with
  | [] => [(k, v)]
  | (k', v') :: m' => if Nat.eqb k k' then (k, v) :: m' else (k', v') :: mset k v m'
  end.

(** The state of the object; [valid] becomes false if the code has undefined
    behaviour (a lookup at the end iterator, a message of the wrong kind). *)
Record indices : Type := mkIndices {
  valid : bool;
  d2g : indexMap;              (* domesticToGlobal_ *)
  g2d : indexMap               (* globalToDomestic_ *)
}.

Definition noIndices : indices := mkIndices true [] [].

Definition invalid (st : indices) : indices := mkIndices false (d2g st) (g2d st).

(** [numDomestic], globalindices.hh:121-122, 131. *)
Definition numDomestic (st : indices) : nat := length (d2g st).

(** [addIndex], globalindices.hh:127-134. *)
Definition addIndex (st : indices) (domestic global : nat) : indices :=
  mkIndices (valid st) (mset domestic global (d2g st)) (mset global domestic (g2d st)).

Section Process.

Variable rank size : nat.
Variable fo : foreignOverlap.

(** The loop globalindices.hh:231-239; returns the maps and [numMaster]. *)
Definition addMasters (offset : nat) : indices * nat :=
  fold_left (fun (acc : indices * nat) i =>
      let (st, numMaster) := acc in
      if Nat.eqb (masterRank fo i) rank
      then (addIndex st i (offset + numMaster), S numMaster)
      else acc)
    (seq 0 (numLocal fo)) (noIndices, 0).

(** [receiveBorderIndex], globalindices.hh:160-178. *)
Definition receiveBorderIndex (st : indices) (m : gmsg) : indices :=
  match m with
  | MIndex peer global =>
      match nativeToLocal fo peer with
      | Some d => addIndex st d global
      | None => st
      end
  | MOffset _ => invalid st
  end.

(** The entries which [receiveBorderFrom_] waits for, globalindices.hh:315-323. *)
Definition expects (peer : nat) (e : borderIndex) : bool :=
  Nat.eqb (peerRank e) peer && Nat.eqb (borderDistance e) 0 &&
  match nativeToLocal fo (localIdx e) with
  | Some l => Nat.eqb (masterRank fo l) peer
  | None => false
  end.

(** [receiveBorderFrom_], globalindices.hh:308-327. *)
Definition receiveBorderFrom (peer : nat) (st : indices) : proc gmsg indices :=
  forEach (borderList fo)
    (fun e st => if expects peer e
                 then Recv peer (fun m => Ret (receiveBorderIndex st m))
                 else Ret st) st.

(** [sendBorderTo_] and [sendBorderIndex], globalindices.hh:139-154, 285-306. *)
Definition sendBorderTo (peer : nat) (st : indices) : proc gmsg indices :=
  forEach (borderList fo)
    (fun e st =>
       if Nat.eqb (peerRank e) peer && Nat.eqb (borderDistance e) 0
       then match nativeToLocal fo (localIdx e) with
            | None => Ret (invalid st)
            | Some l =>
                if Nat.eqb (masterRank fo l) rank
                then match mget l (d2g st) with
                     | Some g => Send peer (MIndex (peerIdx e) g) (Ret st)
                     | None => Ret (invalid st)
                     end
                else Ret st
            end
       else Ret st) st.

(** [buildGlobalIndices_], globalindices.hh:204-283. *)
Definition buildGlobalIndices : proc gmsg indices :=
  (* the offset comes from the next lower rank *)
  bind (if Nat.eqb rank 0 then Ret (Some 0)
        else Recv (rank - 1) (fun m => Ret (match m with MOffset o => Some o | _ => None end)))
  (fun off =>
   match off with
   | None => Ret (invalid noIndices)
   | Some offset =>
       let (st, numMaster) := addMasters offset in
       (* and goes, increased, to the next higher rank *)
       bind (if rank <? size - 1 then Send (S rank) (MOffset (offset + numMaster)) (Ret tt)
             else Ret tt)
       (fun _ =>
       bind (forEach (peerSet fo)
               (fun q st => if q <? rank then receiveBorderFrom q st else Ret st) st)
       (fun st =>
       bind (forEach (peerSet fo)
               (fun q st => if rank <? q then sendBorderTo q st else Ret st) st)
       (fun st =>
       bind (forEach (peerSet fo)
               (fun q st => if rank <? q then receiveBorderFrom q st else Ret st) st)
       (fun st =>
       forEach (peerSet fo)
               (fun q st => if q <? rank then sendBorderTo q st else Ret st) st))))
   end).

End Process.

(** [domesticToGlobal] and [globalToDomestic], globalindices.hh:88-106; [None] = no such
    index (-1). *)
Definition domesticToGlobal (st : indices) (domestic : nat) : option nat := mget domestic (d2g st).
Definition globalToDomestic (st : indices) (global : nat) : option nat := mget global (g2d st).
