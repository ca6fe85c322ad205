(** * Overlapping block vectors and their scalar product

    Model of [OverlappingBlockVector]
    (/repo/opm/simulators/linalg/overlappingblockvector.hh) and
    [OverlappingScalarProduct] (/repo/opm/simulators/linalg/overlappingscalarproduct.hh).
    A block (FieldVector) is a value of an arbitrary type V. *)

From Coq Require Import Arith List Bool.
From Verif Require Import MpiModel ExchangeModel GlobalIndexModel ForeignModel DomesticModel.
Import ListNotations.

(** The index buffers of one vector; [bufOk] becomes false if an index has no counterpart. *)
Record buffers : Type := mkBuffers {
  bufOk : bool;
  sendIdx : peerLists;      (* indicesSendBuff_, domestic indices *)
  recvIdx : peerLists       (* indicesRecvBuff_, domestic indices *)
}.

Definition allSome (l : list (option nat)) : bool :=
  forallb (fun x => match x with Some _ => true | None => false end) l.

Definition values0 (l : list (option nat)) : list nat :=
  map (fun x => match x with Some v => v | None => 0 end) l.

(** operator[] followed by an assignment. *)
Fixpoint pset (q : nat) (v : list nat) (m : peerLists) : peerLists :=
  match m with
  | [] => [(q, v)]
  | (q', v') :: m' => if Nat.eqb q q' then (q', v) :: m' else (q', v') :: pset q v m'
  end.

Section Process.
Variable fo : foreignOverlap.
Variable shared : nat -> list (nat * nat).
Variable dom : domestic.

(** The indices which are sent to q, overlappingblockvector.hh:233-237. *)
Definition globalsFor (q : nat) : list (option nat) :=
  map (fun ld => domesticToGlobal (domIdx dom) (fst ld)) (shared q).

Definition receiveGlobals (q : nat) (gs : list nat) (b : buffers) : buffers :=
  let ds := map (globalToDomestic (domIdx dom)) gs in
  mkBuffers (bufOk b && allSome ds) (sendIdx b) (pset q (values0 ds) (recvIdx b)).

(** overlappingblockvector.hh:274-287: the send buffers hold domestic indices at the end. *)
Definition convertSent (b : buffers) (q : nat) : buffers :=
  let ds := map (globalToDomestic (domIdx dom)) (values0 (globalsFor q)) in
  mkBuffers (bufOk b && allSome (globalsFor q) && allSome ds)
    (pset q (values0 ds) (sendIdx b)) (recvIdx b).

(** [createBuffers_], overlappingblockvector.hh:216-292. *)
Definition createBuffers : proc (bmsg nat) buffers :=
  bind (exchangeBuffers (peerSet fo) (fun q => values0 (globalsFor q)) receiveGlobals
          (fun b => mkBuffers false (sendIdx b) (recvIdx b)) (mkBuffers true [] []))
  (fun b => Ret (fold_left convertSent (peerSet fo) b)).

Definition indicesOf (q : nat) (m : peerLists) : list nat :=
  match pget q m with Some l => l | None => [] end.

Section Values.
Context {V : Type}.
Variable zero : V.
Variable add : V -> V -> V.
Variable buf : buffers.

(** [sendEntries_], overlappingblockvector.hh:294-303. *)
Definition valuesFor (x : list V) (q : nat) : list V :=
  map (fun i => nth i x zero) (indicesOf q (sendIdx buf)).

Definition sendInRange (x : list V) : bool :=
  bufOk buf &&
  forallb (fun q => forallb (fun i => i <? length x) (indicesOf q (sendIdx buf))) (peerSet fo).

(** [receiveFromMaster_], overlappingblockvector.hh:318-333; [None]: an index was out of
    range. *)
Definition receiveFromMaster (q : nat) (vs : list V) (y : option (list V)) : option (list V) :=
  fold_left (fun y (iv : nat * V) =>
      match y with
      | None => None
      | Some y => let (i, v) := iv in
          if i <? length y
          then Some (if Nat.eqb (domMasterRank dom i) q then upd y i v else y)
          else None
      end) (combine (indicesOf q (recvIdx buf)) vs) y.

(** [receiveAdd_], overlappingblockvector.hh:335-349. *)
Definition receiveAdd (q : nat) (vs : list V) (y : option (list V)) : option (list V) :=
  fold_left (fun y (iv : nat * V) =>
      match y with
      | None => None
      | Some y => let (i, v) := iv in
          if i <? length y then Some (upd y i (add (nth i y zero) v)) else None
      end) (combine (indicesOf q (recvIdx buf)) vs) y.

Definition entriesFrom (q : nat) : nat := length (indicesOf q (recvIdx buf)).

(** [sync], overlappingblockvector.hh:175-187. *)
Definition sync (x : list V) : proc (bmsg V) (option (list V)) :=
  exchangeValues (peerSet fo) (valuesFor x) entriesFrom receiveFromMaster (fun _ => None)
    (if sendInRange x then Some x else None).

(** [syncAdd], overlappingblockvector.hh:193-205. *)
Definition syncAdd (x : list V) : proc (bmsg V) (option (list V)) :=
  exchangeValues (peerSet fo) (valuesFor x) entriesFrom receiveAdd (fun _ => None)
    (if sendInRange x then Some x else None).

(** Native to local and back, foreignoverlapfrombcrsmatrix.hh:278-290. *)
Variable numNativeRows : nat.
Variable localToNative : nat -> nat.

(** The loops of [assignAddBorder] and [assign], overlappingblockvector.hh:109-149;
    domesticoverlapfrombcrsmatrix.hh:301-307. *)
Definition fromNative (v : list V) : list V :=
  map (fun d => if d <? numLocal fo then nth (localToNative d) v zero else zero)
    (seq 0 (domSize dom)).

Definition assignAddBorder (v : list V) : proc (bmsg V) (option (list V)) := syncAdd (fromNative v).
Definition assign (v : list V) : proc (bmsg V) (option (list V)) := sync (fromNative v).

(** [assignTo], overlappingblockvector.hh:156-169; domesticoverlapfrombcrsmatrix.hh:313-319. *)
Definition assignTo (x : list V) : list V :=
  map (fun n => match nativeToLocal fo n with
                | Some l => nth l x zero
                | None => zero
                end) (seq 0 numNativeRows).

(** [OverlappingScalarProduct::dot], overlappingscalarproduct.hh:58-70, on rank [rank];
    [iAmMasterOf]: foreignoverlapfrombcrsmatrix.hh:217-218, domesticoverlapfrombcrsmatrix.hh:257-262.
    The collective operation adds the contributions in the order of the ranks. *)
Variable mul : V -> V -> V.

Definition dotLocal (rank : nat) (x y : list V) : V :=
  fold_left (fun s i => if Nat.eqb (masterRank fo i) rank
                        then add s (mul (nth i x zero) (nth i y zero)) else s)
    (seq 0 (numLocal fo)) zero.

Definition dot (rank : nat) (x y : list V) : proc V V :=
  Coll 0 (dotLocal rank x y) (fun sums => Ret (fold_left add sums zero)).

End Values.
End Process.
