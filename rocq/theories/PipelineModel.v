(** * The whole construction of the overlap

    Model of [BlackList::updateNativeToDomesticMap]
    (/repo/opm/simulators/linalg/blacklist.hh), of the constructor of
    [DomesticOverlapFromBCRSMatrix]
    (/repo/opm/simulators/linalg/domesticoverlapfrombcrsmatrix.hh:64-90) and of the
    vectors which live on it. *)

From Coq Require Import Arith List Bool.
From Verif Require Import MpiModel MpiLift ExchangeModel GlobalIndexModel ForeignModel DomesticModel VectorModel.
Import ListNotations.

(** [PeerBlackLists], blacklist.hh:51-56: for each peer the entries (native index of the
    peer, native index here). *)
Definition peerBlackLists := list (nat * list (nat * nat)).

Fixpoint bget (q : nat) (m : peerBlackLists) : list (nat * nat) :=
  match m with
  | [] => []
  | (q', v) :: m' => if Nat.eqb q q' then v else bget q m'
  end.

(** [nativeToDomesticMap_]; a value is -1 (here [None]) if the global index is not known.
    [blackOk] becomes false if an index without global index is looked up. *)
Record blackMap : Type := mkBlackMap {
  blackOk : bool;
  blackIdx : list (nat * option nat)
}.

(** [BlackList::nativeToDomestic], blacklist.hh:69-75 ([None]: -1). *)
Fixpoint nativeToDomesticOf (n : nat) (m : list (nat * option nat)) : option nat :=
  match m with
  | [] => None
  | (n', v) :: m' => if Nat.eqb n n' then v else nativeToDomesticOf n m'
  end.

Fixpoint setNative (n : nat) (v : option nat) (m : list (nat * option nat)) : list (nat * option nat) :=
  match m with
  | [] => [(n, v)]
  | (n', v') :: m' => if Nat.eqb n n' then (n, v) :: m' else (n', v') :: setNative n v m'
  end.

Section BlackList.
Variable fo : foreignOverlap.
Variable dom : domestic.
Variable pb : peerBlackLists.

(** The global index of a native one, blacklist.hh:143-145,
    domesticoverlapfrombcrsmatrix.hh:285-308. *)
Definition nativeToGlobal (n : nat) : option nat :=
  match nativeToLocal fo n with
  | Some l => domesticToGlobal (domIdx dom) l
  | None => None
  end.

(** [sendGlobalIndices_], blacklist.hh:127-150. *)
Definition blackFor (q : nat) : list (nat * nat) :=
  map (fun e => (match nativeToGlobal (snd e) with Some g => g | None => 0 end, fst e)) (bget q pb).

Definition blackDefined : bool :=
  forallb (fun qs => forallb (fun e => match nativeToGlobal (snd e) with
                                       | Some _ => true
                                       | None => false
                                       end) (snd qs)) pb.

(** [receiveGlobalIndices_], blacklist.hh:152-170. *)
Definition receiveBlack (q : nat) (es : list (nat * nat)) (st : blackMap) : blackMap :=
  fold_left (fun st gn => mkBlackMap (blackOk st)
               (setNative (snd gn) (globalToDomestic (domIdx dom) (fst gn)) (blackIdx st))) es st.

(** [updateNativeToDomesticMap], blacklist.hh:80-102. *)
Definition updateNativeToDomestic : proc (bmsg (nat * nat)) blackMap :=
  exchangeBuffers (map fst pb) blackFor receiveBlack
    (fun st => mkBlackMap false (blackIdx st)) (mkBlackMap blackDefined []).

End BlackList.

(* ----- all messages ----- *)

(** The messages of the whole program. *)
Inductive message (V : Type) : Type :=
| MsgForeign (m : bmsg borderIndex)
| MsgGlobal (m : gmsg)
| MsgDomestic (m : bmsg indexDist)
| MsgBlack (m : bmsg (nat * nat))
| MsgBuffer (m : bmsg nat)
| MsgValues (m : bmsg V)
| MsgScalar (v : V).
Arguments MsgForeign {V}.
Arguments MsgGlobal {V}.
Arguments MsgDomestic {V}.
Arguments MsgBlack {V}.
Arguments MsgBuffer {V}.
Arguments MsgValues {V}.
Arguments MsgScalar {V}.

(** Reading a message as one of another kind is not defined; the model takes an arbitrary
    value (the theorems show that it does not happen). *)
Section Whole.
Context {V : Type}.
Variable zero : V.

Definition forForeign {R} : proc (bmsg borderIndex) R -> proc (message V) R :=
  lift MsgForeign (fun m => match m with MsgForeign b => b | _ => Count 0 end).
Definition forGlobal {R} : proc gmsg R -> proc (message V) R :=
  lift MsgGlobal (fun m => match m with MsgGlobal b => b | _ => MOffset 0 end).
Definition forDomestic {R} : proc (bmsg indexDist) R -> proc (message V) R :=
  lift MsgDomestic (fun m => match m with MsgDomestic b => b | _ => Count 0 end).
Definition forBlack {R} : proc (bmsg (nat * nat)) R -> proc (message V) R :=
  lift MsgBlack (fun m => match m with MsgBlack b => b | _ => Count 0 end).
Definition forBuffer {R} : proc (bmsg nat) R -> proc (message V) R :=
  lift MsgBuffer (fun m => match m with MsgBuffer b => b | _ => Count 0 end).
Definition forValues {R} : proc (bmsg V) R -> proc (message V) R :=
  lift MsgValues (fun m => match m with MsgValues b => b | _ => Count 0 end).
Definition forScalar {R} : proc V R -> proc (message V) R :=
  lift MsgScalar (fun m => match m with MsgScalar v => v | _ => zero end).

(** The overlap object: foreign overlap, domestic overlap and the map of the black list. *)
Record overlapObject : Type := mkOverlapObject {
  ovForeign : overlapState;
  ovDomestic : domestic;
  ovBlack : blackMap
}.

Variable rank size : nat.
Variable pt : partition.
Variable pb : peerBlackLists.
Variable maxDistance maxRank : nat.

(** The constructor, domesticoverlapfrombcrsmatrix.hh:64-90. *)
Definition buildOverlap : proc (message V) overlapObject :=
  bind (forForeign (buildForeignOverlap pt)) (fun st =>
  bind (forGlobal (buildGlobalIndices rank size (asForeign pt rank st))) (fun gi =>
  bind (forDomestic (buildDomestic (asForeign pt rank st) (overlapWith pt st)
          (fun l => length (nth l (byIndex st) [])) maxDistance maxRank gi)) (fun dom =>
  bind (forBlack (updateNativeToDomestic (asForeign pt rank st) dom pb)) (fun bl =>
  Ret (mkOverlapObject st dom bl))))).

(** The members of the overlap which vectors use. *)
Definition ovAsForeign (o : overlapObject) : foreignOverlap := asForeign pt rank (ovForeign o).

(** [OverlappingBlockVector(overlap)], overlappingblockvector.hh:59-61. *)
Definition newVector (o : overlapObject) : proc (message V) buffers :=
  forBuffer (createBuffers (ovAsForeign o) (overlapWith pt (ovForeign o)) (ovDomestic o)).

(** [localToNative], foreignoverlapfrombcrsmatrix.hh:295-299, 434-452. *)
Definition toNative (l : nat) : nat := nth l (localIndices pt) 0.

Variable add : V -> V -> V.

(** What a parallel linear solver does with a right hand side v,
    parallelbasebackend.hh:194-206, 219-224: it builds the overlap and the vector, and the
    values of the border are added up.  The exchanges of the matrix are left out. *)
Definition buildAndAdd (v : list V) : proc (message V) (overlapObject * option (list V)) :=
  bind buildOverlap (fun o =>
  bind (newVector o) (fun b =>
  bind (forValues (assignAddBorder (ovAsForeign o) (ovDomestic o) zero add b toNative v)) (fun y =>
  Ret (o, y)))).

(** The same for values which the master of each row determines. *)
Definition buildAndAssign (v : list V) : proc (message V) (overlapObject * option (list V)) :=
  bind buildOverlap (fun o =>
  bind (newVector o) (fun b =>
  bind (forValues (assign (ovAsForeign o) (ovDomestic o) zero b toNative v)) (fun y =>
  Ret (o, y)))).

Variable mul : V -> V -> V.

(** The scalar product of two native vectors. *)
Definition buildAndDot (v w : list V) : proc (message V) (option V) :=
  bind buildOverlap (fun o =>
  bind (newVector o) (fun b =>
  bind (forValues (assign (ovAsForeign o) (ovDomestic o) zero b toNative v)) (fun y =>
  bind (forValues (assign (ovAsForeign o) (ovDomestic o) zero b toNative w)) (fun z =>
  match y, z with
  | Some y, Some z => bind (forScalar (dot (ovAsForeign o) zero add mul rank y z)) (fun s => Ret (Some s))
  | _, _ => Ret None
  end)))).

End Whole.
