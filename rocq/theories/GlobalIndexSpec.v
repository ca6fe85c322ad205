(** * Distributed degrees of freedom *)

From Coq Require Import Arith List Bool Sorted.
From Verif Require Import GlobalIndexModel.
Import ListNotations.

Section Distributed.

(** N processes; [fo p] is the foreign overlap of rank p and [dof p i] the degree of
    freedom which the local index i stands for on rank p. *)
Variable N : nat.
Variable fo : nat -> foreignOverlap.
Variable dof : nat -> nat -> nat.

(** Rank p has the degree of freedom d. *)
Definition has (p d : nat) : Prop := exists i, i < numLocal (fo p) /\ dof p i = d.

(** The border list of rank p tells, in any order, for every local degree of freedom
    exactly once each other rank that has it, with its index there. *)
Record bordersKnown : Prop := {
  bk_true : forall p e, p < N -> In e (borderList (fo p)) -> borderDistance e = 0 ->
    exists i j, nativeToLocal (fo p) (localIdx e) = Some i /\ i < numLocal (fo p)
      /\ peerRank e < N /\ peerRank e <> p
      /\ nativeToLocal (fo (peerRank e)) (peerIdx e) = Some j
      /\ j < numLocal (fo (peerRank e))
      /\ dof p i = dof (peerRank e) j;
  bk_complete : forall p q i, p < N -> q < N -> p <> q ->
    i < numLocal (fo p) -> has q (dof p i) ->
    exists e, In e (borderList (fo p)) /\ borderDistance e = 0 /\ peerRank e = q
      /\ nativeToLocal (fo p) (localIdx e) = Some i;
  bk_once : forall p, p < N ->
    NoDup (map (fun e => (localIdx e, peerRank e))
               (filter (fun e => Nat.eqb (borderDistance e) 0) (borderList (fo p))))
}.

Record distributed : Prop := {
  di_border : bordersKnown;
  (* different local indices are different degrees of freedom *)
  di_dof : forall p i j, p < N -> i < numLocal (fo p) -> j < numLocal (fo p) ->
    dof p i = dof p j -> i = j;
  di_native : forall p a b i, p < N -> nativeToLocal (fo p) a = Some i ->
    nativeToLocal (fo p) b = Some i -> a = b;
  (* the master of a degree of freedom is the lowest rank which has it *)
  di_master : forall p i, p < N -> i < numLocal (fo p) ->
    let m := masterRank (fo p) i in
    m <= p /\ has m (dof p i) /\ forall q, q < m -> ~ has q (dof p i);
  (* the peers: all ranks in the border list, in ascending order *)
  di_sorted : forall p, p < N -> StronglySorted lt (peerSet (fo p));
  di_peers : forall p e, p < N -> In e (borderList (fo p)) -> borderDistance e = 0 ->
    In (peerRank e) (peerSet (fo p));
  di_peer_range : forall p q, p < N -> In q (peerSet (fo p)) -> q < N
}.

(** A numbering of all degrees of freedom by 0, ..., total - 1. *)
Definition numbering (number : nat -> nat) (total : nat) : Prop :=
  (forall p d, p < N -> has p d -> number d < total) /\
  (forall p q d d', p < N -> q < N -> has p d -> has q d' -> number d = number d' -> d = d') /\
  (forall k, k < total -> exists p d, p < N /\ has p d /\ number d = k).

(** The maps of rank p hold exactly its local indices, with the given numbers. *)
Definition mapsTo (number : nat -> nat) (p : nat) (st : indices) : Prop :=
  valid st = true
  /\ numDomestic st = numLocal (fo p)
  /\ (forall i, i < numLocal (fo p) -> domesticToGlobal st i = Some (number (dof p i)))
  /\ (forall i, numLocal (fo p) <= i -> domesticToGlobal st i = None)
  /\ (forall g i, globalToDomestic st g = Some i
        <-> i < numLocal (fo p) /\ g = number (dof p i)).

End Distributed.
