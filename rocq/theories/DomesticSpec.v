(** * Overlapping partitions *)

From Coq Require Import Arith List Bool.
From Verif Require Import GlobalIndexModel GlobalIndexSpec ForeignModel DomesticModel.
Import ListNotations.

Section Overlapping.

(** N processes, their foreign overlaps and degrees of freedom as in [GlobalIndexSpec];
    [shared p q] are the local indices of rank p, with their distances, in the overlap of
    rank q. *)
Variable N : nat.
Variable fo : nat -> foreignOverlap.
Variable shared : nat -> nat -> list (nat * nat).
Variable dof : nat -> nat -> nat.

(** Rank p tells rank q about its local index l. *)
Definition tells (p q l : nat) : Prop := exists d, In (l, d) (shared p q).

Record overlapping : Prop := {
  (* the peers, each once, know each other *)
  ov_range : forall p q, p < N -> In q (peerSet (fo p)) -> q < N /\ q <> p;
  ov_peer_once : forall p, p < N -> NoDup (peerSet (fo p));
  ov_mutual : forall p q, p < N -> In q (peerSet (fo p)) -> In p (peerSet (fo q));
  (* the shared indices are local ones, each listed once *)
  ov_local : forall p q l, p < N -> tells p q l -> l < numLocal (fo p);
  ov_once : forall p q, p < N -> NoDup (map fst (shared p q));
  (* something is shared with exactly the peers *)
  ov_peer : forall p q, p < N -> (In q (peerSet (fo p)) <-> exists l, tells p q l);
  (* what two processes have in common is shared *)
  ov_common : forall p q l, p < N -> q < N -> p <> q -> l < numLocal (fo p) ->
    has fo dof q (dof p l) -> tells p q l;
  (* what one process tells, every process tells which has it *)
  ov_closed : forall p q l r j, p < N -> r < N -> tells p q l -> r <> q ->
    j < numLocal (fo r) -> dof r j = dof p l -> tells r q j
}.

(** The degrees of freedom which rank p gets to know: its local ones and its overlap. *)
Definition knows (p x : nat) : Prop :=
  has fo dof p x \/ exists q l, q < N /\ tells q p l /\ dof q l = x.

(** The lowest rank which has x. *)
Definition isMaster (m x : nat) : Prop := has fo dof m x /\ forall q, q < m -> ~ has fo dof q x.

(** [st] is the domestic overlap of rank p if its domestic index i stands for the degree
    of freedom [ddof i] and [number] is the global numbering. *)
Record domesticOf (number : nat -> nat) (ddof : nat -> nat) (p : nat) (st : domestic) : Prop := {
  dm_ok : domOk st = true;
  dm_size : numLocal (fo p) <= domSize st;
  (* the local indices come first *)
  dm_local : forall i, i < numLocal (fo p) -> ddof i = dof p i;
  (* one index for everything the rank knows *)
  dm_inj : forall i j, i < domSize st -> j < domSize st -> ddof i = ddof j -> i = j;
  dm_knows : forall x, knows p x <-> exists i, i < domSize st /\ ddof i = x;
  (* translation to and from global indices *)
  dm_d2g : forall i g, domesticToGlobal (domIdx st) i = Some g <-> i < domSize st /\ g = number (ddof i);
  dm_g2d : forall g i, globalToDomestic (domIdx st) g = Some i <-> i < domSize st /\ g = number (ddof i);
  (* what a peer tells, in its order *)
  dm_with : forall q, In q (peerSet (fo p)) ->
    exists is, pget q (domWith st) = Some is
      /\ (forall i, In i is -> i < domSize st)
      /\ map ddof is = map (fun ld => dof q (fst ld)) (shared q p);
  (* the distances *)
  dm_by : forall i q d, i < domSize st ->
    (mget q (nth i (domByIndex st) []) = Some d <->
     q < N /\ exists l, In (l, d) (shared q p) /\ dof q l = ddof i);
  dm_distance_local : forall i, i < numLocal (fo p) -> nth i (domDistance st) 0 = 0;
  dm_distance : forall i, numLocal (fo p) <= i < domSize st ->
    (exists q l, q < N /\ In (l, nth i (domDistance st) 0) (shared q p) /\ dof q l = ddof i)
    /\ forall q l d, q < N -> In (l, d) (shared q p) -> dof q l = ddof i ->
         nth i (domDistance st) 0 <= d;
  (* the master is the same on all processes *)
  dm_master : forall i, i < domSize st -> isMaster (domMasterRank st i) (ddof i)
}.

End Overlapping.
