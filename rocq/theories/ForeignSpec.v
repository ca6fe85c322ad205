(** * Which rows are in an overlap *)

From Coq Require Import Arith List Bool.
From Verif Require Import GlobalIndexModel ForeignModel.
Import ListNotations.

Section Reach.

(** N processes, the partition of each. *)
Variable N : nat.
Variable pt : nat -> partition.

(** The native row i of rank p takes part in the parallel linear system. *)
Definition isRow (p i : nat) : Prop := i < numNative (pt p) /\ blackListed (pt p) i = false.

(** Rank p lists its row i as common with (or, for a distance different from 0, as close
    to) row j of rank q. *)
Definition lists (p i q j : nat) : Prop :=
  exists e, In e (border (pt p)) /\ localIdx e = i /\ peerRank e = q /\ peerIdx e = j.

(** Row i of rank p can be reached from the border of rank q over k matrix entries.  A
    path which arrives at a row that several processes have in common can be continued
    on each of them except on q itself; this requires that the border list consists of
    common rows (distance 0). *)
Inductive reaches (d0 : nat) : nat -> nat -> nat -> nat -> Prop :=
| reaches_border p q i j : p < N -> isRow p i -> lists p i q j -> reaches d0 p q 0 i
| reaches_entry p q k i j : reaches d0 p q k i -> In j (columns (pt p) i) -> isRow p j ->
    reaches d0 p q (S k) j
| reaches_common p q k i p' i' : d0 = 0 -> reaches d0 p q k i -> lists p i p' i' -> p' <> q ->
    reaches d0 p' q k i'.

(** ... over k entries, and not over fewer. *)
Definition distance (d0 p q k i : nat) : Prop :=
  reaches d0 p q k i /\ forall k', k' < k -> ~ reaches d0 p q k' i.

(** The border lists of all processes: they have all the same distance (0 for the vertices
    of a grid, 1 for its elements), and the neighbors know each other. *)
Record borders (d0 os : nat) : Prop := {
  bo_dist : forall p e, p < N -> In e (border (pt p)) -> borderDistance e = d0;
  bo_range : forall p i q j, p < N -> lists p i q j -> q < N /\ q <> p;
  bo_sym : forall p i q j, p < N -> lists p i q j -> exists i' j', lists q j' p i';
  bo_size : forall p, p < N -> overlapSize (pt p) = os
}.

(** Common rows: the lists of the processes agree, and the common rows are not
    black-listed. *)
Record sameRows : Prop := {
  co_row : forall p i q j, p < N -> lists p i q j -> isRow p i;
  co_sym : forall p i q j, p < N -> lists p i q j -> lists q j p i;
  co_fun : forall p i q j j', p < N -> lists p i q j -> lists p i q j' -> j = j';
  co_trans : forall p i q j r l, p < N -> lists p i q j -> lists q j r l -> r <> p -> lists p i r l
}.

(** ... and the black-listed rows have the highest native indices. *)
Record common : Prop := {
  co_same :> sameRows;
  co_first : forall p i j, p < N -> isRow p j -> i < j -> isRow p i
}.

(** The matrix graph of each process is undirected. *)
Definition undirected : Prop := forall p i j, p < N -> isRow p i -> isRow p j ->
  In j (columns (pt p) i) -> In i (columns (pt p) j).

End Reach.
