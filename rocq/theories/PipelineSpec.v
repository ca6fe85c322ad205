(** * Rows of a distributed matrix *)

From Coq Require Import Arith List Bool QArith.
From Verif Require Import MpiExchange GlobalIndexModel GlobalIndexSpec ForeignModel ForeignSpec
  DomesticModel DomesticSpec PipelineModel.
From Verif Require FluxSpec.
Import ListNotations.
Local Open Scope nat_scope.

Section Rows.
Variable N : nat.
Variable pt : nat -> partition.

(** [name p i]: which row of the global matrix the native row i of rank p is.  With a
    border list of distance 0 (vertices) the border list tells the rows of other
    processes which are the same one; with one of a positive distance (elements) no row
    is on two processes. *)
Record named (d0 : nat) (name : nat -> nat -> nat) : Prop := {
  na_inj : forall p i j, p < N -> isRow pt p i -> isRow pt p j -> name p i = name p j -> i = j;
  na_common : d0 = 0 -> forall p i q j, p < N -> q < N -> p <> q -> isRow pt p i -> isRow pt q j ->
    (name p i = name q j <-> lists pt p i q j);
  na_distinct : 0 < d0 -> forall p i q j, p < N -> q < N -> p <> q -> isRow pt p i -> isRow pt q j ->
    name p i <> name q j;
  na_row : forall p i q j, p < N -> lists pt p i q j -> isRow pt p i;
  na_once : forall p, p < N -> NoDup (map (fun e => (localIdx e, peerRank e)) (border (pt p)))
}.

(** A decomposition of a matrix for which the overlap of size [os] can be built. *)
Record decomposition (d0 os : nat) (name : nat -> nat -> nat) : Prop := {
  de_borders : borders N pt d0 os;
  de_common : d0 = 0 -> common N pt;
  de_undirected : d0 = 0 -> undirected N pt;
  de_named : named d0 name;
  de_size : d0 <= os
}.

(** The rank q has the row x. *)
Definition hasRow (name : nat -> nat -> nat) (q x : nat) : Prop := exists i, isRow pt q i /\ name q i = x.

(** What rank p gets to know: its rows, and the rows of others which can be reached from
    its border over as many matrix entries as the overlap allows. *)
Definition inOverlap (d0 os : nat) (name : nat -> nat -> nat) (p x : nat) : Prop :=
  hasRow name p x \/
  exists q i k, d0 + k <= os /\ reaches N pt d0 q p k i /\ name q i = x.

(** The lists of the rows which are black-listed elsewhere: an entry (n, i) on rank p for
    rank q means that the native index n of q is the row i of p. *)
Record blackListsOf (name : nat -> nat -> nat) (pb : nat -> peerBlackLists) : Prop := {
  bl_peers : symmetric N (fun p => map fst (pb p));
  bl_entry : forall p q n i, p < N -> In (n, i) (bget q (pb p)) -> isRow pt p i /\ name p i = name q n
}.

End Rows.

(** [row i] is the global row which the domestic index i of the overlap object of rank p
    stands for. *)
Record rowsOf (N : nat) (pt : nat -> partition) (d0 os : nat) (name : nat -> nat -> nat)
    (p : nat) (dom : domestic) (row : nat -> nat) : Prop := {
  ro_ok : domOk dom = true;
  ro_all : forall x, inOverlap N pt d0 os name p x <-> exists i, i < domSize dom /\ row i = x;
  ro_inj : forall i j, i < domSize dom -> j < domSize dom -> row i = row j -> i = j;
  (* the rows of the rank itself come first, in their order *)
  ro_local : forall n l, toLocal (pt p) n = Some l -> l < domSize dom /\ row l = name p n;
  (* the master: the lowest rank which has the row *)
  ro_master : forall i, i < domSize dom ->
    hasRow pt name (domMasterRank dom i) (row i)
    /\ forall q, q < domMasterRank dom i -> ~ hasRow pt name q (row i)
}.

(** The sum, over all processes and their rows, of the values which stand for row x. *)
Definition rowSum (N : nat) (pt : nat -> partition) (name : nat -> nat -> nat) (v : nat -> list Q) (x : nat)
  : Q :=
  FluxSpec.sumOver (fun q =>
    FluxSpec.sumOver (fun n => if negb (blackListed (pt q) n) && Nat.eqb (name q n) x
                               then nth n (v q) 0%Q else 0%Q)
      (seq 0 (numNative (pt q)))) (seq 0 N).
