(** * Communication over a distributed grid: what DUNE guarantees, and what is meant by the
      copies of an entity *)

From Coq Require Import Arith List Bool Permutation QArith.
From Verif Require Import GlobalIndexModel ForeignModel PipelineModel CommModel.
From Verif Require FluxSpec.
Import ListNotations.
Local Open Scope nat_scope.

Section Grid.
Variable N : nat.
Variable g : nat -> part.

(** No entity has two indices on one process. *)
Definition indexed : Prop := forall p i j, p < N -> i < numEnt (g p) -> j < numEnt (g p) ->
  ident (g p) i = ident (g p) j -> i = j.

(** i on p and j on q are copies of the same entity. *)
Definition sameEntity (p i q j : nat) : Prop :=
  p < N /\ q < N /\ i < numEnt (g p) /\ j < numEnt (g q) /\ ident (g p) i = ident (g q) j.

(** The contract of the communication over an interface: between two processes exactly the
    common entities with the partition types of the interface are exchanged, in any
    order; a process gets the messages of all others, in any order. *)
Definition overInterface (from to : partitionType -> bool) (plan : nat -> nat -> list (nat * nat))
    (order : nat -> list nat) : Prop :=
  (forall p q, p < N -> q < N -> p <> q ->
     NoDup (plan p q) /\
     forall i j, In (i, j) (plan p q) <->
       sameEntity p i q j /\ from (kind (g p) i) = true /\ to (kind (g q) j) = true)
  /\ forall q, q < N -> NoDup (order q) /\ forall p, In p (order q) <-> p < N /\ p <> q.

(** The sum of the values of all copies of the entity j of q which are interior or border
    entities. *)
Definition sumOfCopies (c : nat -> list Q) (q j : nat) : Q :=
  FluxSpec.sumOver (fun p =>
    FluxSpec.sumOver (fun i => if Nat.eqb (ident (g p) i) (ident (g q) j) && interiorBorder (kind (g p) i)
                               then nth i (c p) 0%Q else 0%Q)
      (seq 0 (numEnt (g p)))) (seq 0 N).

(** i on p is an interior or border copy of the entity j of q. *)
Definition borderCopy (q j p i : nat) : Prop := sameEntity p i q j /\ interiorBorder (kind (g p) i) = true.

End Grid.

(** A distributed grid whose elements are the degrees of freedom: every element is in the
    interior of at most one process, and two processes have copies of elements of each
    other or none. *)
Record elementGrid (N : nat) (g : nat -> part) : Prop := {
  eg_indexed : indexed N g;
  eg_kinds : forall p i, p < N -> i < numEnt (g p) -> kind (g p) i <> BorderEntity;
  eg_owner : forall p i q j, sameEntity N g p i q j -> kind (g p) i = InteriorEntity ->
    kind (g q) j = InteriorEntity -> p = q;
  eg_mutual : forall p i q j, sameEntity N g p i q j -> p <> q -> kind (g p) i = InteriorEntity ->
    exists i' j', sameEntity N g p i' q j' /\ kind (g q) j' = InteriorEntity
}.

(** ... in which every interior element with copies elsewhere has an interior neighbor. *)
Definition noLoneElement (N : nat) (g : nat -> part) : Prop :=
  forall p i q j, sameEntity N g p i q j -> p <> q -> kind (g q) j = InteriorEntity ->
    exists k, In k (adjacent (g q) j) /\ kind (g q) k = InteriorEntity.
