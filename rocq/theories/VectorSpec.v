(** * Distributed vectors *)

From Coq Require Import Arith List Bool Sorted QArith.
From Verif Require Import GlobalIndexModel GlobalIndexSpec ForeignModel DomesticModel DomesticSpec VectorModel.
From Verif Require FluxSpec.
Import ListNotations.
Local Open Scope nat_scope.

Section Vectors.
Variable N : nat.
Variable fo : nat -> foreignOverlap.
Variable shared : nat -> nat -> list (nat * nat).
Variable dof : nat -> nat -> nat.

(** All processes have their domestic overlaps. *)
Record system (number : nat -> nat) (total : nat) (ddof : nat -> nat -> nat) (dom : nat -> domestic) : Prop := {
  sy_distributed : distributed N fo dof;
  sy_overlapping : overlapping N fo shared dof;
  sy_numbering : numbering N fo dof number total;
  sy_domestic : forall p, p < N -> domesticOf N fo shared dof number (ddof p) p (dom p)
}.

(** The index buffers of a vector on rank p: to q goes what p shares with it, and what
    arrives are the indices of what q shares. *)
Record buffersOf (ddof : nat -> nat) (n p : nat) (b : buffers) : Prop := {
  bf_ok : bufOk b = true;
  bf_send : forall q, In q (peerSet (fo p)) -> pget q (sendIdx b) = Some (map fst (shared p q));
  bf_recv : forall q, In q (peerSet (fo p)) -> exists is, pget q (recvIdx b) = Some is
    /\ (forall i, In i is -> i < n) /\ map ddof is = map (fun ld => dof q (fst ld)) (shared q p)
}.

(** Where else than on rank p the degree of freedom x is local: rank and local index, in
    the order of the ranks. *)
Definition copies (p x : nat) (c : list (nat * nat)) : Prop :=
  StronglySorted lt (map fst c) /\
  forall q l, In (q, l) c <-> q < N /\ q <> p /\ l < numLocal (fo q) /\ dof q l = x.

(** The sum of f over all ranks q and local indices l which stand for x. *)
Definition sumLocal (x : nat) (f : nat -> nat -> Q) : Q :=
  FluxSpec.sumOver (fun q =>
    FluxSpec.sumOver (fun l => if Nat.eqb (dof q l) x then f q l else 0%Q) (seq 0 (numLocal (fo q))))
    (seq 0 N).

End Vectors.
