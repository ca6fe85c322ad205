(** * Exchanging buffers with the peer processes

    The same communication pattern occurs in
    - ForeignOverlapFromBCRSMatrix::addNonNeighborOverlapIndices_
      (/repo/opm/simulators/linalg/foreignoverlapfrombcrsmatrix.hh:513-609),
    - DomesticOverlapFromBCRSMatrix::buildDomesticOverlap_
      (/repo/opm/simulators/linalg/domesticoverlapfrombcrsmatrix.hh:388-410, 447-535),
    - OverlappingBlockVector::createBuffers_
      (/repo/opm/simulators/linalg/overlappingblockvector.hh:216-292),
    - BlackList::updateNativeToDomesticMap
      (/repo/opm/simulators/linalg/blacklist.hh:81-170):
    post the number of entries and the entries to all peers, receive both from all peers,
    wait for all sends.  The buffers are MpiBuffer objects
    (/repo/opm/models/parallel/mpibuffer.hh:85-122). *)

From Coq Require Import Arith List Bool.
From Verif Require Import MpiModel.
Import ListNotations.

Inductive bmsg (X : Type) : Type :=
| Count (n : nat)
| Items (xs : list X).
Arguments Count {X}.
Arguments Items {X}.

Section Buffers.
Context {X S : Type}.

(** Receiving into a buffer of another size or type is not defined: [bad]. *)
Definition receiveBuffers (got : nat -> list X -> S -> S) (bad : S -> S) (q : nat) (s : S)
  : proc (bmsg X) S :=
  Recv q (fun c => Recv q (fun m => Ret (
    match c, m with
    | Count n, Items xs => if Nat.eqb n (length xs) then got q xs s else bad s
    | _, _ => bad s
    end))).

Definition exchangeBuffers (peers : list nat) (out : nat -> list X)
    (got : nat -> list X -> S -> S) (bad : S -> S) (s : S) : proc (bmsg X) S :=
  bind (forEach peers (fun q s =>
          Isend q (Count (length (out q))) (Isend q (Items (out q)) (Ret s))) s)
  (fun s => bind (forEach peers (receiveBuffers got bad) s)
  (fun s => forEach peers (fun q s => Wait q (Wait q (Ret s))) s)).

(** The same with buffers whose size both sides know. *)
Definition receiveValues (expected : nat -> nat) (got : nat -> list X -> S -> S) (bad : S -> S)
    (q : nat) (s : S) : proc (bmsg X) S :=
  Recv q (fun m => Ret (
    match m with
    | Items xs => if Nat.eqb (expected q) (length xs) then got q xs s else bad s
    | _ => bad s
    end)).

Definition exchangeValues (peers : list nat) (out : nat -> list X) (expected : nat -> nat)
    (got : nat -> list X -> S -> S) (bad : S -> S) (s : S) : proc (bmsg X) S :=
  bind (forEach peers (fun q s => Isend q (Items (out q)) (Ret s)) s)
  (fun s => bind (forEach peers (receiveValues expected got bad) s)
  (fun s => forEach peers (fun q s => Wait q (Ret s)) s)).

End Buffers.
