(** Vocabulary for the parallel solver. *)

From Coq Require Import Arith List Bool QArith.
From Verif Require Import FluxSpec.
Import ListNotations.
Local Open Scope nat_scope.

(** The scalar product of two global vectors with n rows. *)
Definition globalDot (n : nat) (X Y : nat -> Q) : Q := sumOver (fun x => (X x * Y x)%Q) (seq 0 n).

(** What a process with the given number of rows knows of a global vector; [row i] is the global row
    of its index i. *)
Definition restriction (row : nat -> nat) (size : nat) (X : nat -> Q) : list Q :=
  map (fun i => X (row i)) (seq 0 size).

(** A preconditioner does the same for equal numbers. *)
Definition sameForEqual (prec : nat -> list Q -> list Q -> option (nat -> Q)) : Prop :=
  forall k y y' d d', Forall2 Qeq y y' -> Forall2 Qeq d d' ->
    match prec k y d, prec k y' d' with
    | Some z, Some z' => forall i, (z i == z' i)%Q
    | None, None => True
    | _, _ => False
    end.
