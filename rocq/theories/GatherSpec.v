(** * Specification of gathering strings and agreeing on exceptions *)

From Coq Require Import Arith NArith List Bool Ascii.
From Verif Require Import MpiModel MpiSpec GatherModel.
Import ListNotations.

Definition nonEmpty (s : bytes) : bool := match s with [] => false | _ => true end.

(** The non-empty strings of the ranks 0, 1, ..., N-1, in this order. *)
Definition inRankOrder (N : nat) (str : nat -> bytes) : list bytes :=
  filter nonEmpty (map str (seq 0 N)).

(** The strings, with four bytes for the length of each, fit into an [int]. *)
Definition fit (N : nat) (str : nat -> bytes) : Prop :=
  (N.of_nat (list_sum (map (fun p => (4 + length (str p))%nat) (seq 0 N))) < 2147483648)%N.

(** The text which a rank reports about a step. *)
Definition report (N : nat) (outcome : nat -> nat -> stepResult) (i p : nat) : bytes :=
  match outcome p i with
  | StdException what => describe N p what
  | _ => []
  end.

Definition fails (outcome : nat -> nat -> stepResult) (p i : nat) : Prop :=
  exists what, outcome p i = StdException what.

(** Step i is the first step failing on any rank, and p the lowest rank failing there. *)
Definition failsFirst (N : nat) (outcome : nat -> nat -> stepResult) (i p : nat) : Prop :=
  p < N /\ fails outcome p i
  /\ (forall i' p', i' < i -> p' < N -> ~ fails outcome p' i')
  /\ (forall p', p' < p -> ~ fails outcome p' i).

(** The processes hang: some schedule ends although rank p has not returned. *)
Definition hangs {M R} (N : nat) (prog : nat -> proc M R) (p : nat) : Prop :=
  exists ls s, run (start N prog) ls s /\ (forall l, step s l = None)
    /\ exists pr, nth_error (procs s) p = Some pr /\ forall r, pr <> Ret r.
