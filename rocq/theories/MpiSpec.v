(** * What it means that a parallel program works under every schedule *)

From Coq Require Import Arith List.
From Verif Require Import MpiModel.
Import ListNotations.

(** [ends N prog res]: N processes, rank p executing [prog p].
    - no execution is longer than some fixed number of steps,
    - whenever not all processes have returned with their results, a step is
      possible, even if MPI buffers nothing,
    - when no step is possible, rank p has returned [res p], for all p, and all
      messages that were sent have been received.
    In particular there is no deadlock, and the results do not depend on the
    schedule. *)
Record ends {M R} (N : nat) (prog : nat -> proc M R) (res : nat -> R) : Prop := {
  ends_bounded : exists n, forall ls s, run (start N prog) ls s -> length ls <= n;
  ends_progress : forall ls s,
    run (start N prog) ls s -> s = done N res \/ exists s', assured s s';
  ends_result : forall ls s,
    run (start N prog) ls s -> (forall l, step s l = None) -> s = done N res
}.
