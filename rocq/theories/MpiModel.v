(** * A set of processes exchanging messages through MPI

    Model of the MPI operations which the parallel parts of the code use:
    - [MPI_Send]/[MPI_Recv] (/repo/opm/simulators/linalg/globalindices.hh:147-152,
      164-170, 220-226, 245-250),
    - [MpiBuffer::send] = [MPI_Isend], [MpiBuffer::wait] = [MPI_Wait],
      [MpiBuffer::receive] = [MPI_Recv] (/repo/opm/models/parallel/mpibuffer.hh:85-122),
    - [MPI_Allreduce], [MPI_Allgather], [MPI_Allgatherv]
      (/repo/opm/models/parallel/mpiutil.hh:153-190,
      /repo/opm/simulators/linalg/overlappingpreconditioner.hh:61-178).
    Every message of the code uses the tag 0, the communicator [MPI_COMM_WORLD]
    and an explicit source rank; MPI's non-overtaking rule therefore makes every
    ordered pair of ranks a first-in first-out channel.

    Simplifications: the content of an [MPI_Isend] buffer is taken at the time of
    the call (the code never writes to a buffer between [send] and [wait]);
    [MPI_Wait] is modelled per destination and not per request; the local
    computation between two MPI operations is part of the continuation; a
    collective operation hands the contributions of all ranks to every rank, each
    of which computes the sum, the minimum, ... itself. *)

From Coq Require Import Arith List Bool Lia.
Import ListNotations.

(** A process: what a rank still has to do, in terms of its MPI operations. *)
Inductive proc (M R : Type) : Type :=
| Ret (r : R)                                  (* the function has returned *)
| Send (dst : nat) (m : M) (k : proc M R)      (* MPI_Send: may block until received *)
| Isend (dst : nat) (m : M) (k : proc M R)     (* MPI_Isend: never blocks *)
| Wait (dst : nat) (k : proc M R)              (* MPI_Wait: may block until received *)
| Recv (src : nat) (k : M -> proc M R)         (* MPI_Recv: blocks until a message is there *)
| Coll (tag : nat) (m : M) (k : list M -> proc M R). (* collective operation *)

Arguments Ret {M R}.
Arguments Send {M R}.
Arguments Isend {M R}.
Arguments Wait {M R}.
Arguments Recv {M R}.
Arguments Coll {M R}.

(** Sequential composition of code on one rank. *)
Fixpoint bind {M A B : Type} (p : proc M A) (K : A -> proc M B) : proc M B :=
  match p with
  | Ret r => K r
  | Send q m k => Send q m (bind k K)
  | Isend q m k => Isend q m (bind k K)
  | Wait q k => Wait q (bind k K)
  | Recv q k => Recv q (fun m => bind (k m) K)
  | Coll t m k => Coll t m (fun ms => bind (k ms) K)
  end.

(** A loop over a list: the body gets the value accumulated so far. *)
Fixpoint forEach {M A S : Type} (xs : list A) (body : A -> S -> proc M S) (s : S)
  : proc M S :=
  match xs with
  | [] => Ret s
  | x :: xs' => bind (body x s) (fun s' => forEach xs' body s')
  end.

Fixpoint upd {A : Type} (l : list A) (i : nat) (x : A) : list A :=
  match l, i with
  | [], _ => []
  | _ :: t, 0 => x :: t
  | h :: t, S j => h :: upd t j x
  end.

(** The processes by rank, and the messages which were sent and not yet received:
    the channel from rank p to rank q is entry p*N + q. *)
Record state (M R : Type) : Type := mkState {
  procs : list (proc M R);
  chans : list (list M)
}.
Arguments mkState {M R}.
Arguments procs {M R}.
Arguments chans {M R}.

Definition size {M R} (s : state M R) : nat := length (procs s).

Definition chan {M R} (s : state M R) (p q : nat) : list M :=
  nth (p * size s + q) (chans s) [].

(** What every rank contributes if all ranks stand at the collective operation
    with the same tag. *)
Fixpoint contributions {M R} (t : nat) (ps : list (proc M R)) : option (list M) :=
  match ps with
  | [] => Some []
  | Coll t' m _ :: ps' =>
      if Nat.eqb t t'
      then match contributions t ps' with
           | Some ms => Some (m :: ms)
           | None => None
           end
      else None
  | _ => None
  end.

Definition resume {M R} (ms : list M) (p : proc M R) : proc M R :=
  match p with
  | Coll _ _ k => k ms
  | _ => p
  end.

(** One step: [Some p] = rank p executes its next point to point operation;
    [None] = all ranks together execute a collective operation. *)
Definition step {M R} (s : state M R) (l : option nat) : option (state M R) :=
  match l with
  | Some p =>
      match nth_error (procs s) p with
      | Some (Send q m k) | Some (Isend q m k) =>
          if q <? size s
          then Some (mkState (upd (procs s) p k)
                             (upd (chans s) (p * size s + q) (chan s p q ++ [m])))
          else None
      | Some (Wait q k) =>
          if q <? size s then Some (mkState (upd (procs s) p k) (chans s)) else None
      | Some (Recv q k) =>
          if q <? size s
          then match chan s q p with
               | m :: rest => Some (mkState (upd (procs s) p (k m))
                                            (upd (chans s) (q * size s + p) rest))
               | [] => None
               end
          else None
      | _ => None
      end
  | None =>
      match procs s with
      | Coll t _ _ :: _ =>
          match contributions t (procs s) with
          | Some ms => Some (mkState (map (resume ms) (procs s)) (chans s))
          | None => None
          end
      | _ => None
      end
  end.

(** An execution: a schedule [ls] leading from one state to another. *)
Inductive run {M R} : state M R -> list (option nat) -> state M R -> Prop :=
| run_nil s : run s [] s
| run_cons s l s' ls t : step s l = Some s' -> run s' ls t -> run s (l :: ls) t.

(** All processes at the beginning / all processes returned, nothing in flight. *)
Definition start {M R} (N : nat) (prog : nat -> proc M R) : state M R :=
  mkState (map prog (seq 0 N)) (repeat [] (N * N)).

Definition done {M R} (N : nat) (res : nat -> R) : state M R :=
  start N (fun p => Ret (res p)).

(** The steps which an MPI implementation must allow even if it does not buffer
    any message: a blocking send completes only together with its receive, and a
    wait only after the messages were received. *)
Inductive assured {M R} (s : state M R) : state M R -> Prop :=
| assured_handshake p q m k k' :
    nth_error (procs s) p = Some (Send q m k) ->
    nth_error (procs s) q = Some (Recv p k') ->
    chan s p q = [] ->
    assured s (mkState (upd (upd (procs s) p k) q (k' m)) (chans s))
| assured_isend p q m k s' :
    nth_error (procs s) p = Some (Isend q m k) ->
    step s (Some p) = Some s' -> assured s s'
| assured_recv p q k s' :
    nth_error (procs s) p = Some (Recv q k) ->
    step s (Some p) = Some s' -> assured s s'
| assured_wait p q k s' :
    nth_error (procs s) p = Some (Wait q k) ->
    chan s p q = [] ->
    step s (Some p) = Some s' -> assured s s'
| assured_coll s' :
    step s None = Some s' -> assured s s'.

Inductive assuredRun {M R} : state M R -> state M R -> Prop :=
| ar_nil s : assuredRun s s
| ar_cons s s' t : assured s s' -> assuredRun s' t -> assuredRun s t.
