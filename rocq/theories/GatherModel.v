(** * Gathering strings and agreeing on exceptions

    Model of [gatherStrings] (/repo/opm/models/parallel/mpiutil.hh:79-190) and of
    the error handling of the constructor of the simulator
    (/repo/opm/models/utils/simulator.hh:61-84, 155-244) and of
    [OverlappingPreconditioner] (/repo/opm/simulators/linalg/overlappingpreconditioner.hh:61-178). *)

From Coq Require Import Arith NArith String Ascii List Bool Lia.
From Verif Require Import MpiModel.
Import ListNotations.

Definition bytes := list ascii.

(** The two kinds of data which are handed to the collective operations used here. *)
Inductive cmsg : Type :=
| MInt (n : nat)
| MBytes (b : bytes).

Definition asInt (m : cmsg) : nat := match m with MInt n => n | _ => 0 end.
Definition asBytes (m : cmsg) : bytes := match m with MBytes b => b | _ => [] end.

(** Tags telling the collective operations apart. *)
Definition tagAllgather := 0.   (* MPI_Allgather of one int, mpiutil.hh:168 *)
Definition tagAllgatherv := 1.  (* MPI_Allgatherv of packed data, mpiutil.hh:174-177 *)
Definition tagMax := 2.         (* comm.max(int), simulator.hh:82, 175 *)
Definition tagMin := 3.         (* MPI_Allreduce(MPI_SHORT, MPI_MIN), overlappingpreconditioner.hh:69-84 *)

(** The 4 bytes of an [unsigned int]; mpiutil.hh:64-75 with T = unsigned int.
    Simplification: little endian, no header; [MPI_Pack] of a homogeneous system. *)
Definition pack4 (n : N) : bytes :=
  [ascii_of_N (n mod 256); ascii_of_N (n / 256 mod 256);
   ascii_of_N (n / 65536 mod 256); ascii_of_N (n / 16777216 mod 256)].

Definition unpack4 (b : bytes) : N :=
  match b with
  | b0 :: b1 :: b2 :: b3 :: _ =>
      (N_of_ascii b0 + 256 * N_of_ascii b1 + 65536 * N_of_ascii b2
       + 16777216 * N_of_ascii b3)%N
  | _ => 0%N
  end.

(** [Packer<std::string>::size], mpiutil.hh:82-85. *)
Definition packSize (s : bytes) : nat := 4 + length s.

(** [Packer<std::string>::pack], mpiutil.hh:87-94: the buffer was created with
    exactly [packSize] bytes. *)
Definition pack (s : bytes) : bytes := pack4 (N.of_nat (length s)) ++ s.

(** [Packer<std::string>::unpack], mpiutil.hh:96-107, at position [offset]: the text and
    the new offset. *)
Definition unpack (buf : bytes) (offset : nat) : bytes * nat :=
  let size := N.to_nat (unpack4 (skipn offset buf)) in
  (firstn size (skipn (offset + 4) buf), offset + 4 + size).

(** [std::partial_sum] into [displ.begin() + 1], mpiutil.hh:169-170. *)
Fixpoint displacements (start : nat) (sizes : list nat) : list nat :=
  match sizes with
  | [] => [start]
  | n :: sizes' => start :: displacements (start + n) sizes'
  end.

(** What [MPI_Allgatherv] does with the receive buffer: the data of process p is
    written to position displ[p], mpiutil.hh:173-177. *)
Definition write (buf : bytes) (offset : nat) (data : bytes) : bytes :=
  firstn offset buf ++ data ++ skipn (offset + length data) buf.

Fixpoint writeAll (buf : bytes) (displ : list nat) (datas : list bytes) : bytes :=
  match displ, datas with
  | d :: displ', b :: datas' => writeAll (write buf d b) displ' datas'
  | _, _ => buf
  end.

(** The loop mpiutil.hh:181-188 over all processes. *)
Fixpoint unpackAll (buf : bytes) (displ : list nat) (n : nat) : list bytes :=
  match n, displ with
  | S n', d :: displ' =>
      let s := fst (unpack buf d) in
      match s with
      | [] => unpackAll buf displ' n'
      | _ => s :: unpackAll buf displ' n'
      end
  | _, _ => []
  end.

(** The sizes and displacements are of type [int]. *)
Definition intLimit : N := 2147483648.
Definition fitsInt (n : nat) : bool := (N.of_nat n <? intLimit)%N.

Inductive gathered : Type :=
| Gathered (all : list bytes)
| TooLong. (* the size of the message or of all messages exceeds the type int *)

(** [gatherStrings], mpiutil.hh:153-190. *)
Definition gatherStrings (local_string : bytes) : proc cmsg gathered :=
  let message_size := packSize local_string in
  if fitsInt message_size then
    Coll tagAllgather (MInt message_size) (fun ms =>
      let message_sizes := map asInt ms in
      let displ := displacements 0 message_sizes in
      if fitsInt (last displ 0) then
        Coll tagAllgatherv (MBytes (pack local_string)) (fun bs =>
          let recv_buffer := writeAll (repeat zero (last displ 0)) displ (map asBytes bs) in
          Ret (Gathered (unpackAll recv_buffer displ (length ms))))
      else Ret TooLong)
  else Ret TooLong.

(** The version without MPI, mpiutil.hh:198-205. *)
Definition gatherStringsSerial (local_string : bytes) : list bytes :=
  match local_string with [] => [] | _ => [local_string] end.

(* ----- constructor of the simulator ----- *)

(** How a step of the set up ends on one process. *)
Inductive stepResult : Type :=
| Fine
| StdException (what : bytes)   (* derived from std::exception *)
| OtherException.               (* not caught, simulator.hh:184, 195, ... *)

(** How the constructor ends on one process. *)
Inductive constructed : Type :=
| Constructed
| Threw (what : bytes)          (* std::runtime_error *)
| Escaped                       (* another exception left the constructor *)
| Undefined.                    (* front() of an empty vector / message too long *)

(** [std::to_string] of a rank. *)
Definition digit (n : nat) : ascii := ascii_of_nat (48 + n).
Fixpoint decimalAux (fuel n : nat) : bytes :=
  match fuel with
  | 0 => []
  | S f => if n <? 10 then [digit n] else decimalAux f (n / 10) ++ [digit (n mod 10)]
  end.
Definition decimal (n : nat) : bytes := decimalAux (S n) n.

Definition text_on_rank : bytes :=
  String.list_ascii_of_string " (on rank "%string.
Definition text_close : bytes := String.list_ascii_of_string ")"%string.

(** [catchAction], simulator.hh:158-168: the text that is gathered. *)
Definition describe (size rank : nat) (what : bytes) : bytes :=
  if 1 <? size then what ++ text_on_rank ++ decimal rank ++ text_close else what.

(** [checkParallelException], simulator.hh:170-180, followed by the rest of the
    constructor. *)
Definition checkParallelException (prefix : bytes) (exceptionThrown : nat) (what : bytes)
    (rest : proc cmsg constructed) : proc cmsg constructed :=
  Coll tagMax (MInt exceptionThrown) (fun ms =>
    if 0 <? fold_right Nat.max 0 (map asInt ms)
    then bind (gatherStrings what) (fun g =>
           match g with
           | Gathered (w :: _) => Ret (Threw (prefix ++ w))
           | _ => Ret Undefined
           end)
    else rest).

(** The six set up steps (vanguard, load balancing, model, problem, model
    initialisation, problem initialisation), simulator.hh:182-244: [steps] lists the
    prefixes of the error messages, [outcome i] is what the i-th step does on this
    process.  Simplification: the steps themselves do not communicate. *)
Fixpoint setUp (size rank : nat) (steps : list bytes) (i : nat)
    (outcome : nat -> stepResult) : proc cmsg constructed :=
  match steps with
  | [] => Ret Constructed
  | prefix :: steps' =>
      match outcome i with
      | Fine =>
          checkParallelException prefix 0 [] (setUp size rank steps' (S i) outcome)
      | StdException what =>
          checkParallelException prefix 1 (describe size rank what)
            (setUp size rank steps' (S i) outcome)
      | OtherException => Ret Escaped
      end
  end.

(** EWOMS_CATCH_PARALLEL_EXCEPTIONS_FATAL, simulator.hh:61-84: true = [std::abort]. *)
Definition catchFatal (outcome : stepResult) : proc cmsg bool :=
  let exceptionThrown := match outcome with Fine => 0 | _ => 1 end in
  Coll tagMax (MInt exceptionThrown) (fun ms =>
    Ret (0 <? fold_right Nat.max 0 (map asInt ms))).

(* ----- OverlappingPreconditioner ----- *)

Inductive preconditioned : Type :=
| Applied                       (* the result was computed (and synchronised) *)
| Failed                        (* NumericalProblem *)
| SeqFailed.                    (* the exception of the sequential preconditioner *)

(** [pre] and [post], overlappingpreconditioner.hh:61-99, 143-178, up to the
    synchronisation of the vectors: [ok] tells if the sequential preconditioner
    succeeds on this process. *)
Definition preconditionerPre (ok : bool) : proc cmsg preconditioned :=
  Coll tagMin (MInt (if ok then 1 else 0)) (fun ms =>
    Ret (if 0 <? fold_right Nat.min 1 (map asInt ms) then Applied else Failed)).

(** [apply], overlappingpreconditioner.hh:101-141: a process without peers does not
    take part in the communication. *)
Definition preconditionerApply (hasPeers ok : bool) : proc cmsg preconditioned :=
  if hasPeers then preconditionerPre ok
  else Ret (if ok then Applied else SeqFailed).
