(** Model of the collection (.pvd) file kept by opm/models/io/vtkmultiwriter.hh.

    The thread which calls the writer ("main") is a script of small actions; the output
    thread performs pending write tasks between any two of them.  What a write task does to
    the collection file is one action (the code: one formatted output statement per item,
    vtkmultiwriter.hh:92-94).  Writing the data set itself (Dune::VTKWriter), failing
    streams and the managed buffers are not modelled. *)
From Coq Require Export String Ascii List ZArith QArith Lia Bool.
From Verif Require Export FloatTextModel.
Export ListNotations.

Definition str (s : string) : list ascii := list_ascii_of_string s.
Definition nl : ascii := ascii_of_nat 10.

(** The output stream [multiFile_]: the bytes of the file and the write position. *)
Record stream := mkStream { f_data : list ascii; f_pos : nat }.

(** [<<] on a stream: overwrite from the position on. *)
Definition put (t : list ascii) (f : stream) : stream :=
  mkStream (firstn (f_pos f) (f_data f) ++ t ++ skipn (f_pos f + length t) (f_data f)) (f_pos f + length t).

(** startMultiFile_, vtkmultiwriter.hh:490-503. *)
Definition header : list ascii :=
  str "<?xml version=""1.0""?>" ++ [nl] ++
  str "<VTKFile type=""Collection""" ++ [nl] ++
  str "         version=""0.1""" ++ [nl] ++
  str "         byte_order=""LittleEndian""" ++ [nl] ++
  str "         compressor=""vtkZLibDataCompressor"">" ++ [nl] ++
  str " <Collection>" ++ [nl].

(** finishMultiFile_, vtkmultiwriter.hh:511-512. *)
Definition footer : list ascii := str " </Collection>" ++ [nl] ++ str "</VTKFile>" ++ [nl].

(** WriteDataTasklet::run, vtkmultiwriter.hh:92-94: precision 16. *)
Definition entry (t : Q) (name : list ascii) : list ascii :=
  str "   <DataSet timestep=""" ++ print_g 16 t ++ str """ file=""" ++ name ++ str """/>" ++ [nl].

(** fileName_, vtkmultiwriter.hh:478-485: [setw(5) << setfill('0')]. *)
Definition file_name (sim : list ascii) (n : nat) : list ascii :=
  let d := show_nat (Z.of_nat n) in sim ++ str "-" ++ repeat (ascii_of_nat 48) (5 - length d) ++ d.

(** The writer.  [w_file] is absent if the collection file is not open; it never is on
    ranks other than zero (vtkmultiwriter.hh:493).  [w_queue] is the number of dispatched
    tasks that have not run, [w_reg] the local variable [pos] of finishMultiFile_. *)
Record writer := mkWriter {
  w_file : option stream;
  w_num : nat;             (* curWriterNum_ *)
  w_time : Q;              (* curTime_ *)
  w_name : list ascii;     (* curOutFileName_ *)
  w_queue : nat;
  w_reg : nat;
  w_closed : bool }.

Definition with_file (f : option stream) (w : writer) : writer :=
  mkWriter f (w_num w) (w_time w) (w_name w) (w_queue w) (w_reg w) (w_closed w).
Definition on_file (g : stream -> stream) (w : writer) : writer := with_file (option_map g (w_file w)) w.

Inductive action :=
| ABegin (t : Q)   (* beginWrite, vtkmultiwriter.hh:179-195 *)
| ADispatch        (* endWrite, :391-394 *)
| ADiscard         (* endWrite, :396 *)
| ATell            (* finishMultiFile_, :510 *)
| AFooter          (* :511-512 *)
| ASeek            (* :513-514 *)
| ABarrier         (* destructor, :144 *)
| AClose.          (* destructor, :148-149 *)

(** What the caller's thread does: one write is beginWrite and endWrite (with [onlyDiscard]),
    vtkmultiwriter.hh:389-402. *)
Definition write_script (w : Q * bool) : list action :=
  [ABegin (fst w); if snd w then ADiscard else ADispatch; ATell; AFooter; ASeek].
(** The destructor, vtkmultiwriter.hh:142-150. *)
Definition destructor_script : list action := [ABarrier; ATell; AFooter; ASeek; AClose].

Section Writer.
  (** Whether this is rank zero, whether output is asynchronous, the name of the simulation,
      and the name of the file Dune::VTKWriter makes of the given one (:76-91). *)
  Variables (rank0 async : bool) (sim : list ascii) (dune : list ascii -> list ascii).

  (** The write task: it uses the writer's data at the time when it runs, :74-95. *)
  Definition task (w : writer) : writer := on_file (put (entry (w_time w) (dune (w_name w)))) w.

  Definition act (a : action) (w : writer) : writer :=
    match a with
    | ABegin t =>
        let f := match w_file w with
                 | Some f => Some f
                 | None => if rank0 then Some (put header (mkStream [] 0)) else None
                 end in
        mkWriter f (S (w_num w)) t (file_name sim (w_num w)) (w_queue w) (w_reg w) (w_closed w)
    | ADispatch =>
        if async then mkWriter (w_file w) (w_num w) (w_time w) (w_name w) (S (w_queue w)) (w_reg w) (w_closed w)
        else task w      (* TaskletRunner::dispatch without threads, parallel/tasklets.hh *)
    | ADiscard => mkWriter (w_file w) (pred (w_num w)) (w_time w) (w_name w) (w_queue w) (w_reg w) (w_closed w)
    | ATell =>
        mkWriter (w_file w) (w_num w) (w_time w) (w_name w) (w_queue w)
                 (match w_file w with Some f => f_pos f | None => 0 end) (w_closed w)
    | AFooter => on_file (put footer) w
    | ASeek => on_file (fun f => mkStream (f_data f) (w_reg w)) w
    | ABarrier => w
    | AClose => mkWriter (w_file w) (w_num w) (w_time w) (w_name w) (w_queue w) (w_reg w) true
    end.

  (** [taskletRunner_.barrier()] waits until no task is left. *)
  Definition waits (a : action) : bool := match a with ABegin _ | ABarrier => true | _ => false end.

  (** The caller's thread alone. *)
  Definition acts (l : list action) (w : writer) : writer := fold_left (fun w a => act a w) l w.

  Definition run_task (w : writer) : writer :=
    let w' := task w in
    mkWriter (w_file w') (w_num w') (w_time w') (w_name w') (pred (w_queue w')) (w_reg w') (w_closed w').

  (** Both threads: the remaining script and the writer. *)
  Inductive step : list action * writer -> list action * writer -> Prop :=
  | step_main a l w : (waits a = true -> w_queue w = 0%nat) -> step (a :: l, w) (l, act a w)
  | step_task l w : (0 < w_queue w)%nat -> step (l, w) (l, run_task w).

  Inductive steps : list action * writer -> list action * writer -> Prop :=
  | steps_refl x : steps x x
  | steps_next x y z : steps x y -> step y z -> steps x z.
End Writer.

(** A new writer, vtkmultiwriter.hh:117-140. *)
Definition new_writer : writer := mkWriter None 0 0 [] 0 0 false.

(** serialize and deserialize, vtkmultiwriter.hh:408-475: the number, and on rank zero the
    file with its write position; what the text of the restart file looks like is in
    RestartModel. *)
Definition restart_writer (w : writer) : writer :=
  mkWriter (match w_file w with
            | Some f => if (length (f_data f) =? 0)%nat then None else Some (mkStream (f_data f) (f_pos f))
            | None => None
            end) (w_num w) 0 [] 0 0 false.
