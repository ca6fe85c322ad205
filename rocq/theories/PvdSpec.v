(** Vocabulary of property C30. *)
From Verif Require Import PvdModel.

(** A text of lines. *)
Definition unlines (l : list (list ascii)) : list ascii := concat (map (fun x => x ++ [nl]) l).

(** One data set of the collection: time and file. *)
Definition dataset : Type := (Q * list ascii)%type.

(** The collection file listing the given data sets, line by line. *)
Definition collection (l : list dataset) : list ascii :=
  unlines ([str "<?xml version=""1.0""?>";
            str "<VTKFile type=""Collection""";
            str "         version=""0.1""";
            str "         byte_order=""LittleEndian""";
            str "         compressor=""vtkZLibDataCompressor"">";
            str " <Collection>"] ++
           map (fun d => str "   <DataSet timestep=""" ++ print_g 16 (fst d) ++ str """ file=""" ++ snd d ++ str """/>") l ++
           [str " </Collection>"; str "</VTKFile>"]).

(** The writes of a simulation, each with its time and whether it was discarded.  The data
    sets it makes: the ones not discarded, numbered from [n] on. *)
Fixpoint outputs (name : nat -> list ascii) (n : nat) (writes : list (Q * bool)) : list dataset :=
  match writes with
  | [] => []
  | (_, true) :: l => outputs name n l
  | (t, false) :: l => (t, name n) :: outputs name (S n) l
  end.

(** All the caller's thread does for these writes. *)
Definition script (writes : list (Q * bool)) : list action := flat_map write_script writes.

(** The caller's thread is in the middle of writing the closing tags. *)
Definition closing (l : list action) : bool := match l with AFooter :: _ | ASeek :: _ => true | _ => false end.

(** Executions of both threads in which no write task runs while the caller's thread writes
    the closing tags. *)
Inductive quiet_steps (rank0 async : bool) (sim : list ascii) (dune : list ascii -> list ascii) :
  list action * writer -> list action * writer -> Prop :=
| quiet_refl x : quiet_steps rank0 async sim dune x x
| quiet_next x l w z : quiet_steps rank0 async sim dune x (l, w) -> step rank0 async sim dune (l, w) z ->
    (fst z = l -> closing l = false) -> quiet_steps rank0 async sim dune x z.
