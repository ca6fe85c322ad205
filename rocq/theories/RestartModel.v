(** Restart files: opm/models/io/restart.hh, with what the simulator
    (opm/models/utils/simulator.hh:907-962), the problem
    (opm/models/discretization/common/fvbaseproblem.hh:754-776), the visualization writer
    (opm/models/io/vtkmultiwriter.hh:408-475) and the models write into them.
    Files are sequences of characters. *)
From Verif Require Export FloatTextModel.
Open Scope Q_scope.

Definition nl : ascii := "010"%char.
Definition sp : ascii := " "%char.
Definition str (s : string) : list ascii := list_ascii_of_string s.

(** What the cookie and the file name depend on. *)
Record grid := mkGrid { g_cpus : Z; g_rank : Z; g_elements : Z; g_edges : Z; g_vertices : Z }.

(** [magicRestartCookie_], restart.hh:46-66. *)
Definition cookie (g : grid) : list ascii :=
  str "eWoms restart file: gridName='blubb' numCPUs=" ++ show_Z (g_cpus g) ++
  str " myRank=" ++ show_Z (g_rank g) ++ str " numElements=" ++ show_Z (g_elements g) ++
  str " numEdges=" ++ show_Z (g_edges g) ++ str " numVertices=" ++ show_Z (g_vertices g).

(** [restartFileName_], restart.hh:71-88: the stream has the default precision, six digits. *)
Definition out_dir (dir : list ascii) : list ascii :=
  match dir with
  | [c] => if Ascii.eqb c "." then [] else if Ascii.eqb c "/" then dir else dir ++ ["/"%char]
  | [] => []
  | _ => if Ascii.eqb (last dir sp) "/" then dir else dir ++ ["/"%char]
  end.
Definition restart_name (dir sim : list ascii) (t : Q) (rank : Z) : list ascii :=
  out_dir dir ++ sim ++ str "_time=" ++ print_g 6 t ++ str "_rank=" ++ show_Z rank ++ str ".ers".

(** ** Writing *)
(** [serializeBegin] sets precision(20), restart.hh:112. *)
Definition put_double (x : Q) : list ascii := print_g 20 x.
(** [serializeSectionBegin], [serializeSectionEnd], restart.hh:127-134. *)
Definition section_begin (c : list ascii) : list ascii := c ++ [nl].
Definition section_end : list ascii := [nl].

(** The simulator's data in the file, simulator.hh:930-942. *)
Record simdata := mkSimdata {
  d_epidx : Z; d_epstart : Q; d_eplen : Q; d_start : Q; d_time : Q; d_idx : Z }.
Definition write_simulator (d : simdata) : list ascii :=
  section_begin (str "Simulator") ++
  show_Z (d_epidx d) ++ [sp] ++ put_double (d_epstart d) ++ [sp] ++ put_double (d_eplen d) ++ [sp] ++
  put_double (d_start d) ++ [sp] ++ put_double (d_time d) ++ [sp] ++ show_Z (d_idx d) ++ [sp] ++
  section_end.

(** The state of the visualization writer: number of the current file, and the collection
    file with its write position if it is open. *)
Record vtk := mkVtk { v_num : Z; v_file : option (list ascii * Z) }.
(** vtkmultiwriter.hh:408-437; everything written to the collection file so far is on disk. *)
Definition write_vtk (rank : Z) (v : vtk) : list ascii :=
  section_begin (str "VTKMultiWriter") ++ show_Z (v_num v) ++ [nl] ++
  (if (rank =? 0)%Z
   then let '(bytes, pos) := match v_file v with Some f => f | None => ([], 0%Z) end in
        show_Z (Z.of_nat (length bytes)) ++ [sp; sp] ++ show_Z pos ++ [nl] ++ bytes
   else []) ++
  section_end.

(** A degree of freedom: the primary variables and, depending on the model, integers which
    say how to interpret them. *)
Record dof := mkDof { f_vals : list Q; f_ints : list Z }.

Definition write_vals (l : list Q) : list ascii := concat (map (fun x => put_double x ++ [sp]) l).
Definition write_ints (l : list Z) : list ascii := concat (map (fun z => show_Z z ++ [sp]) l).
(** What the extension modules of the black-oil model add: variables once more, without a
    separator: blackoilsolventmodules.hh:582, blackoilextbomodules.hh:451,
    blackoilpolymermodules.hh:576, blackoilenergymodules.hh:299. *)
Definition write_extra (extra : list nat) (l : list Q) : list ascii :=
  concat (map (fun i => put_double (nth i l 0)) extra).

(** The models: most of them use [FvBaseDiscretization::serializeEntity]
    (fvbasediscretization.hh:1440-1454); the PVS model adds the phase presence
    (pvsmodel.hh:467-477); the black-oil model adds the meaning of the gas, water and
    pressure variables, the PVT region and the variables of the enabled extension modules
    [extra] (blackoilmodel.hh:468-492). *)
Inductive kind := Base | Pvs | BlackOil (extra : list nat).

Definition write_entity (k : kind) (d : dof) : list ascii :=
  match k with
  | Base => write_vals (f_vals d)
  | Pvs => write_vals (f_vals d) ++ write_ints (f_ints d)
  | BlackOil extra => write_vals (f_vals d) ++ write_ints (f_ints d) ++ write_extra extra (f_vals d)
  end.
(** [serializeEntities], restart.hh:141-163. *)
Definition write_entities (k : kind) (codim : Z) (l : list dof) : list ascii :=
  section_begin (str "Entities: Codim " ++ show_Z codim) ++
  concat (map (fun d => write_entity k d ++ [nl]) l) ++ section_end.

(** The whole state. *)
Record state := mkState { s_sim : simdata; s_vtk : vtk; s_sol : list dof }.
(** [Simulator::serialize], simulator.hh:907-921, with [serializeBegin], restart.hh:102-118. *)
Definition write_all (k : kind) (g : grid) (codim : Z) (withVtk : bool) (s : state) : list ascii :=
  section_begin (cookie g) ++ section_end ++ write_simulator (s_sim s) ++
  (if withVtk then write_vtk (g_rank g) (s_vtk s) else []) ++ write_entities k codim (s_sol s).

(** ** Reading.  [None]: an exception. *)
Definition parser (A : Type) := stream -> option (A * stream).
Definition ret {A} (a : A) : parser A := fun s => Some (a, s).
Definition bind {A B} (p : parser A) (q : A -> parser B) : parser B :=
  fun s => match p s with Some (a, s') => q a s' | None => None end.
Notation "'do' x <- p ; q" := (bind p (fun x => q)) (at level 200, x name, p at level 100, q at level 200).
Definition throw {A} : parser A := fun _ => None.
Definition is_good : parser bool := fun s => Some (good s, s).
Definition p_line (old : list ascii) : parser (list ascii) := fun s => Some (getline old s).
Definition p_double (old : Q) : parser Q := fun s => Some (get_double old s).
Definition p_int (old : Z) : parser Z := fun s => Some (get_int old s).
(** [is.read(tmp, n)]: fewer characters set eof and fail (the rest of the buffer then stays
    uninitialised, here it is missing). *)
Definition p_read (n : Z) : parser (list ascii) := fun s =>
  if good s then
    if (Z.of_nat (length (st_rest s)) <? n)%Z then Some (st_rest s, mkStream [] true true)
    else Some (firstn (Z.to_nat n) (st_rest s), mkStream (skipn (Z.to_nat n) (st_rest s)) false false)
  else Some ([], mkStream (st_rest s) (st_eof s) true).

(** [deserializeSectionBegin], restart.hh:207-216. *)
Definition read_begin (c : list ascii) : parser unit :=
  do g <- is_good; if g then do l <- p_line []; if list_eq_dec Ascii.ascii_dec l c then ret tt else throw
                   else throw.
(** [deserializeSectionEnd], restart.hh:221-230. *)
Definition read_end : parser unit :=
  do l <- p_line []; if forallb is_space l then ret tt else throw.

(** simulator.hh:951-963. *)
Definition read_simulator (old : simdata) : parser simdata :=
  do _ <- read_begin (str "Simulator");
  do a <- p_int (d_epidx old); do b <- p_double (d_epstart old); do c <- p_double (d_eplen old);
  do d <- p_double (d_start old); do e <- p_double (d_time old); do f <- p_int (d_idx old);
  do _ <- read_end; ret (mkSimdata a b c d e f).

(** vtkmultiwriter.hh:442-475. *)
Definition read_vtk (rank : Z) (old : vtk) : parser vtk :=
  do _ <- read_begin (str "VTKMultiWriter");
  do n <- p_int (v_num old);
  do f <- (if (rank =? 0)%Z then
             do _ <- p_line []; do len <- p_int 0; do pos <- p_int 0; do _ <- p_line [];
             if (0 <? len)%Z then do b <- p_read len; ret (Some (b, pos)) else ret None
           else do _ <- p_line []; ret (v_file old));
  do _ <- read_end; ret (mkVtk n f).

(** The loop over the primary variables, fvbasediscretization.hh:1470-1475,
    blackoilmodel.hh:511-515. *)
Fixpoint read_vals (old : list Q) : parser (list Q) :=
  match old with
  | [] => ret []
  | x :: r => do g <- is_good; if g then do v <- p_double x; do l <- read_vals r; ret (v :: l) else throw
  end.
(** Integers one after the other (uninitialised if the extraction finds nothing: 0 here). *)
Fixpoint read_ints (n : nat) : parser (list Z) :=
  match n with
  | O => ret []
  | S n => do v <- p_int 0; do l <- read_ints n; ret (v :: l)
  end.
Definition set_nth {A} (i : nat) (a : A) (l : list A) : list A :=
  if (i <? length l)%nat then firstn i l ++ a :: skipn (S i) l else l.
Fixpoint read_extra (extra : list nat) (l : list Q) : parser (list Q) :=
  match extra with
  | [] => ret l
  | i :: r => do v <- p_double (nth i l 0); read_extra r (set_nth i v l)
  end.

(** fvbasediscretization.hh:1464-1476; pvsmodel.hh:482-496; blackoilmodel.hh:502-544. *)
Definition read_entity (k : kind) (old : dof) : parser dof :=
  match k with
  | Base => do v <- read_vals (f_vals old); ret (mkDof v (f_ints old))
  | Pvs => do v <- read_vals (f_vals old); do g <- is_good;
           if g then do z <- read_ints 1; ret (mkDof v z) else throw
  | BlackOil extra => do v <- read_vals (f_vals old); do z <- read_ints 4; do g <- is_good;
           if g then do w <- read_extra extra v; ret (mkDof w z) else throw
  end.

(** One line, and all of them: [deserializeEntities], restart.hh:237-263. *)
Definition read_line (k : kind) (old : dof) : parser dof :=
  do g <- is_good;
  if g then do l <- p_line [];
            match read_entity k old (mkStream l false false) with
            | Some (d, _) => ret d
            | None => throw
            end
  else throw.
Fixpoint read_lines (k : kind) (old : list dof) : parser (list dof) :=
  match old with
  | [] => ret []
  | d :: r => do v <- read_line k d; do l <- read_lines k r; ret (v :: l)
  end.
Definition read_entities (k : kind) (codim : Z) (old : list dof) : parser (list dof) :=
  do _ <- read_begin (str "Entities: Codim " ++ show_Z codim);
  do l <- read_lines k old; do _ <- read_end; ret l.

(** Everything up to the entities. *)
Definition read_header (g : grid) (withVtk : bool) (old : state) : parser (simdata * vtk) :=
  do _ <- read_begin (cookie g); do _ <- read_end;
  do d <- read_simulator (s_sim old);
  do v <- (if withVtk then read_vtk (g_rank g) (s_vtk old) else ret (s_vtk old));
  ret (d, v).

(** [Simulator::run] with a restart time, simulator.hh:653-665, and [deserializeBegin],
    restart.hh:176-196: a file which is missing or empty is an error.  The black-oil model
    afterwards sets the PVT regions from the problem (blackoilmodel.hh:552-573), which is
    not modelled here. *)
Definition read_all (k : kind) (g : grid) (codim : Z) (withVtk : bool) (old : state)
    (file : option (list ascii)) : option state :=
  match file with
  | None | Some [] => None
  | Some l =>
      match (do h <- read_header g withVtk old; do sol <- read_entities k codim (s_sol old);
             ret (mkState (fst h) (snd h) sol)) (mkStream l false false) with
      | Some (s, _) => Some s
      | None => None
      end
  end.
