(** The start routine (opm/models/utils/start.hh) on top of the model of the parameter system.

    Simplifications.  The problem class is one which does not override the handling of positional
    arguments and of the help text (opm/models/discretization/common/fvbaseproblem.hh:232-281).
    Registering the parameters before the command line is read succeeds.  The conversions of
    texts to numbers are functions which may fail (they throw).  What the constructor and the
    main loop of the simulator do is one function of the parameters.  Printed values, terminal
    handling and signals are left out. *)
From Coq Require Import List Bool ZArith QArith.
Import ListNotations.
From Verif Require Import Num ParamModel.

Inductive simResult := Completes | ThrowsException | ThrowsOther.

(** One process: its command line, the files it can read, and the simulation. *)
Record proc := mkProc {
  args : list str;
  files : str -> option str;
  sim : tree -> simResult
}.

(** Is MPI compiled in, and is it initialised when [start] is called? *)
Inductive mpiMode := NoMpi | MpiReady | MpiNotReady.

(** What can be observed: the help text, the simulation with its parameters, and the end. *)
Inductive event := Usage | Ran (t : tree).
Inductive ending :=
  | Exit (status : nat)
  | Aborted            (* an MPI function is called before MPI is initialised *)
  | Blocked.           (* waits for a process that does not take part in the reduction *)

(** What [setupParameters_] does up to its return, or up to the reduction. *)
Inductive setupResult :=
  | Stop (status : Z)              (* lines 136-148 *)
  | Status (status : Z) (t : tree)
  | SetupThrows.

Section Program.
Variable registered : str -> bool.             (* names in the registry *)
Variable defaultFile : str.                    (* default values of the parameters *)
Variable defaultEnd defaultStep : Q.
Variable defaultThreads defaultPrint : Z.
Variable number : str -> option Q.             (* texts as numbers *)
Variable integer : str -> option Z.
Variable openMP : bool.

(** Parameters::Get for a registered parameter (parametersystem.hh:840-888). *)
Definition value {A} (t : tree) (name : str) (convert : str -> option A) (default : A) : option A :=
  match t name with Some text => convert text | None => Some default end.

Definition noTree : tree := fun _ => None.

(** start.hh:151-203: the parameter file and the unknown parameters. [keys]: the keys of the
    tree. *)
Definition checkKeys (keys : list str) (t : tree) : setupResult :=
  match filter (fun k => negb (registered k)) keys with
  | [] => Status 0 t
  | _ => Status 1 t
  end.

Definition readFile (p : proc) (keys : list str) (t : tree) : setupResult :=
  match value t (lit "ParameterFile") Some defaultFile with
  | None => SetupThrows
  | Some [] => checkKeys keys t
  | Some name =>
      match files p name with
      | None => Status 1 t
      | Some text =>
          match parse_lines false (lines_of text) {| fseen := []; ftree := t |} with
          | Thrown => SetupThrows
          | Ok f => checkKeys (keys ++ fseen f) (ftree f)
          end
      end
  end.

(** [setupParameters_] (start.hh:104-204) with the help text of the problem, and
    parseCommandLineOptions (parametersystem.hh:586-685). *)
Definition setup (p : proc) : list event * setupResult :=
  if existsb is_help (args p) then ([Usage], Stop (-1))
  else match cmd_loop no_positional (args p) (args p) 0 1 0 {| seen := []; ctree := noTree |} with
       | (CSuccess, c) => ([], readFile p (seen c) (ctree c))
       | (CThrow, _) => ([], SetupThrows)
       | (_, _) => ([], Stop 1)
       end.

(** [ThreadManager::init] (opm/models/parallel/threadmanager.hh:77-113): does it throw? *)
Definition threadsOk (t : tree) : bool :=
  match value t (lit "ThreadsPerProcess") integer defaultThreads with
  | None => false
  | Some n => if openMP then negb (n =? 0)%Z else ((n =? 1) || (n =? -1))%Z
  end.

(** -1e50 *)
Definition unset : Q := - (inject_Z (10 ^ 50)).

(** The rest of [start] (start.hh:301-409), given the status of [setupParameters_]. *)
Definition proceed (p : proc) (status : Z) (t : tree) : list event * ending :=
  if (status =? 1)%Z then ([], Exit 1)
  else if (status =? 2)%Z then ([], Exit 0)
  else if negb (threadsOk t) then ([], Exit 1)
  else match value t (lit "EndTime") number defaultEnd with
       | None => ([], Exit 1)
       | Some e =>
           if Qltb e unset then ([], Exit 1)
           else match value t (lit "InitialTimeStepSize") number defaultStep with
                | None => ([], Exit 1)
                | Some d =>
                    if Qltb d unset then ([], Exit 1)
                    else match value t (lit "PrintParameters") integer defaultPrint with
                         | None => ([], Exit 1)
                         | Some _ =>
                             ([Ran t], match sim p t with
                                       | Completes => Exit 0
                                       | ThrowsException => Exit 1
                                       | ThrowsOther => Exit 3
                                       end)
                         end
                end
       end.

(** [start] (start.hh:276-410) on all processes of a run.  The reduction (142-145) is executed
    only by the processes which stop there. *)
Definition stops (r : list event * setupResult) : bool :=
  match snd r with Stop _ => true | _ => false end.
Definition statusOf (r : list event * setupResult) : Z :=
  match snd r with Stop s => s | _ => 0%Z end.

Definition continue_ (mode : mpiMode) (all : list (list event * setupResult)) (p : proc)
    : list event * ending :=
  let r := setup p in
  match snd r with
  | SetupThrows => (fst r, Exit 1)
  | Status s t => let o := proceed p s t in (fst r ++ fst o, snd o)
  | Stop s =>
      match mode with
      | NoMpi => let o := proceed p s noTree in (fst r ++ fst o, snd o)
      | MpiNotReady => (fst r, Aborted)
      | MpiReady =>
          if forallb stops all
          then let o := proceed p (fold_right Z.min s (map statusOf all)) noTree in
               (fst r ++ fst o, snd o)
          else (fst r, Blocked)
      end
  end.

Definition start (mode : mpiMode) (ps : list proc) : list (list event * ending) :=
  map (continue_ mode (map setup ps)) ps.

End Program.
