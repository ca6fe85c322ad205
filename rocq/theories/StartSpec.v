(** Vocabulary for the start routine: which parameters are acceptable. *)
From Coq Require Import List Bool ZArith QArith.
Import ListNotations.
From Verif Require Import Num ParamModel ParamSpec StartModel.

Section Spec.
Variable registered : str -> bool.
Variable defaultFile : str.
Variable defaultEnd defaultStep : Q.
Variable defaultThreads defaultPrint : Z.
Variable number : str -> option Q.
Variable integer : str -> option Z.
Variable openMP : bool.

(** Help is asked for. *)
Definition asksForHelp (p : proc) : Prop :=
  In (lit "-h") (args p) \/ In (lit "--help") (args p) \/ In (lit "--help-all") (args p).

(** The parameters a process ends up with: the options of its command line, and the settings of
    the parameter file, if one is given, where the command line says nothing. *)
Definition parametersOf (p : proc) (t : tree) : Prop :=
  exists l c, OptionArgs (args p) l /\ set_to (fun _ => None) c l /\
    let file := match c (lit "ParameterFile") with Some f => f | None => defaultFile end in
    (file = [] /\ (forall k, t k = c k) \/
     file <> [] /\ exists text t', files p file = Some text /\ parse_file false (Some text) c = Ok t' /\
                                   (forall k, t k = t' k)).

(** The values the start routine needs. *)
Definition usableTime (t : tree) (name : str) (default : Q) : Prop :=
  exists x, (match t name with Some text => number text | None => Some default end) = Some x /\
            (- inject_Z (10 ^ 50) <= x)%Q.
Definition usableInt (t : tree) (name : str) (default : Z) (P : Z -> Prop) : Prop :=
  exists n, (match t name with Some text => integer text | None => Some default end) = Some n /\ P n.

Definition usableValues (t : tree) : Prop :=
  usableInt t (lit "ThreadsPerProcess") defaultThreads
    (fun n => if openMP then n <> 0%Z else n = 1%Z \/ n = (-1)%Z) /\
  usableTime t (lit "EndTime") defaultEnd /\
  usableTime t (lit "InitialTimeStepSize") defaultStep /\
  usableInt t (lit "PrintParameters") defaultPrint (fun _ => True).

(** Everything is known and usable. *)
Definition acceptable (p : proc) (t : tree) : Prop :=
  parametersOf p t /\ (forall k, t k <> None -> registered k = true) /\ usableValues t.

(** The exit status of a simulation. *)
Definition exitOf (r : simResult) : nat :=
  match r with Completes => 0 | ThrowsException => 1 | ThrowsOther => 3 end.

(** The simulation was run. *)
Definition ran (o : list event * ending) : Prop := exists t, In (Ran t) (fst o).
End Spec.
