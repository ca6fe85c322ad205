(** Specification vocabulary for options, parameter files and help text. *)
From Verif Require Import ParamModel.

(** Dashed names and the CamelCase names they stand for: [foo-bar2] is [FooBar2]. *)
Inductive CamelTail : str -> str -> Prop :=
| ct_nil : CamelTail [] []
| ct_char c s t : isalnum c = true -> CamelTail s t -> CamelTail (c :: s) (c :: t)
| ct_dash c s t : isalpha c = true -> CamelTail s t -> CamelTail (dash :: c :: s) (toupper c :: t).
Inductive Camel : str -> str -> Prop :=
| camel c s t : isalpha c = true -> CamelTail s t -> Camel (c :: s) (toupper c :: t).

(** [OptionArg arg name value]: the argument is --dashed-name=value. *)
Definition OptionArg (arg name value : str) : Prop :=
  exists key, Camel key name /\ arg = dash :: dash :: key ++ equals :: value.

(** A list of arguments that consists of options for pairwise different parameters. *)
Inductive OptionArgs : list str -> list (str * str) -> Prop :=
| oa_nil : OptionArgs [] []
| oa_cons arg name value args l :
    OptionArg arg name value -> ~ In name (map fst l) -> OptionArgs args l ->
    OptionArgs (arg :: args) ((name, value) :: l).

(** The tree [t'] is [t] with the given settings applied. *)
Definition set_to (t t' : tree) (l : list (str * str)) : Prop :=
  (forall n v, In (n, v) l -> t' n = Some v) /\
  (forall n, ~ In n (map fst l) -> t' n = t n).

(** Parameter names usable on the command line: an upper-case letter followed by
    letters and digits. *)
Definition camel_name (n : str) : Prop :=
  match n with
  | c :: r => isupper c = true /\ forallb isalnum r = true
  | [] => False
  end.

(** Lines of a parameter file. *)
Definition blank (s : str) : Prop := forallb isspace s = true.
Definition no_newline (s : str) : Prop := ~ In newline s.
Definition no_space (s : str) : Prop := forallb (fun c => negb (isspace c)) s = true.
Definition comment (s : str) : Prop :=
  match s with c :: _ => c = hash \/ c = semi | [] => False end.

(** Writing a text between quotes. *)
Definition escape_char (c : ascii) : str :=
  if ceq c newline then [backslash; "n"%char]
  else if ceq c cr then [backslash; "r"%char]
  else if ceq c tab then [backslash; "t"%char]
  else if ceq c quote then [backslash; quote]
  else if ceq c backslash then [backslash; backslash]
  else [c].
Definition quoted (v : str) : str := quote :: flat_map escape_char v ++ [quote].

(** [ValueText t v]: the text [t] of a parameter file denotes the value [v]. *)
Inductive ValueText : str -> str -> Prop :=
| vt_quoted v : ValueText (quoted v) v
| vt_plain v : v <> [] -> no_space v -> no_newline v ->
    hd_error v <> Some quote -> hd_error v <> Some hash -> hd_error v <> Some semi -> ValueText v v.

(** [Line l a]: a well formed line; [a]: the setting it makes, if any. *)
Inductive Line : str -> option (str * str) -> Prop :=
| line_blank s : blank s -> no_newline s -> Line s None
| line_comment s c : blank s -> no_newline s -> comment c -> no_newline c -> Line (s ++ c) None
| line_pair s0 key name s1 s2 vt v s3 c :
    blank s0 -> no_newline s0 -> Camel key name ->
    blank s1 -> no_newline s1 -> blank s2 -> no_newline s2 -> ValueText vt v ->
    blank s3 -> no_newline s3 ->
    (c = [] \/ (comment c /\ no_newline c /\ s3 <> [])) ->
    Line (s0 ++ key ++ s1 ++ [equals] ++ s2 ++ vt ++ s3 ++ c) (Some (name, v)).

Fixpoint settings (l : list (option (str * str))) : list (str * str) :=
  match l with
  | [] => []
  | Some p :: r => p :: settings r
  | None :: r => settings r
  end.

(** Text of a file given by its lines. *)
Fixpoint join_lines (ls : list str) : str :=
  match ls with
  | [] => []
  | [l] => l
  | l :: r => l ++ newline :: join_lines r
  end.

(** Tree after reading a file: existing settings survive unless [overwrite]. *)
Definition file_set (overwrite : bool) (t t' : tree) (l : list (str * str)) : Prop :=
  (forall n v, In (n, v) l -> t' n = if overwrite then Some v else match t n with Some w => Some w | None => Some v end) /\
  (forall n, ~ In n (map fst l) -> t' n = t n).

(** Visible characters of a text. *)
Definition visible (s : str) : str := filter (fun c => negb (isspace c)) s.
