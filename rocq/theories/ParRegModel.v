(** Model of the registry part of opm/models/utils/parametersystem.hh: registration,
    defaults, look-up. Text processing is in ParamModel.

    A parameter is described by its name, type and printed compile-time default. Values are
    represented by the texts from which they are converted (Get converts the default from the
    text stored in the registry, 857-875, and the run-time value from the text in the tree,
    887); [parses] tells if Dune's conversion of a run-time text succeeds (it throws
    otherwise). The conversion of default texts never throws. *)
From Verif Require Export ParamModel.

Record pdesc := { d_name : str; d_type : str; d_value : str }.
Record pinfo := { i_type : str; i_usage : str; i_default : str; i_hidden : bool }.

Record pstate := {
  is_open : bool;                       (* registrationOpen *)
  reg : str -> option pinfo;            (* registry *)
  finals : list pdesc;                  (* registrationFinalizers *)
  ptree : tree }.                       (* tree *)

(** MetaData::clear (174-180) and the initial state (188-192). *)
Definition fresh_state : pstate :=
  {| is_open := true; reg := fun _ => None; finals := []; ptree := fun _ => None |}.

Definition put_reg (r : str -> option pinfo) (n : str) (i : pinfo) : str -> option pinfo :=
  fun x => if str_eqb x n then Some i else r x.

Definition with_reg (s : pstate) r := {| is_open := is_open s; reg := r; finals := finals s; ptree := ptree s |}.

(** Register (984-1018). ParamInfo::operator== (97-103) ignores the default. *)
Definition register (d : pdesc) (usage : str) (s : pstate) : result pstate :=
  if negb (is_open s) then Thrown
  else
    let s1 := {| is_open := is_open s; reg := reg s; finals := finals s ++ [d]; ptree := ptree s |} in
    match reg s (d_name d) with
    | Some i => if str_eqb (i_type i) (d_type d) && str_eqb (i_usage i) usage then Ok s1 else Thrown
    | None => Ok (with_reg s1 (put_reg (reg s1) (d_name d)
                   {| i_type := d_type d; i_usage := usage; i_default := d_value d; i_hidden := false |}))
    end.

(** SetDefault (891-902). *)
Definition set_default (d : pdesc) (v : str) (s : pstate) : result pstate :=
  match reg s (d_name d) with
  | None => Thrown
  | Some i => Ok (with_reg s (put_reg (reg s) (d_name d)
                    {| i_type := i_type i; i_usage := i_usage i; i_default := v; i_hidden := i_hidden i |}))
  end.

(** Hide (1027-1044). *)
Definition hide (d : pdesc) (s : pstate) : result pstate :=
  if negb (is_open s) then Thrown
  else match reg s (d_name d) with
       | None => Thrown
       | Some i => Ok (with_reg s (put_reg (reg s) (d_name d)
                    {| i_type := i_type i; i_usage := i_usage i; i_default := i_default i; i_hidden := true |}))
       end.

Section Lookup.
  Variable parses : str -> str -> bool.    (* type, text *)

  (** Get (840-888). [mutableRegistry()[paramName]] (857) inserts an empty description for
      a name that is not registered. *)
  Definition get (check : bool) (d : pdesc) (s : pstate) : result (str * pstate) :=
    if check && (is_open s || match reg s (d_name d) with None => true | _ => false end) then Thrown
    else
      let i := match reg s (d_name d) with
               | Some i => i
               | None => {| i_type := []; i_usage := []; i_default := []; i_hidden := false |}
               end in
      let s1 := with_reg s (put_reg (reg s) (d_name d) i) in
      match ptree s (d_name d) with
      | Some text => if parses (d_type d) text then Ok (text, s1) else Thrown
      | None => Ok (i_default i, s1)
      end.

  (** endRegistration (1052-1067); the flag is cleared even if a retrieval throws. *)
  Fixpoint retrieve_all (l : list pdesc) (s : pstate) : result pstate :=
    match l with
    | [] => Ok s
    | d :: r => match get true d s with Ok (_, s1) => retrieve_all r s1 | Thrown => Thrown end
    end.
  Definition end_registration (s : pstate) : result pstate :=
    if negb (is_open s) then Thrown
    else
      let s1 := {| is_open := false; reg := reg s; finals := finals s; ptree := ptree s |} in
      match retrieve_all (finals s) s1 with
      | Ok s2 => Ok {| is_open := false; reg := reg s2; finals := []; ptree := ptree s2 |}
      | Thrown => Thrown
      end.

  (** IsSet (948-967). *)
  Definition is_set (check : bool) (d : pdesc) (s : pstate) : result bool :=
    if check && (is_open s || match reg s (d_name d) with None => true | _ => false end) then Thrown
    else Ok (match ptree s (d_name d) with Some _ => true | None => false end).

  (** Operations of the program that uses the parameter system. Parsing a command line or a
      file is represented by the settings it makes (see ParamModel). *)
  Inductive pop :=
  | ORegister (d : pdesc) (usage : str)
  | OSetDefault (d : pdesc) (v : str)
  | OHide (d : pdesc)
  | OEnd
  | OCmdLine (l : list (str * str))
  | OFile (overwrite : bool) (l : list (str * str))
  | OGet (check : bool) (d : pdesc).

  Definition with_tree (s : pstate) t := {| is_open := is_open s; reg := reg s; finals := finals s; ptree := t |}.

  Definition apply_op (o : pop) (s : pstate) : result pstate :=
    match o with
    | ORegister d u => register d u s
    | OSetDefault d v => set_default d v s
    | OHide d => hide d s
    | OEnd => end_registration s
    | OCmdLine l => Ok (with_tree s (fold_left (fun t p => put t (fst p) (snd p)) l (ptree s)))
    | OFile ov l => Ok (with_tree s (fold_left
                     (fun t p => if ov || match t (fst p) with None => true | _ => false end
                                 then put t (fst p) (snd p) else t) l (ptree s)))
    | OGet c d => match get c d s with Ok (_, s1) => Ok s1 | Thrown => Thrown end
    end.

  Fixpoint run_ops (l : list pop) (s : pstate) : result pstate :=
    match l with
    | [] => Ok s
    | o :: r => match apply_op o s with Ok s1 => run_ops r s1 | Thrown => Thrown end
    end.
End Lookup.

(** getLists (910-934): is a run-time setting unknown to the registry? *)
Definition unused (s : pstate) (keys : list str) : list str :=
  filter (fun k => match reg s k with None => true | _ => false end) keys.
