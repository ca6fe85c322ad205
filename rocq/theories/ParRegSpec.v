(** Specification vocabulary for parameter look-up: what a history of operations says
    about one parameter name. *)
From Verif Require Import ParamModel ParRegModel.

(** Last setting of a name in a list of settings. *)
Fixpoint last_value (n : str) (l : list (str * str)) : option str :=
  match l with
  | [] => None
  | (k, v) :: r => match last_value n r with
                   | Some w => Some w
                   | None => if str_eqb n k then Some v else None
                   end
  end.
(** First setting of a name. *)
Fixpoint first_value (n : str) (l : list (str * str)) : option str :=
  match l with
  | [] => None
  | (k, v) :: r => if str_eqb n k then Some v else first_value n r
  end.

(** All settings made on command lines, in files, and the defaults, in order of time. *)
Fixpoint cmdline_settings (h : list pop) : list (str * str) :=
  match h with OCmdLine l :: r => l ++ cmdline_settings r | _ :: r => cmdline_settings r | [] => [] end.
Fixpoint file_settings (h : list pop) : list (str * str) :=
  match h with OFile _ l :: r => l ++ file_settings r | _ :: r => file_settings r | [] => [] end.
Fixpoint defaults (h : list pop) : list (str * str) :=
  match h with OSetDefault d v :: r => (d_name d, v) :: defaults r | _ :: r => defaults r | [] => [] end.
Fixpoint registrations (h : list pop) : list (str * str) :=
  match h with ORegister d _ :: r => (d_name d, d_value d) :: registrations r
             | _ :: r => registrations r | [] => [] end.

Definition or_else (a b : option str) : option str := match a with Some _ => a | None => b end.

(** Documented precedence: command line, parameter file, default set by code, compile-time default. *)
Definition precedence (n : str) (h : list pop) : option str :=
  or_else (last_value n (cmdline_settings h))
 (or_else (first_value n (file_settings h))
 (or_else (last_value n (defaults h))
          (first_value n (registrations h)))).

(** Histories in which files never override (as start() does) and unchecked look-ups only
    concern registered parameters. *)
Definition file_keeps (o : pop) : Prop := match o with OFile ov _ => ov = false | _ => True end.
Definition checked_gets (o : pop) : Prop := match o with OGet c _ => c = true | _ => True end.
