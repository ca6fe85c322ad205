(** Model of the text processing part of opm/models/utils/parametersystem.hh:
    command line options, parameter files, help text.

    Strings are lists of characters. The character classes are those of the "C"
    locale; bytes above 127 belong to no class (C++: passing a negative [char] to
    [std::isspace] and friends is undefined). The parameter tree is a finite map
    from names to texts; since option names are alphanumeric, Dune's sub-tree
    separator never occurs in them. *)
From Coq Require Export String Ascii.
From Coq Require Export List Arith NArith Lia Bool.
Export ListNotations.
Open Scope list_scope.

Definition str := list ascii.
Definition lit (s : string) : str := list_ascii_of_string s.

(** <cctype> in the C locale. *)
Definition code (c : ascii) : N := N_of_ascii c.
Definition isupper (c : ascii) : bool := (N.leb 65 (code c) && N.leb (code c) 90)%N.
Definition islower (c : ascii) : bool := (N.leb 97 (code c) && N.leb (code c) 122)%N.
Definition isdigit (c : ascii) : bool := (N.leb 48 (code c) && N.leb (code c) 57)%N.
Definition isalpha (c : ascii) : bool := isupper c || islower c.
Definition isalnum (c : ascii) : bool := isalpha c || isdigit c.
Definition isspace (c : ascii) : bool := (N.eqb (code c) 32 || (N.leb 9 (code c) && N.leb (code c) 13))%N.
Definition toupper (c : ascii) : ascii := if islower c then ascii_of_N (code c - 32) else c.
Definition tolower (c : ascii) : ascii := if isupper c then ascii_of_N (code c + 32) else c.

Definition dash : ascii := "-".
Definition equals : ascii := "=".
Definition quote : ascii := ascii_of_nat 34.
Definition backslash : ascii := "\".
Definition newline : ascii := ascii_of_nat 10.
Definition cr : ascii := ascii_of_nat 13.
Definition tab : ascii := ascii_of_nat 9.
Definition hash : ascii := "#".
Definition semi : ascii := ";".
Definition ceq (a b : ascii) : bool := Ascii.eqb a b.

(** Ways in which the parsers end. [Thrown]: a C++ exception left the function. *)
Inductive result (A : Type) := Ok (a : A) | Thrown.
Arguments Ok {A}. Arguments Thrown {A}.

(** removeLeadingSpace_ (466-473). *)
Fixpoint remove_leading_space (s : str) : str :=
  match s with
  | c :: r => if isspace c then remove_leading_space r else s
  | [] => []
  end.

(** transformKey_ (475-506) behind the first character. *)
Fixpoint transform_tail (s : str) : result str :=
  match s with
  | [] => Ok []
  | c :: r =>
      if ceq c dash then
        match r with
        | [] => Thrown
        | d :: r' =>
            if isalpha d
            then match transform_tail r' with Ok t => Ok (toupper d :: t) | Thrown => Thrown end
            else Thrown
        end
      else if isalnum c
      then match transform_tail r with Ok t => Ok (c :: t) | Thrown => Thrown end
      else Thrown
  end.

(** transformKey_ with capitalizeFirstLetter = true (the only value it is called with). *)
Definition transform_key (s : str) : result str :=
  match s with
  | [] => Thrown
  | c :: r =>
      if isalpha c
      then match transform_tail r with Ok t => Ok (toupper c :: t) | Thrown => Thrown end
      else Thrown
  end.

(** parseKey_ (508-518): the key and the remaining text. *)
Fixpoint parse_key (s : str) : str * str :=
  match s with
  | [] => ([], [])
  | c :: r => if isspace c || ceq c equals then ([], s)
              else let '(k, t) := parse_key r in (c :: k, t)
  end.

(** parseQuotedValue_ (521-556) behind the opening quote. A missing closing quote
    makes [s.substr(i+1)] (554) throw std::out_of_range. *)
Definition unescape (c : ascii) : option ascii :=
  if ceq c "n" then Some newline
  else if ceq c "r" then Some cr
  else if ceq c "t" then Some tab
  else if ceq c quote then Some quote
  else if ceq c backslash then Some backslash
  else None.
Fixpoint parse_quoted_tail (s : str) : result (str * str) :=
  match s with
  | [] => Thrown
  | c :: r =>
      if ceq c backslash then
        match r with
        | [] => Thrown
        | d :: r' => match unescape d with
                     | Some e => match parse_quoted_tail r' with
                                 | Ok (v, t) => Ok (e :: v, t) | Thrown => Thrown end
                     | None => Thrown
                     end
        end
      else if ceq c quote then Ok ([], r)
      else match parse_quoted_tail r with Ok (v, t) => Ok (c :: v, t) | Thrown => Thrown end
  end.
Definition parse_quoted (s : str) : result (str * str) :=
  match s with
  | c :: r => if ceq c quote then parse_quoted_tail r else Thrown
  | [] => Thrown
  end.

(** parseUnquotedValue_ (558-569). *)
Fixpoint parse_unquoted (s : str) : str * str :=
  match s with
  | [] => ([], [])
  | c :: r => if isspace c then ([], s) else let '(v, t) := parse_unquoted r in (c :: v, t)
  end.

(** Finite maps and sets of names. *)
Definition str_eqb (a b : str) : bool := if list_eq_dec ascii_dec a b then true else false.
Definition tree := str -> option str.
Definition put (t : tree) (k v : str) : tree := fun x => if str_eqb x k then Some v else t x.
Definition seen_in (k : str) (l : list str) : bool := existsb (str_eqb k) l.

(** State of the command line parser: the keys seen and the parameter tree. *)
Record cstate := { seen : list str; ctree : tree }.

(** Result of parseCommandLineOptions: the empty string, an error message, or an
    exception (thrown by transformKey_). *)
Inductive cmdres := CSuccess | CError | CHelp | CThrow.

(** One option argument (635-681). *)
Definition parse_option (arg : str) (c : cstate) : cmdres * cstate :=
  match skipn 2 arg with
  | [] => (CError, c)
  | x :: _ =>
      if negb (isalpha x) then (CError, c)                                   (* 637-648 *)
      else
        let '(k, rest) := parse_key (skipn 2 arg) in
        match transform_key k with
        | Thrown => (CThrow, c)
        | Ok name =>
            if seen_in name (seen c) then (CError, c)                        (* 655-663 *)
            else
              let c1 := {| seen := name :: seen c; ctree := ctree c |} in    (* 664 *)
              match rest with
              | y :: value => if ceq y equals
                              then (CSuccess, {| seen := seen c1; ctree := put (ctree c1) name value |})
                              else (CError, c1)                              (* 666-674 *)
              | [] => (CError, c1)
              end
        end
  end.

(** Arguments that are passed to the positional argument callback (610-612). *)
Definition is_positional (arg : str) : bool :=
  Nat.ltb (length arg) 4
  || negb (match arg with a :: b :: _ => ceq a dash && ceq b dash | _ => false end).

Section Cmd.
  (** The positional argument callback: number of handled arguments (0: error) and
      changed state. Arguments: state, all arguments, index, positional arguments so far. *)
  Variable callback : cstate -> list str -> nat -> nat -> nat * cstate.
  Variable args : list str.          (* argv[1 ..] *)

  (** The loop of parseCommandLineOptions (607-683); [skip]: arguments already
      consumed by the callback, [i]: index of the head of [rest]. *)
  Fixpoint cmd_loop (rest : list str) (skip i npos : nat) (c : cstate) : cmdres * cstate :=
    match rest with
    | [] => (CSuccess, c)
    | a :: r =>
        match skip with
        | S k => cmd_loop r k (S i) npos c
        | O =>
            if is_positional a then
              let '(h, c') := callback c args i npos in
              match h with
              | O => (CError, c')
              | S k => cmd_loop r k (S i) (S npos) c'
              end
            else
              match parse_option a c with
              | (CSuccess, c') => cmd_loop r 0 (S i) npos c'
              | bad => bad
              end
        end
    end.
End Cmd.

(** The --help scan (591-603), performed only if a preamble is given. *)
Definition is_help (a : str) : bool :=
  str_eqb a (lit "-h") || str_eqb a (lit "--help") || str_eqb a (lit "--help-all").

(** parseCommandLineOptions (587-685). *)
Definition parse_cmdline (callback : cstate -> list str -> nat -> nat -> nat * cstate)
    (preamble : bool) (args : list str) (t : tree) : cmdres * tree :=
  if preamble && existsb is_help args then (CHelp, t)
  else let '(r, c) := cmd_loop callback args args 0 1 0 {| seen := []; ctree := t |} in (r, ctree c).

(** noPositionalParameters_ (452-461). *)
Definition no_positional (c : cstate) (args : list str) (i npos : nat) : nat * cstate := (0, c).

(** printParamUsage_ (294-300): the option shown in the help for a parameter name. *)
Fixpoint kebab (name : str) : str :=
  match name with
  | [] => []
  | c :: r => if isupper c then dash :: tolower c :: kebab r else tolower c :: kebab r
  end.
Definition cmdline_name (name : str) : str := dash :: kebab name.

(** One line of a parameter file (697-748). The three [std::runtime_error(...)]
    expressions at 725, 731 and 743 construct an exception object but do not throw it. *)
Record fstate := { fseen : list str; ftree : tree }.

Definition parse_line (overwrite : bool) (line : str) (f : fstate) : result fstate :=
  let l0 := remove_leading_space line in                              (* 705 *)
  match l0 with
  | [] => Ok f
  | c :: _ =>
      if ceq c hash || ceq c semi then Ok f                           (* 708-709 *)
      else
        let '(key, l1) := parse_key l0 in                             (* 714 *)
        match transform_key key with
        | Thrown => Thrown
        | Ok name =>
            if seen_in name (fseen f) then Thrown                     (* 717-718 *)
            else
              match remove_leading_space l1 with                      (* 722 *)
              | [] => Thrown                                          (* 726: substr(1) of "" *)
              | _ :: l2 =>                                            (* 724-726 *)
                  let l3 := remove_leading_space l2 in                (* 727 *)
                  let v :=
                    match l3 with
                    | c :: _ => if ceq c quote then parse_quoted l3 else Ok (parse_unquoted l3)
                    | [] => Ok ([], [])
                    end in                                            (* 733-738 *)
                  match v with
                  | Thrown => Thrown
                  | Ok (value, _) =>                                  (* 740-743: no effect *)
                      Ok {| fseen := name :: fseen f;
                            ftree := if overwrite || match ftree f name with None => true | _ => false end
                                     then put (ftree f) name value else ftree f |}
                  end
              end
        end
  end.

(** std::getline: the lines of a text. *)
Fixpoint lines_of (text : str) : list str :=
  match text with
  | [] => [[]]
  | c :: r => if ceq c newline then [] :: lines_of r
              else match lines_of r with
                   | l :: ls => (c :: l) :: ls
                   | [] => [[c]]
                   end
  end.

Fixpoint parse_lines (overwrite : bool) (ls : list str) (f : fstate) : result fstate :=
  match ls with
  | [] => Ok f
  | l :: r => match parse_line overwrite l f with Ok f' => parse_lines overwrite r f' | Thrown => Thrown end
  end.

(** parseParameterFile (693-750); [None]: the file cannot be opened, the loop is not entered. *)
Definition parse_file (overwrite : bool) (content : option str) (t : tree) : result tree :=
  match content with
  | None => Ok t
  | Some text =>
      match parse_lines overwrite (lines_of text) {| fseen := []; ftree := t |} with
      | Ok f => Ok (ftree f)
      | Thrown => Thrown
      end
  end.

(** breakLines_ (220-267). [substr]: None means std::out_of_range. *)
Definition substr (s : str) (pos len : nat) : option str :=
  if Nat.ltb (length s) pos then None else Some (firstn len (skipn pos s)).
Definition substr_end (s : str) (pos : nat) : option str :=
  if Nat.ltb (length s) pos then None else Some (skipn pos s).

Record bst := { b_out : str; b_start : nat; b_in : nat; b_last : nat; b_tty : nat }.

Section Break.
  Variable msg : str.
  Variable indentWidth maxWidth : nat.

  Inductive bres := BNext (b : bst) | BThrow.

  (** One iteration of the loop at position [b_in b] (229-262), including the
      increments of the loop header. Lengths passed to substr are never negative
      when the position is valid except where [lastBreakPos] is ahead of the text. *)
  Definition break_step (b : bst) : bres :=
    let i := b_in b in
    let c := nth i msg "000"%char in
    if ceq c newline then
      match substr msg (b_start b) (i - b_start b + 1) with
      | None => BThrow
      | Some p => BNext {| b_out := b_out b ++ p; b_start := i + 1; b_in := i + 1;
                           b_last := i + 2; b_tty := 0 |}
      end
    else
      let last := if isspace c then i else b_last b in
      if Nat.leb maxWidth (b_tty b) then
        let pad := newline :: repeat " "%char indentWidth in
        if Nat.ltb (b_start b) last then
          match substr msg (b_start b) (last - b_start b) with
          | None => BThrow
          | Some p => BNext {| b_out := b_out b ++ p ++ pad; b_start := last + 1; b_in := last + 2;
                               b_last := last + 1; b_tty := indentWidth + 1 |}
          end
        else
          match substr msg (b_start b) (i - b_start b) with
          | None => BThrow
          | Some p => BNext {| b_out := b_out b ++ p ++ pad; b_start := i; b_in := i + 1;
                               b_last := i; b_tty := indentWidth + 1 |}
          end
      else BNext {| b_out := b_out b; b_start := b_start b; b_in := i + 1; b_last := last;
                    b_tty := b_tty b + 1 |}.

  (** The loop; [None]: not finished within the given number of iterations. *)
  Fixpoint break_loop (fuel : nat) (b : bst) : option (result str) :=
    if Nat.ltb (b_in b) (length msg) then
      match fuel with
      | O => None
      | S f => match break_step b with BNext b' => break_loop f b' | BThrow => Some Thrown end
      end
    else match substr_end msg (b_start b) with
         | None => Some Thrown
         | Some p => Some (Ok (b_out b ++ p))
         end.

  Definition break_lines (fuel : nat) : option (result str) :=
    break_loop fuel {| b_out := []; b_start := 0; b_in := 0; b_last := 0; b_tty := 0 |}.
End Break.
