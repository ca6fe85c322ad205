(** Reading the file of predetermined time step sizes:
    opm/models/utils/simulator.hh:135-144, with the C++ formatted input it uses. *)
From Coq Require Export String Ascii.
From Coq Require Export List Bool ZArith QArith Lia.
Export ListNotations.

(** [std::isspace] in the "C" locale, used by the stream to skip white space. *)
Definition is_space (c : ascii) : bool :=
  let n := nat_of_ascii c in (n =? 32)%nat || ((9 <=? n)%nat && (n <=? 13)%nat).

Definition is_digit (c : ascii) : bool :=
  let n := nat_of_ascii c in (48 <=? n)%nat && (n <=? 57)%nat.

Definition digit_val (c : ascii) : Z := Z.of_nat (nat_of_ascii c) - 48.

(** A decimal number as written: sign, digits, optional fraction, optional exponent. *)
Record number := mkNumber {
  n_sign : option ascii;                       (* '+' or '-' *)
  n_int : list ascii;
  n_frac : option (list ascii);                (* after '.' *)
  n_exp : option (ascii * option ascii * list ascii)   (* 'e' or 'E', sign, digits *)
}.

Fixpoint digits (l : list ascii) : list ascii * list ascii :=
  match l with
  | c :: l' => if is_digit c then let '(d, r) := digits l' in (c :: d, r) else ([], l)
  | [] => ([], [])
  end.

Definition is_sign (c : ascii) : bool := Ascii.eqb c "+" || Ascii.eqb c "-".
Definition is_e (c : ascii) : bool := Ascii.eqb c "e" || Ascii.eqb c "E".

Definition take_sign (l : list ascii) : option ascii * list ascii :=
  match l with
  | c :: l' => if is_sign c then (Some c, l') else (None, l)
  | [] => (None, [])
  end.

(** The longest prefix which can belong to a number: [num_get::_M_extract_float] of the
    C++ library (sign; digits; point and digits; exponent, only after a digit). *)
Definition scan (l : list ascii) : number * list ascii :=
  let '(sg, l1) := take_sign l in
  let '(ip, l2) := digits l1 in
  let '(fr, l3) := match l2 with
                   | c :: l' => if Ascii.eqb c "." then let '(d, r) := digits l' in (Some d, r) else (None, l2)
                   | [] => (None, [])
                   end in
  let has_digit := negb (match ip with [] => true | _ => false end
                         && match fr with None | Some [] => true | _ => false end) in
  let '(ex, l4) := match l3 with
                   | c :: l' => if is_e c && has_digit then
                                  let '(s, r) := take_sign l' in
                                  let '(d, r') := digits r in (Some (c, s, d), r')
                                else (None, l3)
                   | [] => (None, [])
                   end in
  (mkNumber sg ip fr ex, l4).

Definition nat_of_digits (l : list ascii) : Z := fold_left (fun a c => a * 10 + digit_val c)%Z l 0%Z.

(** Conversion of the collected characters ([strtod]); exact, without rounding to double
    and without overflow.  [None]: not a number, extraction fails. *)
Definition frac_of (n : number) : list ascii := match n_frac n with Some d => d | None => [] end.
Definition pow10 (e : Z) : Q := Qpower (10 # 1) e.
Definition value (n : number) : option Q :=
  let ds := n_int n ++ frac_of n in
  let m := inject_Z (nat_of_digits ds) * pow10 (- Z.of_nat (length (frac_of n))) in
  let m := match n_sign n with Some c => if Ascii.eqb c "-" then - m else m | None => m end in
  match ds, n_exp n with
  | [], _ => None
  | _, None => Some m
  | _, Some (_, _, []) => None
  | _, Some (_, s, d) =>
      let e := nat_of_digits d in
      Some (m * pow10 (match s with Some c => if Ascii.eqb c "-" then (- e)%Z else e | None => e end))
  end.

(** What ends up in the vector: a number, the value 0 stored by a failed conversion, or
    the value of the uninitialised local variable [dt] (simulator.hh:140) which a stream
    that is not good leaves untouched. *)
Inductive cell := Num (q : Q) | FailZero | Uninit.

(** The input stream. *)
Record stream := mkStream { st_rest : list ascii; st_eof : bool; st_fail : bool }.

Fixpoint skip_space (l : list ascii) : list ascii :=
  match l with c :: l' => if is_space c then skip_space l' else l | [] => [] end.

(** [is >> dt], simulator.hh:141. *)
Definition extract (s : stream) : cell * stream :=
  if st_eof s || st_fail s then (Uninit, mkStream (st_rest s) (st_eof s) true)
  else match skip_space (st_rest s) with
       | [] => (Uninit, mkStream [] true true)
       | l => let '(n, r) := scan l in
              let eof := match r with [] => true | _ => false end in
              match value n with
              | Some q => (Num q, mkStream r eof false)
              | None => (FailZero, mkStream r eof true)
              end
       end.

(** [while (!is.eof()) { Scalar dt; is >> dt; forcedTimeSteps_.push_back(dt); }],
    simulator.hh:139-143, cut off after [fuel] rounds: [None] means still running. *)
Fixpoint read_loop (fuel : nat) (s : stream) (acc : list cell) : option (list cell) :=
  if st_eof s then Some acc
  else match fuel with
       | O => None
       | S f => let '(c, s') := extract s in read_loop f s' (acc ++ [c])
       end.

(** Opening the file: a file which cannot be opened sets the fail bit only. *)
Definition open_file (content : option (list ascii)) : stream :=
  match content with
  | Some l => mkStream l false false
  | None => mkStream [] false true
  end.

Definition read_steps (fuel : nat) (content : option (list ascii)) : option (list cell) :=
  read_loop fuel (open_file content) [].
