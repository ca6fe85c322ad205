(** Formatted output and input of numbers by the C++ streams which restart files,
    visualization files and file names go through: [os << x] with a precision
    ([printf]'s %.<p>g), [is >> x] ([strtod]) and their integer versions.  [double]s are
    rationals; overflow to infinity, the negative zero and locales are not modelled. *)
From Verif Require Export StepFileModel.
From Coq Require Export Qround Qabs.
Open Scope Q_scope.

Definition bpow (b e : Z) : Q := Qpower (inject_Z b) e.

(** Integer logarithm of [n >= 1]. *)
Fixpoint zlog_fuel (f : nat) (b n : Z) : Z :=
  match f with
  | O => 0
  | S f => if n <? b then 0 else 1 + zlog_fuel f b (n / b)
  end%Z.
Definition zlog (b n : Z) : Z := zlog_fuel (Z.to_nat (Z.log2 n + 1)) b n.

(** The exponent of a positive number in base [b]. *)
Definition flog (b : Z) (q : Q) : Z :=
  let e := (zlog b (Qnum q) - zlog b (Zpos (Qden q)))%Z in
  if Qle_bool (bpow b e) q then e else (e - 1)%Z.

(** Round to the nearest integer, ties to even: the default rounding mode, in both
    conversions. *)
Definition rndeven (q : Q) : Z :=
  let f := Qfloor q in
  let r := q - inject_Z f in
  match Qcompare r (1 # 2) with
  | Lt => f
  | Gt => (f + 1)%Z
  | Eq => if Z.even f then f else (f + 1)%Z
  end.

(** Conversion of a decimal number to [double]. *)
Definition round64 (q : Q) : Q :=
  if Qeq_bool q 0 then 0
  else let e := Z.max (-1074) (flog 2 (Qabs q) - 52) in
       inject_Z (rndeven (q / bpow 2 e)) * bpow 2 e.

(** [p] significant decimal digits [D] and the decimal exponent [E] of a positive number. *)
Definition dec (p : nat) (q : Q) : Z * Z :=
  let E := flog 10 q in
  let D := rndeven (q / bpow 10 (E - Z.of_nat p + 1)) in
  if (D =? 10 ^ Z.of_nat p)%Z then (10 ^ (Z.of_nat p - 1), E + 1)%Z else (D, E).

(** Decimal digits of an integer. *)
Definition dig (k : Z) : ascii := ascii_of_nat (48 + Z.to_nat k).
Fixpoint digs (n : nat) (v : Z) : list ascii :=
  match n with O => [] | S n => digs n (v / 10) ++ [dig (v mod 10)] end.
Definition ndigits (v : Z) : nat := S (Z.to_nat (zlog 10 v)).
Definition show_nat (v : Z) : list ascii := digs (ndigits v) v.
Definition show_Z (v : Z) : list ascii := if (v <? 0)%Z then "-"%char :: show_nat (- v) else show_nat v.

(** %g drops trailing zeros of the fraction. *)
Fixpoint strip (l : list ascii) : list ascii :=
  match l with
  | [] => []
  | c :: r => match strip r with
              | [] => if Ascii.eqb c "0" then [] else [c]
              | s => c :: s
              end
  end.
Definition opt_frac (l : list ascii) : option (list ascii) := match l with [] => None | _ => Some l end.

(** [os.precision(p); os << x]: fixed notation for exponents from -4 to p-1, scientific
    notation with at least two digits of exponent otherwise. *)
Definition fmt_g (p : nat) (x : Q) : number :=
  if Qeq_bool x 0 then mkNumber None ["0"%char] None None
  else
    let s := if Qle_bool 0 x then None else Some "-"%char in
    let '(D, E) := dec p (Qabs x) in
    let ds := digs p D in
    if (-4 <=? E)%Z && (E <? Z.of_nat p)%Z then
      if (0 <=? E)%Z
      then mkNumber s (firstn (S (Z.to_nat E)) ds) (opt_frac (strip (skipn (S (Z.to_nat E)) ds))) None
      else mkNumber s ["0"%char] (opt_frac (repeat "0"%char (Z.to_nat (- E - 1)) ++ strip ds)) None
    else
      mkNumber s (firstn 1 ds) (opt_frac (strip (skipn 1 ds)))
        (Some ("e"%char, Some (if (E <? 0)%Z then "-" else "+")%char,
               digs (Nat.max 2 (ndigits (Z.abs E))) (Z.abs E))).

(** The characters of a number. *)
Definition chars (n : number) : list ascii :=
  match n_sign n with Some c => [c] | None => [] end ++ n_int n ++
  match n_frac n with Some d => "."%char :: d | None => [] end ++
  match n_exp n with Some (e, s, d) => e :: match s with Some c => [c] | None => [] end ++ d | None => [] end.
Definition print_g (p : nat) (x : Q) : list ascii := chars (fmt_g p x).

(** [is >> x] for a [double] which holds [old]: an extraction which finds nothing leaves the
    variable alone, a failed conversion stores 0 ([StepFileModel.extract]). *)
Definition get_double (old : Q) (s : stream) : Q * stream :=
  let '(c, s') := extract s in
  (match c with Num q => round64 q | FailZero => 0 | Uninit => old end, s').

(** [is >> i] for an integer which holds [old]. *)
Definition get_int (old : Z) (s : stream) : Z * stream :=
  if st_eof s || st_fail s then (old, mkStream (st_rest s) (st_eof s) true)
  else match skip_space (st_rest s) with
       | [] => (old, mkStream [] true true)
       | l => let '(sg, l1) := take_sign l in
              let '(d, r) := digits l1 in
              let eof := match r with [] => true | _ => false end in
              match d with
              | [] => (0%Z, mkStream r eof true)
              | _ => (match sg with
                      | Some c => if Ascii.eqb c "-" then (- nat_of_digits d)%Z else nat_of_digits d
                      | None => nat_of_digits d
                      end, mkStream r eof false)
              end
       end.

(** [std::getline(is, line)] for a [line] which holds [old]: a stream which is not good
    fails and leaves the string alone. *)
Fixpoint upto_newline (l : list ascii) : list ascii * option (list ascii) :=
  match l with
  | [] => ([], None)
  | c :: r => if Ascii.eqb c "010" then ([], Some r)
              else let '(a, b) := upto_newline r in (c :: a, b)
  end.
Definition getline (old : list ascii) (s : stream) : list ascii * stream :=
  if st_eof s || st_fail s then (old, mkStream (st_rest s) (st_eof s) true)
  else match upto_newline (st_rest s) with
       | (a, Some r) => (a, mkStream r false false)
       | (a, None) => (a, mkStream [] true (match a with [] => true | _ => false end))
       end.

Definition good (s : stream) : bool := negb (st_eof s) && negb (st_fail s).
