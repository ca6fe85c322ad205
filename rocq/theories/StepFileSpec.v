(** Files of numbers. *)
From Verif Require Export StepFileModel.

(** A number in the usual decimal notation. *)
Definition opt_list {A} (o : option A) : list A := match o with Some a => [a] | None => [] end.
Definition text (n : number) : list ascii :=
  opt_list (n_sign n) ++ n_int n ++
  match n_frac n with Some d => "."%char :: d | None => [] end ++
  match n_exp n with Some (e, s, d) => e :: opt_list s ++ d | None => [] end.

Definition well_formed (n : number) : Prop :=
  (forall c, n_sign n = Some c -> c = "+"%char \/ c = "-"%char) /\
  Forall (fun c => is_digit c = true) (n_int n ++ frac_of n) /\ n_int n ++ frac_of n <> [] /\
  (forall e s d, n_exp n = Some (e, s, d) ->
     (e = "e"%char \/ e = "E"%char) /\ (forall c, s = Some c -> c = "+"%char \/ c = "-"%char) /\
     Forall (fun c => is_digit c = true) d /\ d <> []).

Definition blank (l : list ascii) : Prop := Forall (fun c => is_space c = true) l.

(** A file: numbers with white space in front of them, at least one character of it
    between two numbers. *)
Definition file_text (items : list (list ascii * number)) : list ascii :=
  concat (map (fun '(w, n) => w ++ text n) items).
Definition file_ok (items : list (list ascii * number)) : Prop :=
  Forall (fun '(w, n) => blank w /\ well_formed n) items /\
  Forall (fun '(w, n) => w <> []) (tl items).

Open Scope Q_scope.
(** The usual meaning of decimal notation, place by place: a digit of the integer part
    counts ten to the number of digits behind it, a digit of the fraction is a tenth of
    what its left neighbour's place counts, and the exponent scales by powers of ten. *)
Definition digit (c : ascii) : Q :=
  match nat_of_ascii c with
  | 48%nat => 0 | 49%nat => 1 | 50%nat => 2 | 51%nat => 3 | 52%nat => 4
  | 53%nat => 5 | 54%nat => 6 | 55%nat => 7 | 56%nat => 8 | 57%nat => 9 | _ => 0
  end.
Fixpoint int_part (l : list ascii) : Q :=
  match l with [] => 0 | c :: r => digit c * Qpower 10 (Z.of_nat (length r)) + int_part r end.
Fixpoint frac_part (l : list ascii) : Q :=
  match l with [] => 0 | c :: r => (digit c + frac_part r) / 10 end.
Definition signed (s : option ascii) (q : Q) : Q :=
  match s with Some c => if Ascii.eqb c "-" then - q else q | None => q end.
Definition Zsigned (s : option ascii) (z : Z) : Z :=
  match s with Some c => if Ascii.eqb c "-" then (- z)%Z else z | None => z end.
Fixpoint int_partZ (l : list ascii) : Z :=
  match l with [] => 0 | c :: r => Qnum (digit c) * 10 ^ Z.of_nat (length r) + int_partZ r end%Z.
Definition meaning (n : number) : Q :=
  signed (n_sign n) (int_part (n_int n) + frac_part (frac_of n)) *
  Qpower 10 (match n_exp n with Some (_, s, d) => Zsigned s (int_partZ d) | None => 0%Z end).
