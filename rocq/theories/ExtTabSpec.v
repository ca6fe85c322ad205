(** * Vocabulary for the tables of the extended black-oil module *)
From Coq Require Import QArith List Bool.
From Verif Require Import ExtTabModel.
Import ListNotations.
Open Scope Q_scope.

(** Strictly increasing formation volumes from row to row. *)
Definition growing (rows : list row) : Prop :=
  forall i r r', nth_error rows i = Some r -> nth_error rows (S i) = Some r' -> BO r < BO r'.

(** Where the first [k] rows grow, how does the table go on? *)
Inductive ending := ToTheEnd | Falls | Constant.
Definition endsWith (rows : list row) (k : nat) (e : ending) : Prop :=
  match e with
  | ToTheEnd => k = length rows
  | Falls => exists i r r', k = S i /\ nth_error rows i = Some r /\ nth_error rows k = Some r' /\ BO r' < BO r
  | Constant => exists i r r', k = S i /\ nth_error rows i = Some r /\ nth_error rows k = Some r' /\ BO r' == BO r
  end.

(** The rows with their numbers: RS and RV of row number i are increased by i times 1e-10. *)
Definition numbered (rows : list row) : list row :=
  map (fun ir => let r := snd ir in let d := inject_Z (Z.of_nat (fst ir)) * (1 # 10000000000) in
                 mkRow (P r) (BO r) (BG r) (RS r + d) (RV r + d) (XVOL r) (YVOL r) (MUO r) (MUG r))
    (combine (seq 0 (length rows)) rows).

(** Piecewise linear interpolation, for arguments from the first to the last sample (Opm::Tabulated1DFunction). *)
Fixpoint interpolate (t : list (Q * Q)) (x : Q) : Q :=
  match t with
  | [] => 0
  | [(_, y)] => y
  | (x1, y1) :: ((x2, y2) :: _) as t' =>
      if Qle_bool x x2 then y1 + (y2 - y1) * ((x - x1) / (x2 - x1)) else interpolate t' x
  end.

(** A row of the table is followed by a higher pressure and by at least as much dissolved gas. *)
Definition physical (rows : list row) : Prop :=
  forall i r r', nth_error rows i = Some r -> nth_error rows (S i) = Some r' -> P r < P r' /\ RS r <= RS r'.
