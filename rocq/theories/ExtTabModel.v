(** * The tables of the extended black-oil module

    Models initFromState of opm/models/blackoil/blackoilextbomodules.hh 103-252 for one PVT region: the loop over the
    columns (values of ZCO2) and rows of PVTSOL, which fills the tables, the compressibilities and zLim.
    Simplifications: rational values; the checks of the deck (105-117) and the reference density (240-250) are left out;
    a quotient with the divisor 0, infinite or not a number in C++, is [None]. The two-dimensional tables of opm-common
    are the lists of their sample points in the order in which they are appended; all of BO_, BG_, RS_, RV_, X_, Y_,
    VISCO_ and VISCG_ get their samples at the same places, so that one list of rows stands for them. *)
From Coq Require Import QArith List Bool.
Import ListNotations.
Open Scope Q_scope.

(** A row of an undersaturated table (187-195): the keywords P, B_O, B_G, RS, RV, XVOL, YVOL, MU_O and MU_G. *)
Record row := mkRow { P : Q; BO : Q; BG : Q; RS : Q; RV : Q; XVOL : Q; YVOL : Q; MUO : Q; MUG : Q }.

(** What is filled for one value of ZCO2: the samples of the eight tables, those of PBUB_RS_ and PBUB_RV_, the entries
    of oilCmp and gasCmp, and whether zLim_ has been set to this ZCO2. *)
Record column := mkColumn {
  samples : list row; pbubRs : list (Q * Q); pbubRv : list (Q * Q); oilCmp : option Q; gasCmp : option Q; setsZLim : bool }.

(** 148-149: the default values -4e-9 and -0.08. *)
Definition emptyColumn : column :=
  mkColumn [] [] [] (Some (-4 # 1000000000)) (Some (-8 # 100)) false.

(** innerIdx*1.0e-10. *)
Definition shift (i : nat) : Q := inject_Z (Z.of_nat i) * (1 # 10000000000).

(** 187-195: the values of the row [innerIdx]. *)
Definition shifted (i : nat) (r : row) : row :=
  mkRow (P r) (BO r) (BG r) (RS r + shift i) (RV r + shift i) (XVOL r) (YVOL r) (MUO r) (MUG r).

(** A division. *)
Definition quotient (a b : Q) : option Q := if Qeq_bool b 0 then None else Some (a / b).

(** 186-235: the loop over the rows from [i] on; [bo0] and [po0] are kept from the row before, 0 at the start.
    extractCmpFromPvt is true (137). *)
Fixpoint readRows (z : Q) (i : nat) (bo0 po0 : Q) (rows : list row) (c : column) : column :=
  match rows with
  | [] => c
  | r :: rest =>
      let s := shifted i r in
      if Qle_bool bo0 (BO r) then
        if Qeq_bool bo0 (BO r) then
          let g := match rest with
                   | r2 :: _ =>
                       if negb (Qle_bool 1 z) then quotient (BG r2 - BG r) (RV r2 + shift i - RV s) else gasCmp c
                   | [] => gasCmp c
                   end in
          mkColumn (samples c ++ [s]) (pbubRs c) (pbubRv c) (oilCmp c) g (setsZLim c)
        else
          readRows z (S i) (BO r) (P r) rest
            (mkColumn (samples c ++ [s]) (pbubRs c ++ [(RS s, P s)]) (pbubRv c ++ [(RV s, P s)]) (oilCmp c) (gasCmp c)
               (setsZLim c))
      else
        mkColumn (samples c) (pbubRs c) (pbubRv c) (quotient (BO r - bo0) (P r - po0)) (gasCmp c) true
  end.

(** 160-235: one column. *)
Definition readColumn (z : Q) (rows : list row) : column := readRows z 0 0 0 rows emptyColumn.

(** 150, 158-235: the loop over the columns; the result are the columns and zLim_, at the start 0.7. *)
Definition readTable (t : list (Q * list row)) : list (Q * column) * Q :=
  fold_left (fun acc zr => let c := readColumn (fst zr) (snd zr) in
                           (fst acc ++ [(fst zr, c)], if setsZLim c then fst zr else snd acc)) t ([], 7 # 10).
