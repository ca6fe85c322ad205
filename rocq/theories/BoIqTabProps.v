(** * C107 with the tables which are read from the deck (C110) *)
From Coq Require Import QArith List Bool Lqa.
From Verif Require Import BoIqModel BoIqSpec BoIqProofs BoIqProps ExtTabModel ExtTabSpec ExtTabProofs ExtTabProps.
Import ListNotations.
Open Scope Q_scope.

(** The functions of blackoilextbomodules.hh 476-545 (xVolume ... gasCmp) at a value of z which is in the table: there
    the two-dimensional tables of opm-common interpolate in the column of this z. Only meant for arguments z of this
    value; infinite compressibilities are 0 here. *)
Definition tablesOf (c : column) (zLim rho : Q) : extboTables :=
  let at_ (f : row -> Q) := fun p (_ : Q) => interpolate (map (fun r => (P r, f r)) (samples c)) p in
  let number (x : option Q) := match x with Some y => y | None => 0 end in
  {| tOilViscosity := at_ MUO; tGasViscosity := at_ MUG; tBo := at_ BO; tBg := at_ BG; tRs := at_ RS; tRv := at_ RV;
     tX := at_ XVOL; tY := at_ YVOL; tPbubRs := fun _ r => interpolate (pbubRs c) r; tOilCmp := fun _ => number (oilCmp c);
     tGasCmp := fun _ => number (gasCmp c); tZLim := zLim; tRefDensity := rho |}.

(** With the tables read from a deck with increasing pressures and dissolved gas which does not decrease, the oil does not
    change when the gas phase disappears, at every value of z in the table up to the limit and at all pressures of the
    rows up to the bubble point of the table. *)
Theorem C107_oil_continuous_for_decks_partial : forall C F D pv fs kr dir s rows zLim rho first last',
  extbo C = true -> dissolvedGas C = true ->
  physical rows -> (forall r, In r rows -> 0 < BO r) ->
  let z := zFractionVar pv in
  let c := readColumn z rows in
  let T := tablesOf c zLim rho in
  let po := pressure fs Oil in
  hd_error (pbubRs c) = Some first -> last (pbubRs c) first = last' -> snd first <= po -> po <= snd last' ->
  z <= zLim -> tRs T po z <= rsMax D ->
  (waterM pv = WaterSw -> waterVar pv < 999999 # 1000000) ->
  sameOil (update C F T D (withGas pv GasSg s) fs kr dir) (update C F T D (withGas pv GasRs (tRs T po z)) fs kr dir).
Proof.
  intros C F D pv fs kr dir s rows zLim rho first last' HE HD Ph Pos z c T po Hf Hl L1 L2 HZ HR HW.
  apply C107_oil_continuous_partial; try assumption.
  - intros p p' z' E. unfold T, tablesOf; cbn [tBo tBg tX tY tRv]. repeat split; apply interpolate_proper; exact E.
  - exact (C110_bubble_point z rows po Ph Pos first last' Hf Hl L1 L2).
Qed.

(** The rows of C110 at a pressure between two of them. *)
Example C107_deck_case :
  let c := readColumn (1 # 2) exRows in
  hd_error (pbubRs c) = Some (20 + 0 * (1 # 10000000000), 10) /\ snd (last (pbubRs c) (0, 0)) = 30 /\
  tRs (tablesOf c (1 # 2) 1) 15 (1 # 2) <= rsMax someCell /\
  physical exRows /\
  invB (fluid (update (allOn true true) someFluid (tablesOf c (1 # 2) 1) someCell (someVars GasSg (3 # 5) (1 # 2)) (someState 15 15) (fun _ => 1) None)) Oil == 2 # 3.
Proof.
  split; [reflexivity|]. split; [reflexivity|]. split; [vm_compute; discriminate|]. split; [apply C110_ex_physical|].
  vm_compute. reflexivity.
Qed.

Print Assumptions C107_oil_continuous_for_decks_partial.
