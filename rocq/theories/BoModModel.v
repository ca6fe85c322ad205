(** * What the extension modules do to the mobilities of a black-oil cell

    Models the hooks of opm/models/blackoil/blackoilintensivequantities.hh 484-488 as far as they change mobilities:
    polymerPropertiesUpdate_ (blackoilpolymermodules.hh 894), foamPropertiesUpdate_ (blackoilfoammodules.hh 488-570),
    MICPPropertiesUpdate_ (blackoilmicpmodules.hh 512) and saltPropertiesUpdate_ (blackoilbrinemodules.hh 476-493), and
    the flux of blackoillocalresidualtpfa.hh 372-382 which reads them. The mobilities before are those of BoIqModel.v.
    Simplifications: rational values without derivatives; the factors of polymer, MICP and salt are given (their
    formulas are in BoMixModel.v); the tables of foam are arbitrary functions, one pair for each region. *)
From Coq Require Import QArith List Bool.
From Verif Require Import BoIqModel.
Open Scope Q_scope.

(** Opm::Phase as far as FOAMOPTS allows to write it down. *)
Inductive foamPhase := FoamWater | FoamGas | FoamSolvent | FoamOther.

(** BlackOilFoamParams (blackoilfoamparams.hh 55-82): the transport phase, the multipliers of each PVT region, and the
    adsorption tables, rock densities and desorption switches of each saturation region. *)
Record foamParams := {
  transport : foamPhase; multiplierTable : nat -> Q -> Q; adsorbedTable : nat -> Q -> Q;
  rockDensityOf : nat -> Q; allowDesorption : nat -> bool }.

(** What is read about the cell: regions and concentration of foam. *)
Record foamCell := { pvtRegion : nat; satRegion : nat; foamVar : Q }.

(** The modules which are compiled in; [None]: not enabled. *)
Record modules := {
  polymerM : option (Q * Q);            (* waterViscosityCorrection_, resistanceFactor *)
  foamM : option (foamParams * foamCell);
  micpM : option Q;                     (* the factor of blackoilmicpmodules.hh 512 *)
  saltM : option Q;                     (* permFactor_ *)
  solventEnabled : bool }.

(** The intensive quantities with the members of the modules. *)
Record moduleQuants := {
  base : intensive; solventMobility : Q; foamConcentration : Q; foamRockDensity : Q; foamAdsorbed : Q }.

(** mobility_[p] *= x. *)
Definition scaleBase (q : intensive) (p : phase) (x : Q) : intensive :=
  {| fluid := fluid q; mobilityArray := put (mobilityArray q) p (mobilityArray q p * x); dirMob := dirMob q;
     porosity := porosity q; ext := ext q |}.
Definition scale (m : moduleQuants) (p : phase) (x : Q) : moduleQuants :=
  {| base := scaleBase (base m) p x; solventMobility := solventMobility m; foamConcentration := foamConcentration m;
     foamRockDensity := foamRockDensity m; foamAdsorbed := foamAdsorbed m |}.

(** blackoilpolymermodules.hh 894. *)
Definition polymerUpdate (M : modules) (m : moduleQuants) : moduleQuants :=
  match polymerM M with None => m | Some (corr, res) => scale m Water (corr / res) end.

(** The three exceptions of blackoilfoammodules.hh 554, 559 and 568. *)
Inductive foamError := NoSolvent | BadTransportPhase | NoDesorption.
Inductive outcome := Done (m : moduleQuants) | Failed (e : foamError).

(** solventMobility_ *= x. *)
Definition scaleSolvent (m : moduleQuants) (x : Q) : moduleQuants :=
  {| base := base m; solventMobility := solventMobility m * x; foamConcentration := foamConcentration m;
     foamRockDensity := foamRockDensity m; foamAdsorbed := foamAdsorbed m |}.

(** blackoilfoammodules.hh 488-570. The functional model (499-531, if (false)) is never used. *)
Definition foamUpdate (M : modules) (m : moduleQuants) : outcome :=
  match foamM M with
  | None => Done m
  | Some (P, c) =>
      let x := multiplierTable P (pvtRegion c) (foamVar c) in
      let finish m :=
        if allowDesorption P (satRegion c) then
          Done {| base := base m; solventMobility := solventMobility m; foamConcentration := foamVar c;
                  foamRockDensity := rockDensityOf P (satRegion c);
                  foamAdsorbed := adsorbedTable P (satRegion c) (foamVar c) |}
        else Failed NoDesorption in
      match transport P with
      | FoamWater => finish (scale m Water x)
      | FoamGas => finish (scale m Gas x)
      | FoamSolvent => if solventEnabled M then finish (scaleSolvent m x) else Failed NoSolvent
      | FoamOther => Failed BadTransportPhase
      end
  end.

(** blackoilmicpmodules.hh 512. *)
Definition micpUpdate (M : modules) (m : moduleQuants) : moduleQuants :=
  match micpM M with None => m | Some x => scale m Water x end.

(** blackoilbrinemodules.hh 486-492. *)
Definition saltUpdate (C : config) (M : modules) (m : moduleQuants) : moduleQuants :=
  match saltM M with
  | None => m
  | Some x =>
      let m := if active C Water then scale m Water x else m in
      let m := if active C Oil then scale m Oil x else m in
      if active C Gas then scale m Gas x else m
  end.

(** blackoilintensivequantities.hh 484-488, in this order. *)
Definition modulesUpdate (C : config) (M : modules) (m : moduleQuants) : outcome :=
  match foamUpdate M (polymerUpdate M m) with
  | Failed e => Failed e
  | Done m => Done (saltUpdate C M (micpUpdate M m))
  end.

(** blackoillocalresidualtpfa.hh 372-382, the values of both branches: the volume flux of a phase over a face from the
    upstream cell; [None] is the exception of the mobility. *)
Definition darcyFlux (up : moduleQuants) (p : phase) (d : faceDir) (pressureDifference transMult trans faceArea : Q)
  : option Q :=
  match mobilityTowards (base up) p d with
  | None => None
  | Some mob => Some (pressureDifference * mob * transMult * (- trans / faceArea))
  end.
