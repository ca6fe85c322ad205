(** * The second half of the update of the black-oil intensive quantities

    Models opm/models/blackoil/blackoilintensivequantities.hh 299-483 (from the compositions of the phases to the
    porosity) and 527-551 (the mobilities), opm/models/blackoil/blackoilextbomodules.hh 589-676 (zFractionUpdate_ and
    zPvtUpdate_), opm/models/common/directionalmobility.hh 38-66 and computeStorage of
    opm/models/blackoil/blackoillocalresidual.hh 102-166 with adaptMassConservationQuantities_ (341-367).
    The first half (205-295, saturations, pressures and relative permeabilities) is BoVarsModel.v.

    Simplifications, for the whole file: values are rational numbers without rounding and without derivatives; the
    division by a viscosity of 0 gives 0 here and an infinite value in C++; the PVT region is fixed; the fluid system,
    the tables of the extended black-oil module and the problem are arbitrary functions. The hooks of the solvent,
    polymer, foam, energy, MICP and brine modules (296-297, 482-489) are left out except for what 467-478 write into the
    porosity. *)
From Coq Require Import QArith List Bool Qminmax.
Import ListNotations.
Open Scope Q_scope.

(** waterPhaseIdx, oilPhaseIdx, gasPhaseIdx of the fluid system, in the order of their indices 0, 1, 2; every phase
    has its own main component (solventComponentIndex), so that the same type names the components. *)
Inductive phase := Water | Oil | Gas.

(** Comparison of phase indices (blackoilintensivequantities.hh 381-384). *)
Definition phaseEqb (a b : phase) : bool :=
  match a, b with Water, Water => true | Oil, Oil => true | Gas, Gas => true | _, _ => false end.

(** An assignment to one entry of an array over the phases. *)
Definition put (f : phase -> Q) (p : phase) (v : Q) : phase -> Q := fun q => if phaseEqb p q then v else f q.

(** The switches: FluidSystem::phaseIsActive, enableDissolvedGas, enableDissolvedGasInWater, enableVaporizedOil,
    enableVaporizedWater, and the properties EnableExtbo, compositionSwitchEnabled, enableMICP and
    enableSaltPrecipitation and blackoilConserveSurfaceVolume. *)
Record config := {
  active : phase -> bool;
  dissolvedGas : bool; dissolvedGasInWater : bool; vaporizedOil : bool; vaporizedWater : bool;
  extbo : bool; compositionSwitch : bool; micp : bool; saltPrecipitation : bool; conserveSurfaceVolume : bool }.

(** blackoilprimaryvariables.hh: the meanings of the switching variables. *)
Inductive gasMeaning := GasSg | GasRs | GasRv | GasDisabled.
Inductive waterMeaning := WaterSw | WaterRvw | WaterRsw | WaterDisabled.

(** The primary variables which this part of the update reads. [saltIsSp]: primaryVarsMeaningBrine() == Sp. *)
Record priVars := {
  gasM : gasMeaning; waterM : waterMeaning;
  compositionVar : Q; waterVar : Q; zFractionVar : Q; saltIsSp : bool; saltVar : Q; biofilmVar : Q; calciteVar : Q }.

(** The part of the fluid state which is read or written. *)
Record fluidState := {
  saturation : phase -> Q; pressure : phase -> Q;
  Rs : Q; Rv : Q; Rvw : Q; Rsw : Q; invB : phase -> Q; density : phase -> Q }.

(** Setters of the fluid state. *)
Definition setRs (fs : fluidState) (x : Q) :=
  {| saturation := saturation fs; pressure := pressure fs; Rs := x; Rv := Rv fs; Rvw := Rvw fs; Rsw := Rsw fs;
     invB := invB fs; density := density fs |}.
Definition setRv (fs : fluidState) (x : Q) :=
  {| saturation := saturation fs; pressure := pressure fs; Rs := Rs fs; Rv := x; Rvw := Rvw fs; Rsw := Rsw fs;
     invB := invB fs; density := density fs |}.
Definition setRvw (fs : fluidState) (x : Q) :=
  {| saturation := saturation fs; pressure := pressure fs; Rs := Rs fs; Rv := Rv fs; Rvw := x; Rsw := Rsw fs;
     invB := invB fs; density := density fs |}.
Definition setRsw (fs : fluidState) (x : Q) :=
  {| saturation := saturation fs; pressure := pressure fs; Rs := Rs fs; Rv := Rv fs; Rvw := Rvw fs; Rsw := x;
     invB := invB fs; density := density fs |}.
Definition setInvB (fs : fluidState) (p : phase) (x : Q) :=
  {| saturation := saturation fs; pressure := pressure fs; Rs := Rs fs; Rv := Rv fs; Rvw := Rvw fs; Rsw := Rsw fs;
     invB := put (invB fs) p x; density := density fs |}.
Definition setDensity (fs : fluidState) (p : phase) (x : Q) :=
  {| saturation := saturation fs; pressure := pressure fs; Rs := Rs fs; Rv := Rv fs; Rvw := Rvw fs; Rsw := Rsw fs;
     invB := invB fs; density := put (density fs) p x |}.

(** The fluid system: saturatedDissolutionFactor (with the maximal oil saturation; the version for water ignores it),
    saturatedVaporizationFactor, inverseFormationVolumeFactor, viscosity and referenceDensity of the region. *)
Record fluidSystem := {
  satDissolution : fluidState -> phase -> Q -> Q;
  satVaporization : fluidState -> Q;
  invFormationVolume : fluidState -> phase -> Q;
  viscosity : fluidState -> phase -> Q;
  refDensity : phase -> Q }.

(** The tables of the extended black-oil module for the region (blackoilextbomodules.hh 477-544): arguments are the
    pressure and the fraction z; [pbubRs] takes z and Rs. *)
Record extboTables := {
  tOilViscosity : Q -> Q -> Q; tGasViscosity : Q -> Q -> Q; tBo : Q -> Q -> Q; tBg : Q -> Q -> Q;
  tRs : Q -> Q -> Q; tRv : Q -> Q -> Q; tX : Q -> Q -> Q; tY : Q -> Q -> Q;
  tPbubRs : Q -> Q -> Q; tOilCmp : Q -> Q; tGasCmp : Q -> Q; tZLim : Q; tRefDensity : Q }.

(** What the problem says about the cell: maxOilSaturation, the limits RsMax, RvMax and RswMax (190-195), porosity,
    rockCompressibility, rockReferencePressure and rockCompPoroMultiplier. *)
Record cellData := {
  maxOilSat : Q; rsMax : Q; rvMax : Q; rswMax : Q;
  basePorosity : Q; rockCompressibility : Q; rockRefPressure : Q; rockMultiplier : Q }.

(** Members of BlackOilExtboIntensiveQuantities (blackoilextbomodules.hh 718-739); [eOilMu] and [eGasMu] are
    oilViscosity_ and gasViscosity_. *)
Record extboQuants := {
  eOilMu : Q; eGasMu : Q; eBo : Q; eBg : Q; eBz : Q; eRs : Q; eRv : Q; eX : Q; eY : Q; eZ : Q }.

(** Decisions by comparison of values. *)
Definition ltb (a b : Q) : bool := if Qlt_le_dec a b then true else false.
Definition leb (a b : Q) : bool := if Qlt_le_dec b a then false else true.

(** blackoilextbomodules.hh 589-649, zFractionUpdate_. The threshold of 623 is 1 - 1e-6. Without the module
    (752-756) nothing is computed; here it is, and nobody reads it. *)
Definition zFractionUpdate (C : config) (T : extboTables) (pv : priVars) (fs : fluidState) : extboQuants :=
  let z := zFractionVar pv in
  let po := pressure fs Oil in
  let pg := pressure fs Gas in
  let rs0 := if dissolvedGas C then tRs T po z else 0 in
  let rv0 := if vaporizedOil C then tRv T pg z else 0 in
  let rs1 := match waterM pv with
             | WaterSw => if leb (999999 # 1000000) (waterVar pv) then 0 else rs0
             | _ => rs0
             end in
  let '(pbub, rs2, bo2, x2) :=
    match gasM pv with
    | GasRs =>
        let r := compositionVar pv in
        let pb := if ltb (tZLim T) z then tPbubRs T (tZLim T) r else tPbubRs T z r in
        (pb, r, tBo T pb z + tOilCmp T z * (po - pb), tX T pb z)
    | _ => (po, rs1, tBo T po z, tX T po z)
    end in
  let '(rv2, bg2, y2) :=
    match gasM pv with
    | GasRv =>
        let r := compositionVar pv in
        (r, tBg T pbub z + tGasCmp T z * (r - tRv T pbub z), tY T pbub z)
    | _ => (rv0, tBg T pg z, tY T po z)
    end in
  {| eOilMu := tOilViscosity T po z; eGasMu := tGasViscosity T pg z;
     eBo := bo2; eBg := bg2; eBz := tBg T po (99 # 100); eRs := rs2; eRv := rv2; eX := x2; eY := y2; eZ := z |}.

(** 302-306. *)
Definition soMax (C : config) (D : cellData) (fs : fluidState) : Q :=
  if active C Oil then Qmax (saturation fs Oil) (maxOilSat D) else 0.

(** 309-323. *)
Definition setRsStep (C : config) (F : fluidSystem) (D : cellData) (pv : priVars) (e : extboQuants) (fs : fluidState)
  : fluidState :=
  match gasM pv with
  | GasRs => setRs fs (compositionVar pv)
  | _ =>
      if dissolvedGas C then
        let rsSat := if extbo C then eRs e else satDissolution F fs Oil (soMax C D fs) in
        setRs fs (Qmin (rsMax D) rsSat)
      else if compositionSwitch C then setRs fs 0 else fs
  end.

(** 324-338. *)
Definition setRvStep (C : config) (F : fluidSystem) (D : cellData) (pv : priVars) (e : extboQuants) (fs : fluidState)
  : fluidState :=
  match gasM pv with
  | GasRv => setRv fs (compositionVar pv)
  | _ =>
      if vaporizedOil C then
        let rvSat := if extbo C then eRv e else satDissolution F fs Gas (soMax C D fs) in
        setRv fs (Qmin (rvMax D) rvSat)
      else if compositionSwitch C then setRv fs 0 else fs
  end.

(** 340-350. *)
Definition setRvwStep (C : config) (F : fluidSystem) (pv : priVars) (fs : fluidState) : fluidState :=
  match waterM pv with
  | WaterRvw => setRvw fs (waterVar pv)
  | _ => if vaporizedWater C then setRvw fs (satVaporization F fs) else fs
  end.

(** 352-362. *)
Definition setRswStep (C : config) (F : fluidSystem) (D : cellData) (pv : priVars) (fs : fluidState) : fluidState :=
  match waterM pv with
  | WaterRsw => setRsw fs (waterVar pv)
  | _ =>
      if dissolvedGasInWater C then setRsw fs (Qmin (rswMax D) (satDissolution F fs Water 0)) else fs
  end.

(** directionalmobility.hh 38-66: the three arrays. *)
Record dirMobility := { mobX : phase -> Q; mobY : phase -> Q; mobZ : phase -> Q }.

(** 386-396: the divisions of one of the arrays for one phase. *)
Definition divide (C : config) (e : extboQuants) (p : phase) (mu : Q) (m : phase -> Q) : phase -> Q :=
  if extbo C && phaseEqb p Oil then put m p (m p / eOilMu e)
  else if extbo C && phaseEqb p Gas then put m p (m p / eGasMu e)
  else put m p (m p / mu).

(** 380-398: the loop over the phases. The array of the undirected mobilities and, if they are stored, the three
    arrays of directionalmobility.hh (372-379) are divided. *)
Definition phaseStep (C : config) (F : fluidSystem) (e : extboQuants) (p : phase)
    (st : fluidState * (phase -> Q) * option dirMobility) : fluidState * (phase -> Q) * option dirMobility :=
  let '(fs, m, d) := st in
  if active C p then
    let fs' := setInvB fs p (invFormationVolume F fs p) in
    let mu := viscosity F fs' p in
    (fs', divide C e p mu m,
     match d with
     | None => None
     | Some d => Some {| mobX := divide C e p mu (mobX d); mobY := divide C e p mu (mobY d);
                         mobZ := divide C e p mu (mobZ d) |}
     end)
  else st.

(** 401-442: the densities. *)
Definition densities (C : config) (F : fluidSystem) (fs : fluidState) : fluidState :=
  let fs :=
    if active C Water then
      let rho := invB fs Water * refDensity F Water in
      let rho := if dissolvedGasInWater C then rho + invB fs Water * Rsw fs * refDensity F Gas else rho in
      setDensity fs Water rho
    else fs in
  let fs :=
    if active C Gas then
      let rho := invB fs Gas * refDensity F Gas in
      let rho := if vaporizedOil C then rho + invB fs Gas * Rv fs * refDensity F Oil else rho in
      let rho := if vaporizedWater C then rho + invB fs Gas * Rvw fs * refDensity F Water else rho in
      setDensity fs Gas rho
    else fs in
  if active C Oil then
    let rho := invB fs Oil * refDensity F Oil in
    let rho := if dissolvedGas C then rho + invB fs Oil * Rs fs * refDensity F Gas else rho in
    setDensity fs Oil rho
  else fs.

(** 445-478: the porosity. *)
Definition porosityOf (C : config) (D : cellData) (pv : priVars) (fs : fluidState) : Q :=
  let phi := basePorosity D in
  let phi :=
    if ltb 0 (rockCompressibility D) then
      let p := if active C Oil then pressure fs Oil
               else if active C Water then pressure fs Water else pressure fs Gas in
      let x := rockCompressibility D * (p - rockRefPressure D) in
      phi * (1 + x + (1 # 2) * x * x)
    else phi in
  let phi := phi * rockMultiplier D in
  let phi := if micp C then phi + (- biofilmVar pv - calciteVar pv) else phi in
  if saltPrecipitation C && saltIsSp pv then phi * (1 - saltVar pv) else phi.

(** blackoilextbomodules.hh 656-676, zPvtUpdate_; without the module it does nothing (749-750). *)
Definition zPvtUpdate (C : config) (F : fluidSystem) (T : extboTables) (e : extboQuants) (fs : fluidState) : fluidState :=
  if extbo C then
    let fs := setInvB fs Oil (1 / eBo e) in
    let fs := setInvB fs Gas (1 / eBg e) in
    let fs := setDensity fs Oil
                (invB fs Oil * (refDensity F Oil + (1 - eX e) * Rs fs * refDensity F Gas
                                + eX e * Rs fs * tRefDensity T)) in
    setDensity fs Gas
      (invB fs Gas * (refDensity F Gas * (1 - eY e) + eY e * tRefDensity T + refDensity F Oil * Rv fs))
  else fs.

(** The members of the intensive quantities which this part of the update writes. *)
Record intensive := {
  fluid : fluidState; mobilityArray : phase -> Q; dirMob : option dirMobility; porosity : Q; ext : extboQuants }.

(** 299-483: the update. [fs] holds the saturations and pressures, [kr] and [dir] the relative permeabilities which
    205-295 have left in mobility_ and in dirMob_. *)
Definition update (C : config) (F : fluidSystem) (T : extboTables) (D : cellData) (pv : priVars)
    (fs : fluidState) (kr : phase -> Q) (dir : option dirMobility) : intensive :=
  let e := zFractionUpdate C T pv fs in
  let fs := setRsStep C F D pv e fs in
  let fs := setRvStep C F D pv e fs in
  let fs := setRvwStep C F pv fs in
  let fs := setRswStep C F D pv fs in
  let '(fs, m, d) := phaseStep C F e Gas (phaseStep C F e Oil (phaseStep C F e Water (fs, kr, dir))) in
  let fs := densities C F fs in
  let phi := porosityOf C D pv fs in
  let fs := zPvtUpdate C F T e fs in
  {| fluid := fs; mobilityArray := m; dirMob := d; porosity := phi; ext := e |}.

(** Opm::FaceDir::DirEnum: the six directions and, for the default branch, anything else (e.g. Unknown). *)
Inductive faceDir := XMinus | XPlus | YMinus | YPlus | ZMinus | ZPlus | OtherDir.

(** 527-528. *)
Definition mobility (q : intensive) (p : phase) : Q := mobilityArray q p.

(** 530-551; [None] is the exception. *)
Definition mobilityTowards (q : intensive) (p : phase) (d : faceDir) : option Q :=
  match dirMob q with
  | Some m =>
      match d with
      | XMinus | XPlus => Some (mobX m p)
      | YMinus | YPlus => Some (mobY m p)
      | ZMinus | ZPlus => Some (mobZ m p)
      | OtherDir => None
      end
  | None => Some (mobilityArray q p)
  end.

(** blackoillocalresidual.hh 112-163: the contribution of one phase to the storage of the components. The equation of
    the pseudo phase (115-123, three equations although the phase is not active) has the value 0. *)
Definition storageStep (C : config) (q : intensive) (p : phase) (st : phase -> Q) : phase -> Q :=
  let fs := fluid q in
  if active C p then
    let v := saturation fs p * invB fs p * porosity q in
    let st := put st p (st p + v) in
    match p with
    | Oil => if dissolvedGas C then put st Gas (st Gas + Rs fs * v) else st
    | Water => if dissolvedGasInWater C then put st Gas (st Gas + Rsw fs * v) else st
    | Gas =>
        let st := if vaporizedOil C then put st Oil (st Oil + Rv fs * v) else st in
        if vaporizedWater C then put st Water (st Water + Rvw fs * v) else st
    end
  else put st p 0.

(** blackoillocalresidual.hh 341-367. *)
Definition adaptMass (C : config) (F : fluidSystem) (st : phase -> Q) : phase -> Q :=
  if conserveSurfaceVolume C then st
  else
    let st := if active C Water then put st Water (st Water * refDensity F Water) else st in
    let st := if active C Gas then put st Gas (st Gas * refDensity F Gas) else st in
    if active C Oil then put st Oil (st Oil * refDensity F Oil) else st.

(** blackoillocalresidual.hh 102-166. *)
Definition componentStorage (C : config) (F : fluidSystem) (q : intensive) : phase -> Q :=
  adaptMass C F (storageStep C q Gas (storageStep C q Oil (storageStep C q Water (fun _ => 0)))).
