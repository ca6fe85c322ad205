(** Fluxes over a face: transmissibility-based volume fluxes, black-oil component fluxes,
    diffusion, dispersion, convective mixing, heat conduction and free-flow boundaries. Models
    opm/models/common/transfluxmodule.hh and parts of opm/models/blackoil/
    blackoillocalresidualtpfa.hh, blackoildiffusionmodule.hh, blackoildispersionmodule.hh,
    blackoilconvectivemixingmodule.hh, blackoilenergymodules.hh and
    blackoilboundaryratevector.hh. Values only: the derivatives carried along by automatic
    differentiation are left out. *)
From Coq Require Export List ZArith QArith Lia Lqa Bool Arith.
From Verif Require Export Num.
Export ListNotations.
Open Scope Q_scope.

Inductive phase := Water | Oil | Gas.
Inductive comp := CWater | COil | CGas.
Definition phase_eqb (a b : phase) : bool :=
  match a, b with Water, Water | Oil, Oil | Gas, Gas => true | _, _ => false end.
Definition comp_eqb (a b : comp) : bool :=
  match a, b with CWater, CWater | COil, COil | CGas, CGas => true | _, _ => false end.
Definition phases : list phase := [Water; Oil; Gas].

(** What the flux functions read of the intensive quantities of a degree of freedom. *)
Record cell := mkCell {
  c_p : phase -> Q;             (* pressure *)
  c_rho : phase -> Q;           (* density *)
  c_mob : phase -> Q;           (* mobility *)
  c_sat : phase -> Q;
  c_invB : phase -> Q;
  c_visc : phase -> Q;
  c_enthalpy : phase -> Q;
  c_Rs : Q; c_Rv : Q; c_Rsw : Q; c_Rvw : Q;
  c_region : nat;               (* pvtRegionIndex *)
  c_z : Q;                      (* depth coordinate of the centre *)
  c_vol : Q;
  c_idx : nat;                  (* global index *)
  c_mult : Q;                   (* rockCompTransMultiplier *)
  c_T : Q;
  c_lambda : Q;                 (* totalThermalConductivity *)
  c_D : phase -> comp -> Q;     (* effectiveDiffusionCoefficient *)
  c_vel : phase -> Q;           (* normVelocityCell *)
  c_rssat : Q;                  (* saturated dissolution factor of the liquid *)
  c_bsat : Q                    (* inverse formation volume factor of the saturated liquid *)
}.

(** ** Transmissibility, transfluxmodule.hh 425-455 *)
Definition qabs (x : Q) : Q := if Qltb x 0 then - x else x.
Definition dot (a b : list Q) : Q := fold_left (fun s ab => s + fst ab * snd ab) (combine a b) 0.
Definition minus (a b : list Q) : list Q := map (fun ab => fst ab - snd ab) (combine a b).
(** 441-447: the index of the entry which is largest in size; the first one wins. *)
Definition main_axis (n : list Q) : nat :=
  fst (fold_left (fun (best : nat * Q) (ix : nat * Q) =>
         if Qltb (snd best) (qabs (snd ix)) then (fst ix, qabs (snd ix)) else best)
       (combine (seq 0 (length n)) n) (0%nat, 0)).
(** [None]: a division by zero, i.e. the value is not a number or infinite. The diagonal of the
    permeability tensor is a list. *)
Definition half_trans (perm normal facePos pos : list Q) : option Q :=
  let d := minus facePos pos in
  if Qeq_bool (dot d d) 0 then None
  else Some (nth (main_axis normal) perm 0 * qabs (dot normal d) / dot d d).
Definition transmissibility (normal facePos posIn posEx permIn permEx : list Q) : option Q :=
  match half_trans permIn normal facePos posIn, half_trans permEx normal facePos posEx with
  | Some T0, Some T1 => if Qeq_bool (T0 + T1) 0 then None else Some (T0 * T1 / (T0 + T1))
  | _, _ => None
  end.

(** ** Volume fluxes, transfluxmodule.hh 201-318 *)
Record phaseFlux := mkPF { upInterior : bool; pdiff : Q; vflux : Q }.
(** The gravity-corrected pressure difference, 252-263. *)
Definition pressureDifference (g : Q) (inn ex : cell) (a : phase) : Q :=
  (c_p ex a + (c_rho inn a + c_rho ex a) / 2 * ((c_z inn - c_z ex) * g)) - c_p inn a.
(** 265-303. *)
Definition upstream (dp : Q) (inn ex : cell) : bool :=
  if Qltb 0 dp then false
  else if Qltb dp 0 then true
  else if Qltb (c_vol ex) (c_vol inn) then true
  else if Qltb (c_vol inn) (c_vol ex) then false
  else (c_idx inn <? c_idx ex)%nat.
Definition volumeFlux (g trans : Q) (inn ex : cell) (a : phase) : phaseFlux :=
  if Qle_bool (c_mob inn a) 0 && Qle_bool (c_mob ex a) 0 then mkPF true 0 0
  else
    let dp := pressureDifference g inn ex a in
    let up := upstream dp inn ex in
    mkPF up dp (dp * c_mob (if up then inn else ex) a * (- trans)).

(** transfluxmodule.hh 323-411: boundary faces; [zFace] is the depth of the integration point and
    [mobEx] the mobility computed from the boundary fluid state. *)
Definition boundaryFlux (g trans zFace : Q) (inn ex : cell) (a : phase) : phaseFlux :=
  let dp := (c_p ex a + (c_rho inn a + c_rho ex a) / 2 * ((c_z inn - zFace) * g)) - c_p inn a in
  if Qltb 0 dp then mkPF false dp (dp * c_mob ex a * (- trans))
  else mkPF true dp (dp * c_mob inn a * (- trans)).

(** ** Black-oil component fluxes *)
Record fluidsys := mkFS {
  active : phase -> bool;
  dissolvedGas : bool; dissolvedGasInWater : bool; vaporizedOil : bool; vaporizedWater : bool;
  refDensity : phase -> nat -> Q;     (* referenceDensity(phase, region) *)
  molarMass : comp -> nat -> Q;
  conserveSurfaceVolume : bool;
  useMoleFraction : bool;
  solute : phase -> comp              (* soluteComponentIndex *)
}.
(** solventComponentIndex. *)
Definition solventComp (a : phase) : comp := match a with Water => CWater | Oil => COil | Gas => CGas end.
Definition add (c : comp) (q : Q) (f : comp -> Q) : comp -> Q :=
  fun d => if comp_eqb d c then f d + q else f d.

(** blackoillocalresidualtpfa.hh 753-807: evalPhaseFluxes_. *)
Definition evalPhaseFluxes (fs : fluidsys) (region : nat) (a : phase) (sv : Q) (up : cell)
  (flux : comp -> Q) : comp -> Q :=
  let w b := if conserveSurfaceVolume fs then 1 else refDensity fs b region in
  let flux := add (solventComp a) (sv * w a) flux in
  match a with
  | Oil => if dissolvedGas fs then add CGas (c_Rs up * sv * w Gas) flux else flux
  | Water => if dissolvedGasInWater fs then add CGas (c_Rsw up * sv * w Gas) flux else flux
  | Gas =>
      let flux := if vaporizedOil fs then add COil (c_Rv up * sv * w Oil) flux else flux in
      if vaporizedWater fs then add CWater (c_Rvw up * sv * w Water) flux else flux
  end.

(** The component fluxes due to the phase fluxes: blackoillocalresidual.hh 204-215 (and, with the
    Darcy flux computed on the fly, blackoillocalresidualtpfa.hh 343-411). *)
Definition advective (fs : fluidsys) (pf : phase -> phaseFlux) (inn ex : cell) : comp -> Q :=
  fold_left (fun flux a =>
    if active fs a then
      let up := if upInterior (pf a) then inn else ex in
      evalPhaseFluxes fs (c_region up) a (c_invB up a * vflux (pf a)) up flux
    else flux) phases (fun _ => 0).

(** blackoillocalresidualtpfa.hh 370-382: the Darcy flux, given the pressure difference and the
    upstream side, which opm-simulators computes. [mobIn] and [mobEx] are the mobilities for the
    direction of the face. *)
Definition tpfaDarcy (trans area : Q) (inn ex : cell) (up : bool) (dp : Q) (a : phase) : phaseFlux :=
  mkPF up dp (dp * c_mob (if up then inn else ex) a * ((c_mult inn + c_mult ex) / 2) * (- trans / area)).

(** blackoilenergymodules.hh 208-217 over all phases. *)
Definition enthalpyFlux (fs : fluidsys) (pf : phase -> phaseFlux) (inn ex : cell) : Q :=
  fold_left (fun f a =>
    if active fs a then
      let up := if upInterior (pf a) then inn else ex in
      f + c_enthalpy up a * c_rho up a * vflux (pf a)
    else f) phases 0.

(** ** Heat conduction, blackoilenergymodules.hh 531-583 *)
Definition heatFlux (inAlpha outAlpha area : Q) (inn ex : cell) : Q :=
  let inH := c_lambda inn * inAlpha in
  let exH := c_lambda ex * outAlpha in
  let H := if Qltb 0 inH && Qltb 0 exH then 1 / (1 / inH + 1 / exH) else 0 in
  (c_T ex - c_T inn) * (- H / area).

(** ** Diffusion, blackoildiffusionmodule.hh 168-262 *)
Definition toFractionGasOil (fs : fluidsys) (r : nat) : Q :=
  let m c := if useMoleFraction fs then molarMass fs c r else 1 in
  refDensity fs Oil r * m CGas / (refDensity fs Gas r * m COil).
Definition toFractionGasWater (fs : fluidsys) (r : nat) : Q :=
  let m c := if useMoleFraction fs then molarMass fs c r else 1 in
  refDensity fs Water r * m CGas / (refDensity fs Gas r * m CWater).
(** The conversion factor and the difference of the dissolution factors, 196-222: later
    assignments win. *)
Definition conversion (fs : fluidsys) (fgo fgw : Q) (i j : cell) (a : phase) : Q * Q :=
  let r := (1, 0) in
  let r := if dissolvedGas fs && active fs Gas && phase_eqb a Oil
           then (1 / (fgo + (c_Rs i + c_Rs j) / 2), c_Rs i - c_Rs j) else r in
  let r := if vaporizedOil fs && active fs Oil && phase_eqb a Gas
           then (fgo / (1 + (c_Rv i + c_Rv j) / 2 * fgo), c_Rv i - c_Rv j) else r in
  let r := if dissolvedGasInWater fs && phase_eqb a Water
           then (1 / (fgw + (c_Rsw i + c_Rsw j) / 2), c_Rsw i - c_Rsw j) else r in
  if vaporizedWater fs && phase_eqb a Gas
  then (fgw / (1 + (c_Rvw i + c_Rvw j) / 2 * fgw), c_Rvw i - c_Rvw j) else r.
(** 584-603: arithmetic average of the coefficients. *)
Definition effD (i j : cell) (a : phase) (c : comp) : Q := (1#2) * (c_D i a c + c_D j a c).
Definition diffusive (fs : fluidsys) (diffusivity : Q) (i j : cell) : comp -> Q :=
  fold_left (fun flux a =>
    if negb (active fs a) then flux
    else if negb (dissolvedGasInWater fs) && phase_eqb a Water then flux
    else if phase_eqb a Gas && negb (active fs Oil) then flux
    else
      let bS := (c_sat i a * c_invB i a + c_sat j a * c_invB j a) / 2 in
      if Qltb bS (1#1000000) then flux
      else
        let (conv, dR) := conversion fs (toFractionGasOil fs (c_region i)) (toFractionGasWater fs (c_region i)) i j a in
        let flux := add (solventComp a) (- bS * conv * dR * diffusivity * effD i j a (solventComp a)) flux in
        add (solute fs a) (bS * dR * conv * diffusivity * effD i j a (solute fs a)) flux)
    phases (fun _ => 0).

(** ** Dispersion, blackoildispersionmodule.hh 177-253 and 484-507. The fractions are mass
    fractions (258-267). *)
Definition toMassFractionGasOil (fs : fluidsys) (r : nat) : Q := refDensity fs Oil r / refDensity fs Gas r.
Definition toMassFractionGasWater (fs : fluidsys) (r : nat) : Q := refDensity fs Water r / refDensity fs Gas r.
Definition velAvg (i j : cell) (a : phase) : Q := (1#2) * (c_vel i a + c_vel j a).
Definition dispersive (fs : fluidsys) (dispersivity : Q) (i j : cell) : comp -> Q :=
  fold_left (fun flux a =>
    if negb (active fs a) then flux
    else if negb (dissolvedGasInWater fs) && phase_eqb a Water then flux
    else if phase_eqb a Gas then flux
    else
      let b := (c_invB i a + c_invB j a) / 2 in
      let (conv, dR) := conversion fs (toMassFractionGasOil fs (c_region i)) (toMassFractionGasWater fs (c_region i)) i j a in
      let flux := add (solventComp a) (- b * velAvg i j a * conv * dispersivity * dR) flux in
      add (solute fs a) (b * velAvg i j a * conv * dispersivity * dR) flux)
    phases (fun _ => 0).

(** ** Convective mixing, blackoilconvectivemixingmodule.hh 271-390. [activeIn] says which regions
    use it; [Xhi] and [Psi] are the parameters of the regions. Returns the gas flux and the
    enthalpy flux. *)
Record mixing := mkMix { mixActive : nat -> bool; Xhi : nat -> Q; Psi : nat -> Q }.
Definition liquid (fs : fluidsys) : phase := if active fs Water then Water else Oil.
Definition mix_dp (fs : fluidsys) (distZg : Q) (inn ex : cell) : Q :=
  let rhoRef x := refDensity fs (liquid fs) (c_region x) in
  let rho x := c_invB x (liquid fs) * rhoRef x in
  let rhoSat x := c_bsat x * (rhoRef x + c_rssat x * refDensity fs Gas (c_region x)) in
  (rhoSat ex + rhoSat inn - rho inn - rho ex) / 2 * distZg.
Definition qmin (a b : Q) : Q := if Qltb b a then b else a.
Definition mixingFlux (fs : fluidsys) (m : mixing) (distZg trans area : Q) (inn ex : cell) : Q * Q :=
  if negb (mixActive m (c_region inn)) || negb (mixActive m (c_region ex)) then (0, 0)
  else
    let dp := mix_dp fs distZg inn ex in
    if Qltb (1#1000000000000) (qabs dp) then
      let up := if Qltb 0 dp then ex else inn in
      let l := liquid fs in
      let Rs := if active fs Water then c_Rsw up else c_Rs up in
      let restricted := qmin Rs (c_rssat up * Psi m (c_region up)) in
      let f := - trans * c_mult up * Xhi m (c_region up) * c_invB up l * dp * restricted / (c_visc up l * area) in
      (f, f * (c_enthalpy up l * refDensity fs Gas (c_region up)))
    else (0, 0).

(** ** Free-flow boundaries, blackoilboundaryratevector.hh 94-187 (and
    blackoillocalresidualtpfa.hh 530-629), mass conservation only. [pf] are the volume fluxes of
    the boundary face. *)
Definition adaptMass (fs : fluidsys) (region : nat) (f : comp -> Q) : comp -> Q :=
  if conserveSurfaceVolume fs then f
  else fun c => f c * match c with
                      | CWater => if active fs Water then refDensity fs Water region else 1
                      | COil => if active fs Oil then refDensity fs Oil region else 1
                      | CGas => if active fs Gas then refDensity fs Gas region else 1
                      end.
Definition freeFlow (fs : fluidsys) (pf : phase -> phaseFlux) (inn bnd : cell) : comp -> Q :=
  adaptMass fs (c_region inn)
    (fold_left (fun flux a =>
       if active fs a then
         let tmp :=
           if Qltb (c_p bnd a) (c_p inn a)
           then evalPhaseFluxes fs (c_region inn) a (c_invB inn a * vflux (pf a)) inn (fun _ => 0)
           else if Qltb (c_p inn a) (c_p bnd a)
           then evalPhaseFluxes fs (c_region inn) a (c_invB bnd a * vflux (pf a)) bnd (fun _ => 0)
           else (fun _ => 0) in
         fun c => flux c + tmp c
       else flux) phases (fun _ => 0)).
(** blackoilboundaryratevector.hh 206-238. *)
Definition qmax (a b : Q) : Q := if Qltb a b then b else a.
Definition inFlow (f : comp -> Q) : comp -> Q := fun c => qmin 0 (f c).
Definition outFlow (f : comp -> Q) : comp -> Q := fun c => qmax 0 (f c).
