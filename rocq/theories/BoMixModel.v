(** * Intensive quantities of the black-oil extensions

    Model of what the solvent, polymer, brine and biogrout modules
    (/repo/opm/models/blackoil/blackoil{solvent,polymer,brine,micp}modules.hh) do with the
    intensive quantities of a cell, and of the shear of the polymer.

    Simplifications: arithmetic is that of the real numbers, [pow] is [Rpower] (which is the
    power function for positive bases); derivatives are left out; a table is a function;
    regions are resolved before the call. *)

From Coq Require Import Reals List Bool.
Import ListNotations.
Local Open Scope R_scope.

(** [cutOff], blackoilsolventmodules.hh:798. *)
Definition cutOff : R := / 10 ^ 12.

Definition ltb (x y : R) : bool := if Rlt_dec x y then true else false.

(** The fourth root, blackoilsolventmodules.hh:1114-1115, 1126. *)
Definition root4 (x : R) : R := Rpower x (/ 4).

(* ----- solvent: mixing of Todd and Longstaff ----- *)

(** What [effectiveProperties] reads: the saturations of the fluid state and of the solvent,
    the tables, the values of the pure fluids. *)
Record fluids : Type := mkFluids {
  f_miscible : bool;            (* MISCIBLE *)
  f_oil : bool; f_water : bool; (* the active phases besides gas *)
  f_so : R; f_sg : R; f_ss : R; f_sw : R;
  f_sorwmis : R -> R; f_sgcwmis : R -> R;
  f_po : R; f_pg : R;
  f_pmisc : R -> R; f_tlPMix : R -> R; f_tlMu : R; f_tlRho : R;
  f_muOil : R; f_muGas : R; f_muSolvent : R;
  f_rhoOil : R; f_rhoGas : R; f_rhoSolvent : R;
  f_refOil : R; f_refGas : R; f_refSolvent : R;
  f_Rs : R; f_Rv : R;
  f_bo : R; f_bg : R; f_bs : R;
  f_mobOil : R; f_mobGas : R
}.

(** What it writes. *)
Record mixed : Type := mkMixed {
  m_rhoOil : R; m_rhoGas : R; m_rhoSolvent : R;
  m_muSolvent : R;
  m_mobOil : R; m_mobGas : R
}.

(** The effective saturations of oil, gas and solvent, blackoilsolventmodules.hh:1075-1093. *)
Definition effectiveSaturations (f : fluids) : R * R * R :=
  let so := if f_oil f then f_so f else 0 in
  if f_water f then
    (if f_oil f then Rmax (so - f_sorwmis f (f_sw f)) 0 else so,
     Rmax (f_sg f - f_sgcwmis f (f_sw f)) 0,
     Rmax (f_ss f - f_sgcwmis f (f_sw f)) 0)
  else (so, f_sg f, f_ss f).

(** [muMixSolventGas], [muMixOilSolvent]: the mixture of a fluid a with the solvent,
    blackoilsolventmodules.hh:1117-1119, 1127-1129. *)
Definition mixTwo (muA muS sA sS : R) : R :=
  if ltb cutOff (sS + sA)
  then muA * (muS / Rpower ((sA / (sS + sA)) * root4 muS + (sS / (sS + sA)) * root4 muA) 4)
  else muA.

(** [muMixSolventGasOil], blackoilsolventmodules.hh:1135-1138. *)
Definition mixThree (muO muS muG sO sS sG : R) : R :=
  let s := sO + sG + sS in
  if ltb cutOff s
  then muO * (muS * muG / Rpower ((sO / s) * root4 muS * root4 muG + (sS / s) * root4 muO * root4 muG
                                  + (sG / s) * root4 muS * root4 muO) 4)
  else muO.

(** The viscosity on the way from the pure fluid to the mixture,
    blackoilsolventmodules.hh:1133, 1140-1141, 1158-1160. *)
Definition towards (mu mix w : R) : R := Rpower mu (1 - w) * Rpower mix w.

(** The parameters of the mixing at the pressure of the cell,
    blackoilsolventmodules.hh:1102-1107, 1154. *)
Definition pressureOf (f : fluids) : R := if f_oil f then f_po f else f_pg f.
Definition mixPmisc (f : fluids) : R := f_pmisc f (pressureOf f).
Definition mixMu (f : fluids) : R := f_tlMu f * f_tlPMix f (pressureOf f).
Definition mixRho (f : fluids) : R := f_tlRho f * f_tlPMix f (pressureOf f).

(** [muOil] and [rhoOil], which are 1 and 0 without oil, blackoilsolventmodules.hh:1121-1126,
    1145-1147. *)
Definition muOilOr1 (f : fluids) : R := if f_oil f then f_muOil f else 1.
Definition rhoOilOr0 (f : fluids) : R := if f_oil f then f_rhoOil f else 0.

(** The viscosities on the way to the mixture for the mixing parameter [w],
    blackoilsolventmodules.hh:1117-1141, 1158-1160. *)
Definition muGasTo (f : fluids) (w : R) : R :=
  let '(sO, sG, sS) := effectiveSaturations f in
  towards (f_muGas f) (mixTwo (f_muGas f) (f_muSolvent f) sG sS) w.
Definition muOilTo (f : fluids) (w : R) : R :=
  let '(sO, sG, sS) := effectiveSaturations f in
  if f_oil f then towards (f_muOil f) (mixTwo (f_muOil f) (f_muSolvent f) sO sS) w else 1.
Definition muSolventTo (f : fluids) (w : R) : R :=
  let '(sO, sG, sS) := effectiveSaturations f in
  towards (f_muSolvent f) (mixThree (muOilOr1 f) (f_muSolvent f) (f_muGas f) sO sS sG) w.

(** [rhoMixSolventGasOil], blackoilsolventmodules.hh:1172-1174. *)
Definition rhoMix (f : fluids) : R :=
  let '(sO, sG, sS) := effectiveSaturations f in
  let s := sO + sG + sS in
  if ltb cutOff s
  then rhoOilOr0 f * sO / s + f_rhoGas f * sG / s + f_rhoSolvent f * sS / s
  else 0.

(** [rhoGasEff], blackoilsolventmodules.hh:1176-1182. *)
Definition rhoGasEff (f : fluids) : R :=
  let w := mixRho f in
  let qG := root4 (f_muGas f) in
  let qS := root4 (f_muSolvent f) in
  let qE := root4 (muGasTo f w) in
  if ltb (Rabs (qS - qG)) cutOff then (1 - w) * f_rhoGas f + w * rhoMix f
  else let x := (qG * (qS - qE)) / (qE * (qS - qG)) in f_rhoGas f * x + f_rhoSolvent f * (1 - x).

(** [rhoSolventEff], blackoilsolventmodules.hh:1162-1170, 1184-1190. *)
Definition rhoSolventEff (f : fluids) : R :=
  let '(sO, sG, sS) := effectiveSaturations f in
  let w := mixRho f in
  let qO := root4 (muOilOr1 f) in
  let qG := root4 (f_muGas f) in
  let qS := root4 (f_muSolvent f) in
  let qE := root4 (muSolventTo f w) in
  let sof := if ltb cutOff (sO + sG) then sO / (sO + sG) else 0 in
  let sgf := if ltb cutOff (sO + sG) then sG / (sO + sG) else 0 in
  let qSOG := qS * (sgf * qO + sof * qG) in
  if ltb (Rabs (qSOG - qO * qG)) cutOff then (1 - w) * f_rhoSolvent f + w * rhoMix f
  else let x := (qSOG - (qO * qG * qS / qE)) / (qSOG - qO * qG) in
       f_rhoSolvent f * x + f_rhoGas f * sgf * (1 - x) + rhoOilOr0 f * sof * (1 - x).

(** [rhoOilEff], blackoilsolventmodules.hh:1230-1237.  There [rhoSolvent] is a reference to the
    density which line 1219 has replaced: [newRhoSolvent] is the new one. *)
Definition rhoOilEff (f : fluids) (newRhoSolvent : R) : R :=
  let w := mixRho f in
  let qO := root4 (muOilOr1 f) in
  let qS := root4 (f_muSolvent f) in
  let qE := root4 (muOilTo f w) in
  if ltb (Rabs (qO - qS)) cutOff then (1 - w) * f_rhoOil f + w * rhoMix f
  else let x := (qO * (qE - qS)) / (qE * (qO - qS)) in f_rhoOil f * x + newRhoSolvent * (1 - x).

(** The blending of the miscible with the immiscible value for the inverse formation volume
    factors and, by [mu*b], for the viscosities, blackoilsolventmodules.hh:1205-1206, 1223,
    1227, 1240, 1248. *)
Definition blendB (pmisc bEff b : R) : R := pmisc * bEff + (1 - pmisc) * b.
Definition blendMu (pmisc bEff b muEff mu : R) : R :=
  blendB pmisc bEff b / (pmisc * bEff / muEff + (1 - pmisc) * b / mu).

(** The densities at the surface of what the phases carry, blackoilsolventmodules.hh:1194-1199,
    1238. *)
Definition refOfGas (f : fluids) : R := if f_oil f then f_refGas f + f_refOil f * f_Rv f else f_refGas f.
Definition refOfOil (f : fluids) : R := f_refOil f + f_refGas f * f_Rs f.

(** [effectiveProperties], blackoilsolventmodules.hh:1059-1251. *)
Definition effectiveProperties (f : fluids) : mixed :=
  let unchanged := mkMixed (f_rhoOil f) (f_rhoGas f) (f_rhoSolvent f) (f_muSolvent f) (f_mobOil f) (f_mobGas f) in
  if negb (f_miscible f) then unchanged
  else if ltb (f_ss f) cutOff then unchanged
  else
    let pmisc := mixPmisc f in
    let w := mixMu f in
    let bGasEff := rhoGasEff f / refOfGas f in
    let bSolventEff := rhoSolventEff f / f_refSolvent f in
    let rhoGas := blendB pmisc bGasEff (f_bg f) * refOfGas f in
    let rhoSolvent := blendB pmisc bSolventEff (f_bs f) * f_refSolvent f in
    let muGas := blendMu pmisc bGasEff (f_bg f) (muGasTo f w) (f_muGas f) in
    let muSolvent := blendMu pmisc bSolventEff (f_bs f) (muSolventTo f w) (f_muSolvent f) in
    let bOilEff := rhoOilEff f rhoSolvent / refOfOil f in
    let muOil := blendMu pmisc bOilEff (f_bo f) (muOilTo f w) (f_muOil f) in
    mkMixed (if f_oil f then blendB pmisc bOilEff (f_bo f) * refOfOil f else f_rhoOil f)
      rhoGas rhoSolvent muSolvent
      (if f_oil f then f_mobOil f * (f_muOil f / muOil) else f_mobOil f)
      (f_mobGas f * (f_muGas f / muGas)).

(* ----- solvent: saturations and relative permeabilities ----- *)

(** [solventPreSatFuncUpdate_], blackoilsolventmodules.hh:807-831: the gas saturation which the
    saturation functions see, from the gas saturation and the solvent saturation (zero if the
    primary variable stands for dissolved solvent). *)
Definition gasForSatFunc (sg ss : R) : R := if ltb ss cutOff then sg else sg + ss.

(** The tables and end points read by [solventPostSatFuncUpdate_], at the saturation of water
    and the pressure of the cell. *)
Record relperms : Type := mkRelperms {
  r_miscible : bool; r_oil : bool; r_water : bool;
  r_so : R; r_sg : R; r_ss : R;
  r_misc : R -> R; r_pmisc : R;
  r_sogcr : R; r_sgcr : R; r_sorwmis : R; r_sgcwmis : R;
  r_msfnKro : R -> R; r_msfnKrsg : R -> R; r_sof2Krn : R -> R;
  r_ssfnKrg : R -> R; r_ssfnKrs : R -> R
}.

(** The relative permeabilities after [solventPostSatFuncUpdate_],
    blackoilsolventmodules.hh:862-961: of oil, gas and solvent. *)
Definition postSatFunc (r : relperms) (kro krg : R) : R * R * R :=
  if ltb (r_ss r) cutOff then (kro, krg, 0)
  else
    let sgs := r_sg r + r_ss r in
    if ltb sgs cutOff then (kro, krg, 0)
    else
      let fh := r_sg r / sgs in
      let fs := r_ss r / sgs in
      let '(kro, krg) :=
        if r_miscible r && r_oil r then
          let misc := r_misc r fs * r_pmisc r in
          let sor := if r_water r then misc * r_sorwmis r + (1 - misc) * r_sogcr r else r_sogcr r in
          let sgc := if r_water r then misc * r_sgcwmis r + (1 - misc) * r_sgcr r else r_sgcr r in
          let sogs := sgs + r_so r in
          let eff := Rmax (sogs - sor - sgc) 0 in
          let fg := if ltb cutOff eff then Rmax (sgs - sgc) 0 / eff else 0 in
          let mkrg := r_msfnKrsg r fg * r_sof2Krn r sogs in
          let mkro := r_msfnKro r fg * r_sof2Krn r sogs in
          (kro * (1 - misc) + misc * mkro, krg * (1 - misc) + misc * mkrg)
        else (kro, krg) in
      (kro, krg * r_ssfnKrg r fh, krg * r_ssfnKrs r fs).

(* ----- polymer ----- *)

(** What [polymerPropertiesUpdate_] reads, without molar weights ([plyviscViscosityMultiplier]
    is [y_mult], the maximum over the history is [y_maxAds]). *)
Record polymer : Type := mkPolymer {
  y_c : R; y_cmax : R;
  y_mult : R -> R;
  y_w : R;                      (* PLMIXPAR *)
  y_ads : R -> R; y_noDesorption : bool; y_maxAds : R;
  y_adsLimit : R;               (* maximum adsorption of PLYROCK *)
  y_rrf : R;                    (* residual resistance factor *)
  y_muWater : R; y_mobWater : R
}.

(** What it writes: the adsorption, [waterViscosityCorrection_], [polymerViscosityCorrection_],
    the mobility of water. *)
Record polymerOut : Type := mkPolymerOut {
  o_ads : R; o_waterCorrection : R; o_polymerCorrection : R; o_mobWater : R
}.

(** The adsorption and the resistance factor, blackoilpolymermodules.hh:845-857. *)
Definition adsorption (y : polymer) : R :=
  let a := y_ads y (y_c y) in if y_noDesorption y then Rmax (y_maxAds y) a else a.
Definition resistance (y : polymer) : R := 1 + (y_rrf y - 1) * adsorption y / y_adsLimit y.

(** The effective viscosities, blackoilpolymermodules.hh:864-871. *)
Definition muMixture (y : polymer) : R := y_mult y (y_c y) * y_muWater y.
Definition muPolymer (y : polymer) : R := y_mult y (y_cmax y) * y_muWater y.
Definition muPolymerEff (y : polymer) : R := Rpower (muMixture y) (y_w y) * Rpower (muPolymer y) (1 - y_w y).
Definition muWaterEff (y : polymer) : R := Rpower (muMixture y) (y_w y) * Rpower (y_muWater y) (1 - y_w y).

(** [polymerPropertiesUpdate_], blackoilpolymermodules.hh:834-899. *)
Definition polymerUpdate (y : polymer) : polymerOut :=
  let cbar := y_c y / y_cmax y in
  let wc := y_muWater y * ((1 - cbar) / muWaterEff y + cbar / muPolymerEff y) in
  mkPolymerOut (adsorption y) wc (y_muWater y / wc / muPolymerEff y) (y_mobWater y * (wc / resistance y)).

(** With molar weights, blackoilpolymermodules.hh:878-891: [x] is the concentration times the
    intrinsic viscosity. *)
Definition intrinsicViscosity (k a weight : R) : R := k * Rpower (weight * 1000) a.
Definition weightCorrection (gamma kappa c iv : R) : R :=
  let x := c * iv in 1 / (1 + gamma * (x + kappa * x * x)).

(** [computeShearFactor], blackoilpolymermodules.hh:710-782: the result or the exception.  [mult] is
    the viscosity multiplier for the concentration, [eval] and [slope] are the table of the
    logarithms of the multipliers and its derivative, [first] is its first logarithm of a
    velocity. *)
Definition shearEps : R := / 10 ^ 12.
Definition multEps : R := / 10 ^ 14.

(** [shearEffectMultiplier], blackoilpolymermodules.hh:741-744. *)
Definition logMultiplier (mult refMult : R) : R := ln ((1 + (mult - 1) * refMult) / mult).

(** The Newton iteration, blackoilpolymermodules.hh:764-774. *)
Fixpoint shearNewton (eval slope : R -> R) (l : R) (n : nat) (u : R) : option R :=
  match n with
  | O => None
  | S n =>
      let f := u + eval u - l in
      let u' := u - f / (1 + slope u) in
      if ltb (Rabs f) shearEps then Some u' else shearNewton eval slope l n u'
  end.

Definition computeShearFactor (mult : R) (first : R) (eval slope : R -> R) (v0 : R) : option R :=
  if ltb (Rabs (mult - 1)) multEps then Some 1
  else if Req_EM_T v0 0 then Some 1 (* the logarithm is minus infinity *)
  else
    let l := ln (Rabs v0) in
    if ltb l first then Some 1
    else match shearNewton eval slope l 20 l with
         | Some u => Some (exp (eval u))
         | None => None
         end.

(** [updateShearMultipliers], blackoilpolymermodules.hh:1036-1094, without SHRATE: the two
    velocities for which it asks for a factor, from the flux of water through face [scvf]
    between the degrees of freedom [i] and [e], of which [up] is upstream.  The functions are the
    porosity, the water saturation, the critical one and the correction of the viscosity; the
    critical saturation is that of the degree of freedom number [scvf] (line 1059). *)
Definition waterVelocity (phi sw swcr : nat -> R) (flux : R) (scvf i e up : nat) : R :=
  flux / Rmax ((phi i * (1 / 2) + phi e * (1 / 2)) * (sw up - swcr scvf)) (/ 10 ^ 12).
Definition shearedVelocities (phi sw swcr correction : nat -> R) (flux : R) (scvf i e up : nat) : R * R :=
  let v := waterVelocity phi sw swcr flux scvf i e up in (v, v * correction up).
(** The region whose tables it uses for both (line 1057). *)
Definition shearRegion (region : nat -> nat) (scvf : nat) : nat := region scvf.

(* ----- biogrout ----- *)

(** The factor of the mobility of water, blackoilmicpmodules.hh:512. *)
Definition micpFactor (phi phiRef phiCrit eta kmin K : R) : R :=
  Rmax ((Rpower ((phi - phiCrit) / (phiRef - phiCrit)) eta + kmin / K) / (1 + kmin / K)) (kmin / K).

(** [checkCloggingMICP], blackoilmicpmodules.hh:147-152: whether it lets the cell pass. *)
Definition notClogged (phi biofilm calcite tolerance : R) : bool :=
  negb (ltb (phi - biofilm - calcite) tolerance).

(* ----- brine ----- *)

(** The salt concentration of the fluid state, the one which the intensive quantities return
    and the salt saturation, blackoilbrinemodules.hh:445-475, 496-497; [old] is what the
    intensive quantities had before. *)
Record brineOut : Type := mkBrine { b_fluidState : R; b_returned : R; b_saturation : R }.

Definition brineUpdate (precipitation meansSaturation : bool) (solubility x : R) (old : brineOut) : brineOut :=
  if precipitation then
    if meansSaturation then mkBrine solubility (b_returned old) x
    else mkBrine x x 0
  else mkBrine x x (b_saturation old).

(** [saltPropertiesUpdate_], blackoilbrinemodules.hh:476-493: the factor of all mobilities. *)
Definition saltFactor (permfact : R -> R) (saltSaturation : R) : R := permfact (Rmin (1 - saltSaturation) 1).
