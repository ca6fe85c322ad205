(** Index layout of the black-oil model.
    Models opm/models/blackoil/blackoilindices.hh, blackoiltwophaseindices.hh and
    blackoilonephaseindices.hh. The template parameters become a record, the static
    constants become the fields of another one. [int] and [unsigned] are modelled by [Z]
    and [nat]: no template argument is large enough to overflow. *)
From Coq Require Export List Bool ZArith Lia.
Export ListNotations.
Open Scope Z_scope.

(** The template parameters: blackoilindices.hh 38-45, blackoiltwophaseindices.hh 40-48,
    blackoilonephaseindices.hh 40-48. *)
Record params := mkParams {
  p_solvents : nat;
  p_extbos : nat;
  p_polymers : nat;
  p_energy : nat;
  p_foam : bool;
  p_brine : bool;
  p_offset : nat;
  p_micps : nat
}.

(** The constants of the structure. *)
Record indices := mkIndices {
  numEq : Z;
  (* primary variables *)
  waterSwitchIdx : Z;
  pressureSwitchIdx : Z;
  compositionSwitchIdx : Z;
  solventSaturationIdx : Z;
  zFractionIdx : Z;
  polymerConcentrationIdx : Z;
  polymerMoleWeightIdx : Z;
  microbialConcentrationIdx : Z;
  oxygenConcentrationIdx : Z;
  ureaConcentrationIdx : Z;
  biofilmConcentrationIdx : Z;
  calciteConcentrationIdx : Z;
  foamConcentrationIdx : Z;
  saltConcentrationIdx : Z;
  temperatureIdx : Z;
  (* equations *)
  conti0EqIdx : Z;
  contiSolventEqIdx : Z;
  contiZfracEqIdx : Z;
  contiPolymerEqIdx : Z;
  contiPolymerMWEqIdx : Z;
  contiMicrobialEqIdx : Z;
  contiOxygenEqIdx : Z;
  contiUreaEqIdx : Z;
  contiBiofilmEqIdx : Z;
  contiCalciteEqIdx : Z;
  contiFoamEqIdx : Z;
  contiBrineEqIdx : Z;
  contiEnergyEqIdx : Z
}.

Definition b2Z (b : bool) : Z := if b then 1 else 0.

(** [cond ? v : -1000]: the convention for a variable which is not used. *)
Definition used (c : bool) (v : Z) : Z := if c then v else -1000.

(** blackoilindices.hh 57-90: the [numX] constants ([enableX ? numXV : 0] is [numXV],
    since [enableX] is [numXV > 0]). *)
Definition nS (p : params) : Z := Z.of_nat (p_solvents p).
Definition nX (p : params) : Z := Z.of_nat (p_extbos p).
Definition nP (p : params) : Z := Z.of_nat (p_polymers p).
Definition nE (p : params) : Z := Z.of_nat (p_energy p).
Definition nM (p : params) : Z := Z.of_nat (p_micps p).
Definition nF (p : params) : Z := b2Z (p_foam p).
Definition nB (p : params) : Z := b2Z (p_brine p).
Definition off (p : params) : Z := Z.of_nat (p_offset p).

(** blackoilindices.hh 92-94 (and 96-98, 96-98 of the other two files). *)
Definition num_eq (numPhases : Z) (p : params) : Z :=
  numPhases + nS p + nX p + nP p + nE p + nF p + nB p + nM p.

(** blackoilindices.hh 113-236. *)
Definition three_phase (p : params) : indices :=
  let np := 3 in
  let pol := used (0 <? nP p) (off p + np + nS p) in
  let mic := used (0 <? nM p) (off p + np + nS p) in
  let oxy := used (1 <? nM p) (mic + 1) in
  let ure := used (2 <? nM p) (oxy + 1) in
  let bio := used (3 <? nM p) (ure + 1) in
  let epol := used (0 <? nP p) (off p + np + nS p + nX p) in
  let emic := used (0 <? nM p) (off p + np + nS p + nX p) in
  let eoxy := used (1 <? nM p) (emic + 1) in
  let eure := used (2 <? nM p) (eoxy + 1) in
  let ebio := used (3 <? nM p) (eure + 1) in
  {| numEq := num_eq np p;
     waterSwitchIdx := off p + 0;
     pressureSwitchIdx := off p + 1;
     compositionSwitchIdx := off p + 2;
     solventSaturationIdx := used (0 <? nS p) (off p + np);
     zFractionIdx := used (0 <? nX p) (off p + np + nS p);
     polymerConcentrationIdx := pol;
     polymerMoleWeightIdx := used (1 <? nP p) (pol + 1);
     microbialConcentrationIdx := mic;
     oxygenConcentrationIdx := oxy;
     ureaConcentrationIdx := ure;
     biofilmConcentrationIdx := bio;
     calciteConcentrationIdx := used (4 <? nM p) (bio + 1);
     foamConcentrationIdx := used (p_foam p) (off p + np + nS p + nX p + nP p + nM p);
     saltConcentrationIdx :=
       used (p_brine p) (off p + np + nS p + nX p + nX p + nP p + nM p + nF p);
     temperatureIdx :=
       used (0 <? nE p) (off p + np + nS p + nX p + nP p + nM p + nF p + nB p);
     conti0EqIdx := off p + 0;
     contiSolventEqIdx := used (0 <? nS p) (off p + np);
     contiZfracEqIdx := used (0 <? nX p) (off p + np + nS p);
     contiPolymerEqIdx := epol;
     contiPolymerMWEqIdx := used (1 <? nP p) (epol + 1);
     contiMicrobialEqIdx := emic;
     contiOxygenEqIdx := eoxy;
     contiUreaEqIdx := eure;
     contiBiofilmEqIdx := ebio;
     contiCalciteEqIdx := used (4 <? nM p) (ebio + 1);
     contiFoamEqIdx := used (p_foam p) (off p + np + nS p + nX p + nP p + nM p);
     contiBrineEqIdx := used (p_brine p) (off p + np + nS p + nX p + nP p + nM p + nF p);
     contiEnergyEqIdx :=
       used (0 <? nE p) (off p + np + nS p + nX p + nP p + nM p + nF p + nB p) |}.

(** blackoiltwophaseindices.hh 52-54 and 111-270; [dis] is the template parameter
    [disabledCanonicalCompIdx]: 0 oil, 1 water, 2 gas. *)
Definition two_phase (dis : nat) (p : params) : indices :=
  let np := 2 in
  let oilEnabled := negb (dis =? 0)%nat in
  let waterEnabled := negb (dis =? 1)%nat in
  let gasEnabled := negb (dis =? 2)%nat in
  let pol := used (0 <? nP p) (off p + np + nS p) in
  let mic := used (0 <? nM p) (off p + np + nS p) in
  let oxy := used (1 <? nM p) (mic + 1) in
  let ure := used (2 <? nM p) (oxy + 1) in
  let bio := used (3 <? nM p) (ure + 1) in
  {| numEq := num_eq np p;
     waterSwitchIdx := if waterEnabled then off p + 0 else -10000;
     pressureSwitchIdx := if waterEnabled then off p + 1 else off p + 0;
     compositionSwitchIdx := if gasEnabled && oilEnabled then off p + 1 else -10000;
     solventSaturationIdx := used (0 <? nS p) (off p + np);
     zFractionIdx := used (0 <? nX p) (off p + np + nS p);
     polymerConcentrationIdx := pol;
     polymerMoleWeightIdx := used (1 <? nP p) (pol + 1);
     microbialConcentrationIdx := mic;
     oxygenConcentrationIdx := oxy;
     ureaConcentrationIdx := ure;
     biofilmConcentrationIdx := bio;
     calciteConcentrationIdx := used (4 <? nM p) (bio + 1);
     foamConcentrationIdx := used (p_foam p) (off p + np + nS p + nP p + nM p);
     saltConcentrationIdx := used (p_brine p) (off p + np + nS p + nP p + nM p + nF p);
     temperatureIdx :=
       used (0 <? nE p) (off p + np + nS p + nX p + nP p + nM p + nF p + nB p);
     conti0EqIdx := off p + 0;
     contiSolventEqIdx := used (0 <? nS p) (off p + np);
     contiZfracEqIdx := used (0 <? nX p) (off p + np + nS p);
     contiPolymerEqIdx := pol;
     contiPolymerMWEqIdx := used (1 <? nP p) (pol + 1);
     contiMicrobialEqIdx := mic;
     contiOxygenEqIdx := oxy;
     contiUreaEqIdx := ure;
     contiBiofilmEqIdx := bio;
     contiCalciteEqIdx := used (4 <? nM p) (bio + 1);
     contiFoamEqIdx := used (p_foam p) (off p + np + nS p + nP p + nM p);
     contiBrineEqIdx := used (p_brine p) (off p + np + nS p + nP p + nM p + nF p);
     contiEnergyEqIdx :=
       used (0 <? nE p) (off p + np + nS p + nX p + nP p + nM p + nF p + nB p) |}.

(** blackoilonephaseindices.hh 111-251. *)
Definition one_phase (p : params) : indices :=
  let np := 1 in
  let pol := used (0 <? nP p) (off p + np + nS p) in
  let mic := used (0 <? nM p) (off p + np + nS p) in
  let oxy := used (1 <? nM p) (mic + 1) in
  let ure := used (2 <? nM p) (oxy + 1) in
  let bio := used (3 <? nM p) (ure + 1) in
  {| numEq := num_eq np p;
     waterSwitchIdx := -10000;
     pressureSwitchIdx := off p + 0;
     compositionSwitchIdx := -10000;
     solventSaturationIdx := used (0 <? nS p) (off p + np);
     zFractionIdx := used (0 <? nX p) (off p + np + nS p);
     polymerConcentrationIdx := pol;
     polymerMoleWeightIdx := used (1 <? nP p) (pol + 1);
     microbialConcentrationIdx := mic;
     oxygenConcentrationIdx := oxy;
     ureaConcentrationIdx := ure;
     biofilmConcentrationIdx := bio;
     calciteConcentrationIdx := used (4 <? nM p) (bio + 1);
     foamConcentrationIdx := used (p_foam p) (off p + np + nS p + nP p + nM p);
     saltConcentrationIdx :=
       used (p_brine p) (off p + np + nS p + nX p + nP p + nM p + nF p);
     temperatureIdx :=
       used (0 <? nE p) (off p + np + nS p + nX p + nP p + nM p + nF p + nB p);
     conti0EqIdx := off p + 0;
     contiSolventEqIdx := used (0 <? nS p) (off p + np);
     contiZfracEqIdx := used (0 <? nX p) (off p + np + nS p);
     contiPolymerEqIdx := pol;
     contiPolymerMWEqIdx := used (1 <? nP p) (pol + 1);
     contiMicrobialEqIdx := mic;
     contiOxygenEqIdx := oxy;
     contiUreaEqIdx := ure;
     contiBiofilmEqIdx := bio;
     contiCalciteEqIdx := used (4 <? nM p) (bio + 1);
     contiFoamEqIdx := used (p_foam p) (off p + np + nS p + nP p + nM p);
     contiBrineEqIdx :=
       used (p_brine p) (off p + np + nS p + nX p + nP p + nM p + nF p);
     contiEnergyEqIdx :=
       used (0 <? nE p) (off p + np + nS p + nX p + nP p + nM p + nF p + nB p) |}.

(** blackoilindices.hh 97-101. *)
Definition toActive3 (c : nat) : nat := c.
Definition toCanonical3 (a : nat) : nat := a.

(** blackoiltwophaseindices.hh 182-200; the asserts are left to the theorems. *)
Definition toActive2 (dis c : nat) : nat :=
  if (dis =? 2)%nat then c else if (dis =? 1)%nat then (c / 2)%nat else (c - 1)%nat.

(** blackoiltwophaseindices.hh 202-218. *)
Definition toCanonical2 (dis a : nat) : nat :=
  if (dis =? 2)%nat then a else if (dis =? 1)%nat then (a * 2)%nat else (a + 1)%nat.

(** blackoilonephaseindices.hh 182-185. *)
Definition toActive1 (c : nat) : nat := 0%nat.

(** blackoilonephaseindices.hh 187-200; [can] is the template parameter
    [canonicalCompIdx]. *)
Definition toCanonical1 (can a : nat) : nat :=
  if (can =? 2)%nat then 2%nat else if (can =? 1)%nat then 1%nat else 0%nat.

(** blackoilmodel.hh 124-133: the index structure a black-oil simulation uses unless it
    defines its own; every extension is given by a boolean property. *)
Definition default_params (solvent extbo polymer energy foam brine micp : bool) : params :=
  mkParams (Nat.b2n solvent) (Nat.b2n extbo) (Nat.b2n polymer) (Nat.b2n energy) foam brine 0
           (Nat.b2n micp).
