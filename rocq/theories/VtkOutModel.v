(** Model of the field output: opm/models/io/baseoutputmodule.hh, the modules
    opm/models/io/vtk*module.hh, the functions vtkscalarfunction.hh, vtkvectorfunction.hh and
    vtktensorfunction.hh, and prepareOutputFields/appendOutputFields of
    opm/models/discretization/common/fvbasediscretization.hh:1676-1727.

    Simplifications: EnableVtkOutput is set (FvBaseProblem::writeOutput returns before all of
    this otherwise, fvbaseproblem.hh:786); the writer is the VTK writer (the dynamic_cast in
    commitBuffers succeeds); numbers are rationals, [None] stands for a value which is not a
    number (a division of zero by zero); the conversion to single precision in [evaluate] and
    the layout of the file (Dune::VTKWriter) are left out.  The member variables of the
    modules are one map [buffers] from quantities to arrays. *)
From Coq Require Export String Ascii List Arith Lia QArith Qminmax Qabs Permutation Bool.
Export ListNotations.
Local Open Scope nat_scope.

(** The quantities the modules write; one per buffer member of the modules. *)
Inductive qty :=
| PrimaryVariable | ProcessRank | DofIndex
| ExtrusionFactor | Pressure | Density | Saturation | Mobility | RelativePermeability | Viscosity
| AverageMolarMass | Porosity | IntrinsicPermeability
| Temperature | PhasePresence
| MoleFraction | MassFraction | Molarity | TotalMassFraction | TotalMoleFraction | Fugacity | FugacityCoefficient
| Tortuosity | DiffusionCoefficient | EffectiveDiffusionCoefficient
| SolidInternalEnergy | ThermalConductivity | Enthalpy | InternalEnergy
| EquilibriumRatio | LiquidFraction
| GasDissolutionFactor | OilVaporizationFactor | OilFvf | GasFvf | WaterFvf
| OilSaturationPressure | GasSaturationPressure | SaturatedRs | SaturatedRv
| OilSaturationRatio | GasSaturationRatio | MeaningWater | MeaningGas | MeaningPressure
| SolventSaturation | SolventRsw | SolventDensity | SolventViscosity | SolventMobility
| PolymerConcentration | PolymerDeadPoreVolume | PolymerRockDensity | PolymerAdsorption
| PolymerViscosityCorrection | WaterViscosityCorrection
| RockInternalEnergy | TotalThermalConductivity | FluidInternalEnergy | FluidEnthalpy
| MicrobialConcentration | OxygenConcentration | UreaConcentration | BiofilmFraction | CalciteFraction
| FractureSaturation | FractureMobility | FractureRelativePermeability | FracturePorosity
| FractureIntrinsicPermeability.

Scheme Equality for qty.

(** baseoutputmodule.hh:142-151. *)
Inductive bufferType := DofBuffer | VertexBuffer | ElementBuffer.

(** The kinds of buffers, baseoutputmodule.hh:89-94: one array, or one per phase, component,
    pair of both, equation, or entry of a matrix. *)
Inductive shape := ScalarShape | PhaseShape | ComponentShape | PhaseComponentShape | EqShape | TensorShape.

(** The conditions under which processElement skips a value: none, [phaseIsActive]
    (vtkmultiphasemodule.hh:218), not on a fracture (vtkdiscretefracturemodule.hh:172), oil and
    gas both active (vtkblackoilmodule.hh:196). *)
Inductive guard := Always | ActivePhase | OnFracture | OilAndGas.

(** One buffer member of a module: the parameter which asks for it, the name or the pattern
    of the names given to commit*Buffer_, its kind, and the quantity stored into it. *)
Record field := mkField { fParam : string; fPattern : string; fShape : shape; fLoc : bufferType;
                          fGuard : guard; fQty : qty }.

Open Scope string_scope.

(** VtkPrimaryVarsModule, vtkprimaryvarsmodule.hh:92-151. *)
Definition primaryVarsFields : list field :=
  [ mkField "VtkWritePrimaryVars" "PV_%s" EqShape DofBuffer Always PrimaryVariable;
    mkField "VtkWriteProcessRank" "process rank" ScalarShape ElementBuffer Always ProcessRank;
    mkField "VtkWriteDofIndex" "DOF index" ScalarShape DofBuffer Always DofIndex ].

(** VtkMultiPhaseModule, vtkmultiphasemodule.hh:151-239, 299-326 (not the velocities and
    gradients, which are below). *)
Definition multiPhaseFields : list field :=
  [ mkField "VtkWriteExtrusionFactor" "extrusionFactor" ScalarShape DofBuffer Always ExtrusionFactor;
    mkField "VtkWritePressures" "pressure_%s" PhaseShape DofBuffer ActivePhase Pressure;
    mkField "VtkWriteDensities" "density_%s" PhaseShape DofBuffer ActivePhase Density;
    mkField "VtkWriteSaturations" "saturation_%s" PhaseShape DofBuffer ActivePhase Saturation;
    mkField "VtkWriteMobilities" "mobility_%s" PhaseShape DofBuffer ActivePhase Mobility;
    mkField "VtkWriteRelativePermeabilities" "relativePerm_%s" PhaseShape DofBuffer ActivePhase RelativePermeability;
    mkField "VtkWriteViscosities" "viscosity_%s" PhaseShape DofBuffer ActivePhase Viscosity;
    mkField "VtkWriteAverageMolarMasses" "averageMolarMass_%s" PhaseShape DofBuffer ActivePhase AverageMolarMass;
    mkField "VtkWritePorosity" "porosity" ScalarShape DofBuffer Always Porosity;
    mkField "VtkWriteIntrinsicPermeabilities" "intrinsicPerm" TensorShape DofBuffer Always IntrinsicPermeability ].

(** VtkTemperatureModule, vtktemperaturemodule.hh:89-128. *)
Definition temperatureFields : list field :=
  [ mkField "VtkWriteTemperature" "temperature" ScalarShape DofBuffer Always Temperature ].

(** VtkPhasePresenceModule, vtkphasepresencemodule.hh:85-122. *)
Definition phasePresenceFields : list field :=
  [ mkField "VtkWritePhasePresence" "phase presence" ScalarShape DofBuffer Always PhasePresence ].

(** VtkCompositionModule, vtkcompositionmodule.hh:118-227. *)
Definition compositionFields : list field :=
  [ mkField "VtkWriteMoleFractions" "moleFrac_%s^%s" PhaseComponentShape DofBuffer Always MoleFraction;
    mkField "VtkWriteMassFractions" "massFrac_%s^%s" PhaseComponentShape DofBuffer Always MassFraction;
    mkField "VtkWriteMolarities" "molarity_%s^%s" PhaseComponentShape DofBuffer Always Molarity;
    mkField "VtkWriteTotalMassFractions" "totalMassFrac^%s" ComponentShape DofBuffer Always TotalMassFraction;
    mkField "VtkWriteTotalMoleFractions" "totalMoleFrac^%s" ComponentShape DofBuffer Always TotalMoleFraction;
    mkField "VtkWriteFugacities" "fugacity^%s" ComponentShape DofBuffer Always Fugacity;
    mkField "VtkWriteFugacityCoeffs" "fugacityCoeff_%s^%s" PhaseComponentShape DofBuffer Always FugacityCoefficient ].

(** VtkDiffusionModule, vtkdiffusionmodule.hh:108-166. *)
Definition diffusionFields : list field :=
  [ mkField "VtkWriteTortuosities" "tortuosity" PhaseShape DofBuffer Always Tortuosity;
    mkField "VtkWriteDiffusionCoefficients" "diffusionCoefficient" PhaseComponentShape DofBuffer Always DiffusionCoefficient;
    mkField "VtkWriteEffectiveDiffusionCoefficients" "effectiveDiffusionCoefficient" PhaseComponentShape DofBuffer Always
            EffectiveDiffusionCoefficient ].

(** VtkEnergyModule, vtkenergymodule.hh:113-174. *)
Definition energyFields : list field :=
  [ mkField "VtkWriteSolidInternalEnergy" "internalEnergySolid" ScalarShape DofBuffer Always SolidInternalEnergy;
    mkField "VtkWriteThermalConductivity" "thermalConductivity" ScalarShape DofBuffer Always ThermalConductivity;
    mkField "VtkWriteEnthalpies" "enthalpy_%s" PhaseShape DofBuffer Always Enthalpy;
    mkField "VtkWriteInternalEnergies" "internalEnergy_%s" PhaseShape DofBuffer Always InternalEnergy ].

(** VtkPTFlashModule, vtkptflashmodule.hh:99-148. *)
Definition ptFlashFields : list field :=
  [ mkField "VtkWriteEquilibriumConstants" "K^%s" ComponentShape DofBuffer Always EquilibriumRatio;
    mkField "VtkWriteLiquidMoleFractions" "L" ScalarShape DofBuffer Always LiquidFraction ].

(** VtkBlackOilModule, vtkblackoilmodule.hh:142-303. *)
Definition blackOilFields : list field :=
  [ mkField "VtkWriteGasDissolutionFactor" "R_s" ScalarShape DofBuffer OilAndGas GasDissolutionFactor;
    mkField "VtkWriteOilVaporizationFactor" "R_v" ScalarShape DofBuffer OilAndGas OilVaporizationFactor;
    mkField "VtkWriteOilFormationVolumeFactor" "B_o" ScalarShape DofBuffer Always OilFvf;
    mkField "VtkWriteGasFormationVolumeFactor" "B_g" ScalarShape DofBuffer Always GasFvf;
    mkField "VtkWriteWaterFormationVolumeFactor" "B_w" ScalarShape DofBuffer Always WaterFvf;
    mkField "VtkWriteOilSaturationPressure" "p_o,sat" ScalarShape DofBuffer OilAndGas OilSaturationPressure;
    mkField "VtkWriteGasSaturationPressure" "p_g,sat" ScalarShape DofBuffer OilAndGas GasSaturationPressure;
    mkField "VtkWriteSaturatedOilGasDissolutionFactor" "R_s,sat" ScalarShape DofBuffer OilAndGas SaturatedRs;
    mkField "VtkWriteSaturatedGasOilVaporizationFactor" "R_v,sat" ScalarShape DofBuffer OilAndGas SaturatedRv;
    mkField "VtkWriteSaturationRatios" "saturation ratio_oil" ScalarShape DofBuffer OilAndGas OilSaturationRatio;
    mkField "VtkWriteSaturationRatios" "saturation ratio_gas" ScalarShape DofBuffer OilAndGas GasSaturationRatio;
    mkField "VtkWritePrimaryVarsMeaning" "primary vars meaning water" ScalarShape DofBuffer Always MeaningWater;
    mkField "VtkWritePrimaryVarsMeaning" "primary vars meaning gas" ScalarShape DofBuffer Always MeaningGas;
    mkField "VtkWritePrimaryVarsMeaning" "primary vars meaning pressure" ScalarShape DofBuffer Always MeaningPressure ].

(** VtkBlackOilSolventModule, vtkblackoilsolventmodule.hh:114-201. *)
Definition solventFields : list field :=
  [ mkField "VtkWriteSolventSaturation" "saturation_solvent" ScalarShape DofBuffer Always SolventSaturation;
    mkField "VtkWriteSolventRsw" "dissolved_solvent" ScalarShape DofBuffer Always SolventRsw;
    mkField "VtkWriteSolventDensity" "density_solvent" ScalarShape DofBuffer Always SolventDensity;
    mkField "VtkWriteSolventViscosity" "viscosity_solvent" ScalarShape DofBuffer Always SolventViscosity;
    mkField "VtkWriteSolventMobility" "mobility_solvent" ScalarShape DofBuffer Always SolventMobility ].

(** VtkBlackOilPolymerModule, vtkblackoilpolymermodule.hh:125-220, 222-266 (the parameter of
    the last field is the one its accessor reads). *)
Definition polymerFields : list field :=
  [ mkField "VtkWritePolymerConcentration" "polymer concentration" ScalarShape DofBuffer Always PolymerConcentration;
    mkField "VtkWritePolymerDeadPoreVolume" "dead pore volume fraction" ScalarShape DofBuffer Always PolymerDeadPoreVolume;
    mkField "VtkWritePolymerRockDensity" "polymer rock density" ScalarShape DofBuffer Always PolymerRockDensity;
    mkField "VtkWritePolymerAdsorption" "polymer adsorption" ScalarShape DofBuffer Always PolymerAdsorption;
    mkField "VtkWritePolymerViscosityCorrection" "polymer viscosity correction" ScalarShape DofBuffer Always
            PolymerViscosityCorrection;
    mkField "VtkWritePolymerViscosityCorrection" "water viscosity correction" ScalarShape DofBuffer Always
            WaterViscosityCorrection ].

(** VtkBlackOilEnergyModule, vtkblackoilenergymodule.hh:111-192. *)
Definition boEnergyFields : list field :=
  [ mkField "VtkWriteRockInternalEnergy" "volumetric internal energy rock" ScalarShape DofBuffer Always RockInternalEnergy;
    mkField "VtkWriteTotalThermalConductivity" "total thermal conductivity" ScalarShape DofBuffer Always
            TotalThermalConductivity;
    mkField "VtkWriteFluidInternalEnergies" "internal energy_%s" PhaseShape DofBuffer ActivePhase FluidInternalEnergy;
    mkField "VtkWriteFluidEnthalpies" "enthalpy_%s" PhaseShape DofBuffer ActivePhase FluidEnthalpy ].

(** VtkBlackOilMICPModule, vtkblackoilmicpmodule.hh:112-200. *)
Definition micpFields : list field :=
  [ mkField "VtkWriteMicrobialConcentration" "microbial concentration" ScalarShape DofBuffer Always MicrobialConcentration;
    mkField "VtkWriteOxygenConcentration" "oxygen concentration" ScalarShape DofBuffer Always OxygenConcentration;
    mkField "VtkWriteUreaConcentration" "urea concentration" ScalarShape DofBuffer Always UreaConcentration;
    mkField "VtkWriteBiofilmConcentration" "biofilm fraction" ScalarShape DofBuffer Always BiofilmFraction;
    mkField "VtkWriteCalciteConcentration" "calcite fraction" ScalarShape DofBuffer Always CalciteFraction ].

(** VtkDiscreteFractureModule, vtkdiscretefracturemodule.hh:129-204, 247-264 (not the volume
    fraction and the velocities, which are below). *)
Definition fractureFields : list field :=
  [ mkField "VtkWriteFractureSaturations" "fractureSaturation_%s" PhaseShape DofBuffer OnFracture FractureSaturation;
    mkField "VtkWriteFractureMobilities" "fractureMobility_%s" PhaseShape DofBuffer OnFracture FractureMobility;
    mkField "VtkWriteFractureRelativePermeabilities" "fractureRelativePerm_%s" PhaseShape DofBuffer OnFracture
            FractureRelativePermeability;
    mkField "VtkWriteFracturePorosity" "fracturePorosity" ScalarShape DofBuffer OnFracture FracturePorosity;
    mkField "VtkWriteFractureIntrinsicPermeabilities" "fractureIntrinsicPerm" ScalarShape DofBuffer OnFracture
            FractureIntrinsicPermeability ].

(** The parameters VtkBlackOilPolymerModule registers, vtkblackoilpolymermodule.hh:101-118. *)
Definition polymerParameters : list string :=
  [ "VtkWritePolymerConcentration"; "VtkWritePolymerDeadPoreVolume"; "VtkWritePolymerViscosityCorrection";
    "VtkWriteWaterViscosityCorrection"; "VtkWritePolymerRockDensity"; "VtkWritePolymerAdsorption" ].

Close Scope string_scope.

(** The models and the modules each of them registers, in this order
    (fvbasediscretization.hh:1867-1872, multiphasebasemodel.hh:254-261, immisciblemodel.hh:354-360,
    flashmodel.hh:314-324, ptflash/flashmodel.hh:284-295, ncpmodel.hh:464-473, pvsmodel.hh:612-623,
    richardsmodel.hh:379-382, discretefracturemodel.hh:157-162, blackoilmodel.hh:591-606 with the
    modules registered by the extensions if they are enabled). *)
Inductive model := Immiscible | Flash | PtFlash | Ncp | Pvs | Richards | DiscreteFracture | BlackOil.

Record switches := mkSwitches { enableEnergy : bool; enableDiffusion : bool; enableSolvent : bool;
                                enablePolymer : bool; enableMICP : bool }.

Definition opt (b : bool) (l : list field) : list field := if b then l else [].

Definition fieldsOf (m : model) (w : switches) : list field :=
  primaryVarsFields ++ multiPhaseFields ++ temperatureFields ++
  match m with
  | Immiscible => opt (enableEnergy w) energyFields
  | Flash | Ncp => compositionFields ++ opt (enableDiffusion w) diffusionFields ++ opt (enableEnergy w) energyFields
  | PtFlash => compositionFields ++ ptFlashFields ++ opt (enableDiffusion w) diffusionFields
               ++ opt (enableEnergy w) energyFields
  | Pvs => phasePresenceFields ++ compositionFields ++ opt (enableDiffusion w) diffusionFields
           ++ opt (enableEnergy w) energyFields
  | Richards => []
  | DiscreteFracture => opt (enableEnergy w) energyFields ++ fractureFields
  | BlackOil => opt (enableSolvent w) solventFields ++ opt (enablePolymer w) polymerFields
                ++ opt (enableEnergy w) boEnergyFields ++ opt (enableMICP w) micpFields
                ++ blackOilFields ++ compositionFields ++ opt (enableDiffusion w) diffusionFields
  end.

(** What the modules see of the fluid system, the model and the parameters. *)
Record config := mkConfig { numPhases : nat; numComponents : nat; numEq : nat; dimWorld : nat;
                            phaseName : nat -> string; componentName : nat -> string; primaryVarName : nat -> string;
                            phaseIsActive : nat -> bool; oilAndGasActive : bool;
                            parameter : string -> bool }.

(** The grid of one process: the number of degrees of freedom, elements and vertices
    (getBufferSize, baseoutputmodule.hh:424-432), which elements are interior, the global
    indices of the primary degrees of freedom of an element and of its corners, the positions
    of the corners in the reference element, and the fracture vertices. *)
Record grid := mkGrid { numGridDof : nat; numElements : nat; numVertices : nat;
                        isInterior : nat -> bool; primaryDofs : nat -> list nat;
                        cornerVertices : nat -> list nat; cornerPositions : nat -> list (list Q);
                        isFractureVertex : nat -> bool }.

Definition getBufferSize (g : grid) (t : bufferType) : nat :=
  match t with VertexBuffer => numVertices g | ElementBuffer => numElements g | DofBuffer => numGridDof g end.

(** The buffers: for each quantity and each pair of indices (phase, component; only one of
    them counts for most kinds; row and column for matrices) an array. *)
Definition key := (qty * nat * nat)%type.
Definition buffers := key -> list (option Q).

Definition key_eqb (a b : key) : bool :=
  match a, b with (q, p, c), (q', p', c') => qty_beq q q' && (p =? p')%nat && (c =? c')%nat end.

(** The pairs of indices of a buffer in the order of the loops of commit*Buffer_,
    baseoutputmodule.hh:310-391. *)
Definition pairs (n m : nat) : list (nat * nat) :=
  flat_map (fun i => map (fun j => (i, j)) (seq 0 m)) (seq 0 n).

Definition subs (cf : config) (s : shape) : list (nat * nat) :=
  match s with
  | ScalarShape => [(0, 0)]
  | PhaseShape => map (fun i => (i, 0)) (seq 0 (numPhases cf))
  | ComponentShape => map (fun i => (0, i)) (seq 0 (numComponents cf))
  | PhaseComponentShape => pairs (numPhases cf) (numComponents cf)
  | EqShape => map (fun i => (i, 0)) (seq 0 (numEq cf))
  | TensorShape => pairs (dimWorld cf) (dimWorld cf)
  end%nat.

Definition selected (cf : config) (f : field) : bool := parameter cf (fParam f).

(** std::vector::resize followed by std::fill, baseoutputmodule.hh:156-239: the old entries
    are kept by [resize] and all entries overwritten by [fill]. *)
Definition resizeFill (old : list (option Q)) (n : nat) : list (option Q) :=
  let resized := firstn n old ++ repeat (Some 0%Q) (n - length old) in
  map (fun _ => Some 0%Q) resized.

Definition setBuffer (b : buffers) (k : key) (a : list (option Q)) : buffers :=
  fun k' => if key_eqb k' k then a else b k'.

Definition allocField (cf : config) (g : grid) (b : buffers) (f : field) : buffers :=
  if selected cf f then
    fold_left (fun b' s => setBuffer b' (fQty f, fst s, snd s) (resizeFill (b' (fQty f, fst s, snd s)) (getBufferSize g (fLoc f))))
              (subs cf (fShape f)) b
  else b.

(** allocBuffers of all modules, fvbasediscretization.hh:1681-1684. *)
Definition allocBuffers (cf : config) (g : grid) (fs : list field) (b : buffers) : buffers :=
  fold_left (allocField cf g) fs b.

(** The values the element context provides: quantity, indices, element, local index.
    Besides the quantities above: the molar density of a phase. *)
Record values := mkValues { val : qty -> nat -> nat -> nat -> nat -> Q;
                            molarDensity : nat -> nat -> nat -> Q;
                            rank : nat }.

Fixpoint sumTo (n : nat) (f : nat -> Q) : Q := match n with O => 0%Q | S k => (sumTo k f + f k)%Q end.

(** Division of rationals as IEEE numbers divide as far as the dividend is zero when the
    divisor is. *)
Definition fdiv (a b : Q) : option Q := if Qeq_bool b 0 then None else Some (a / b)%Q.

Definition natQ (n : nat) : Q := inject_Z (Z.of_nat n).

(** The value stored for one quantity: the total fractions of a component
    (vtkcompositionmodule.hh:169-195), the fugacity and the temperature of phase 0
    (vtkcompositionmodule.hh:197, vtktemperaturemodule.hh:112), the first entry of the
    permeability of a fracture (vtkdiscretefracturemodule.hh:182-185, part of [val]), the ten
    fold urea concentration (vtkblackoilmicpmodule.hh:158-160), the own index and rank
    (vtkprimaryvarsmodule.hh:113-123), and the value of the context for all others. *)
Definition written (cf : config) (v : values) (q : qty) (p c e i I : nat) : option Q :=
  match q with
  | TotalMassFraction =>
      fdiv (sumTo (numPhases cf) (fun a => val v Density a 0 e i * val v Saturation a 0 e i * val v MassFraction a c e i)%Q)
           (sumTo (numPhases cf) (fun a => val v Density a 0 e i * val v Saturation a 0 e i)%Q)
  | TotalMoleFraction =>
      fdiv (sumTo (numPhases cf) (fun a => molarDensity v a e i * val v Saturation a 0 e i * val v MoleFraction a c e i)%Q)
           (sumTo (numPhases cf) (fun a => molarDensity v a e i * val v Saturation a 0 e i)%Q)
  | Fugacity => Some (val v Fugacity 0%nat c e i)
  | Temperature => Some (val v Temperature 0%nat 0%nat e i)
  | UreaConcentration => Some (10 * val v UreaConcentration 0%nat 0%nat e i)%Q
  | DofIndex => Some (natQ I)
  | ProcessRank => Some (natQ (rank v))
  | _ => Some (val v q p c e i)
  end.

Definition passes (cf : config) (g : grid) (gd : guard) (p I : nat) : bool :=
  match gd with
  | Always => true
  | ActivePhase => phaseIsActive cf p
  | OnFracture => isFractureVertex g I
  | OilAndGas => oilAndGasActive cf
  end.

(** One assignment to an entry of a buffer. *)
Record write := mkWrite { wKey : key; wIdx : nat; wVal : option Q }.

(** processElement for one field and one degree of freedom. *)
Definition dofWrites (cf : config) (g : grid) (v : values) (e : nat) (f : field) (iI : nat * nat) : list write :=
  flat_map (fun s => if passes cf g (fGuard f) (fst s) (snd iI)
                     then [mkWrite (fQty f, fst s, snd s) (snd iI) (written cf v (fQty f) (fst s) (snd s) e (fst iI) (snd iI))]
                     else [])
           (subs cf (fShape f)).

(** processElement for one field: the element buffers are written once
    (vtkprimaryvarsmodule.hh:113-116), the others for all primary degrees of freedom. *)
Definition fieldWrites (cf : config) (g : grid) (v : values) (e : nat) (f : field) : list write :=
  if selected cf f then
    match fLoc f with
    | ElementBuffer => dofWrites cf g v e f (0, e)%nat
    | _ => flat_map (dofWrites cf g v e f) (combine (seq 0 (length (primaryDofs g e))) (primaryDofs g e))
    end
  else [].

(** processElement of all modules for all interior elements,
    fvbasediscretization.hh:1694-1713, in the order of one thread. *)
Definition allWrites (cf : config) (g : grid) (v : values) (fs : list field) : list write :=
  flat_map (fun e => if isInterior g e then flat_map (fieldWrites cf g v e) fs else []) (seq 0 (numElements g)).

Fixpoint setNth (l : list (option Q)) (n : nat) (x : option Q) : list (option Q) :=
  match l, n with
  | [], _ => []
  | _ :: t, O => x :: t
  | a :: t, S k => a :: setNth t k x
  end.

(** An assignment; [None]: the index is outside of the array. *)
Definition applyWrite (b : buffers) (w : write) : option buffers :=
  if (wIdx w <? length (b (wKey w)))%nat then Some (setBuffer b (wKey w) (setNth (b (wKey w)) (wIdx w) (wVal w)))
  else None.

Fixpoint applyWrites (b : buffers) (ws : list write) : option buffers :=
  match ws with
  | [] => Some b
  | w :: t => match applyWrite b w with Some b' => applyWrites b' t | None => None end
  end.

(** snprintf with [%s] only: the text without the limit. *)
Fixpoint format (pat : string) (args : list string) : string :=
  match pat with
  | EmptyString => EmptyString
  | String c rest =>
      match rest with
      | String c' rest' =>
          if (Ascii.eqb c "%"%char && Ascii.eqb c' "s"%char)%bool then
            match args with
            | a :: t => String.append a (format rest' t)
            | [] => format rest' []
            end
          else String c (format rest args)
      | EmptyString => String c EmptyString
      end
  end.

(** [char name[512]; snprintf(name, 512, ...)]: at most 511 characters. *)
Definition snprintf (pat : string) (args : list string) : string := substring 0 511 (format pat args).

(** A field of the file: its name, whether it lives on cells or vertices, and the buffers of
    its components. *)
Inductive place := OnCells | OnVertices.
Record entry := mkEntry { eName : string; ePlace : place; eComps : list key }.

(** attach*DofData_: ecfvbaseoutputmodule.hh:55-79, vcfvbaseoutputmodule.hh:57-82. *)
Inductive disc := Ecfv | Vcfv.
Definition placeOf (d : disc) (t : bufferType) : place :=
  match t with
  | DofBuffer => match d with Ecfv => OnCells | Vcfv => OnVertices end
  | VertexBuffer => OnVertices
  | ElementBuffer => OnCells
  end.

(** The decimal digits of a column index (an [ostream <<] of an unsigned number below 10). *)
Definition digit (n : nat) : string := String (ascii_of_nat (48 + n)) EmptyString.

(** commit*Buffer_, baseoutputmodule.hh:244-391; attachTensor*Data,
    vtkmultiwriter.hh:315-331, 364-380, with VtkTensorFunction: one vector field per column. *)
Definition commitField (cf : config) (d : disc) (f : field) : list entry :=
  if selected cf f then
    let pl := placeOf d (fLoc f) in
    let one name s := mkEntry name pl [(fQty f, fst s, snd s)] in
    match fShape f with
    | ScalarShape => map (one (fPattern f)) (subs cf ScalarShape)
    | PhaseShape => map (fun s => one (snprintf (fPattern f) [phaseName cf (fst s)]) s) (subs cf PhaseShape)
    | ComponentShape => map (fun s => one (snprintf (fPattern f) [componentName cf (snd s)]) s) (subs cf ComponentShape)
    | PhaseComponentShape =>
        map (fun s => one (snprintf (fPattern f) [phaseName cf (fst s); componentName cf (snd s)]) s)
            (subs cf PhaseComponentShape)
    | EqShape => map (fun s => one (snprintf (fPattern f) [primaryVarName cf (fst s)]) s) (subs cf EqShape)
    | TensorShape =>
        map (fun col => mkEntry (fPattern f ++ "[" ++ digit col ++ "]")%string pl
                                (map (fun row => (fQty f, row, col)) (seq 0 (dimWorld cf))))
            (seq 0 (dimWorld cf))
    end
  else [].

(** appendOutputFields, fvbasediscretization.hh:1721-1727. *)
Definition commitAll (cf : config) (d : disc) (fs : list field) : list entry := flat_map (commitField cf d) fs.

(** The nearest corner, vtkscalarfunction.hh:88-101: the norm is the largest absolute
    difference of a coordinate, the search starts with 1e100 and no corner. *)
Definition inf_norm (a b : list Q) : Q := fold_right (fun xy m => Qmax (Qabs (fst xy - snd xy)) m) 0%Q (combine a b).

Definition huge : Q := inject_Z (10 ^ 100).

Fixpoint nearestFrom (cs : list (list Q)) (xi : list Q) (k : nat) (best : Q) (imin : option nat) : option nat :=
  match cs with
  | [] => imin
  | c :: t => if Qle_bool best (inf_norm c xi) then nearestFrom t xi (S k) best imin
              else nearestFrom t xi (S k) (inf_norm c xi) (Some k)
  end.

Definition nearest (cs : list (list Q)) (xi : list Q) : option nat := nearestFrom cs xi 0 huge None.

(** VtkScalarFunction::evaluate, vtkscalarfunction.hh:76-111 (and the other two functions):
    component [k] of an entry seen in element [e] at the local position [xi].  The outer
    [None]: no such array entry. *)
Definition evaluate (g : grid) (b : buffers) (en : entry) (k e : nat) (xi : list Q) : option (option Q) :=
  match nth_error (eComps en) k with
  | None => None
  | Some ky =>
      match ePlace en with
      | OnCells => nth_error (b ky) e
      | OnVertices =>
          match nearest (cornerPositions g e) xi with
          | Some c => match nth_error (cornerVertices g e) c with Some vtx => nth_error (b ky) vtx | None => None end
          | None => None
          end
      end
  end.

(** * Quantities averaged over the faces: VtkMultiPhaseModule *)

(** What the module reads of the extensive quantities of a face: the global indices of the
    two degrees of freedom, the extrusion factor, and per phase the volume flux, the filter
    velocity and the potential gradient. *)
Record face := mkFace { fI : nat; fJ : nat; fExtrusion : Q; fFlux : nat -> Q; fVelocity : nat -> list Q;
                        fGradient : nat -> list Q }.

Definition vadd (a b : list Q) : list Q := map (fun xy => fst xy + snd xy)%Q (combine a b).
Definition vscale (a : list Q) (s : Q) : list Q := map (fun x => x * s)%Q a.

(** The buffers of one phase: the sums and the weights. *)
Record averages := mkAverages { aVec : nat -> list Q; aWeight : nat -> Q }.

(** allocBuffers, vtkmultiphasemodule.hh:165-188. *)
Definition zeroAverages (d : nat) : averages := mkAverages (fun _ => repeat 0%Q d) (fun _ => 0%Q).

Definition addAt (a : averages) (I : nat) (x : list Q) (w : Q) : averages :=
  mkAverages (fun k => if (k =? I)%nat then vadd (aVec a k) x else aVec a k)
             (fun k => if (k =? I)%nat then (aWeight a k + w)%Q else aWeight a k).

(** The weight of a face, vtkmultiphasemodule.hh:272-284; [norm] is two_norm. *)
Definition velocityWeight (norm : list Q -> Q) (p : nat) (f : face) : Q :=
  let w := (Qmax (1 # 10000000000000000) (Qabs (fFlux f p)) * fExtrusion f)%Q in
  let v := fVelocity f p in
  if Qle_bool (norm v) (1 # 100000000000000000000) then w else (w / norm v)%Q.

(** processElement for one face, vtkmultiphasemodule.hh:262-292. *)
Definition addVelocity (norm : list Q -> Q) (p : nat) (a : averages) (f : face) : averages :=
  let w := velocityWeight norm p f in
  let x := vscale (fVelocity f p) w in
  addAt (addAt a (fI f) x w) (fJ f) x w.

(** processElement for one face, vtkmultiphasemodule.hh:240-257: only the interior side. *)
Definition addGradient (p : nat) (a : averages) (f : face) : averages :=
  addAt a (fI f) (vscale (fGradient f p) (fExtrusion f)) (fExtrusion f).

Definition sumVelocities (norm : list Q -> Q) (d p : nat) (fs : list face) : averages :=
  fold_left (addVelocity norm p) fs (zeroAverages d).
Definition sumGradients (d p : nat) (fs : list face) : averages := fold_left (addGradient p) fs (zeroAverages d).

(** commitBuffers, vtkmultiphasemodule.hh:327-359: the sums divided by the weights. *)
Definition average (a : averages) (I : nat) : list (option Q) := map (fun x => fdiv x (aWeight a I)) (aVec a I).

(** * Discrete fractures: VtkDiscreteFractureModule *)

(** The faces of the averages below carry the fracture fluxes and velocities. *)
(** processElement, vtkdiscretefracturemodule.hh:210-240: only fracture edges; the weight is
    not divided by the norm of the velocity. *)
Definition fractureWeight (p : nat) (f : face) : Q :=
  (Qmax (1 # 10000000000000000) (Qabs (fFlux f p)) * fExtrusion f)%Q.

Definition addFractureVelocity (edge : nat -> nat -> bool) (p : nat) (a : averages) (f : face) : averages :=
  if edge (fI f) (fJ f) then
    let w := fractureWeight p f in
    let x := vscale (fVelocity f p) w in
    addAt (addAt a (fI f) x w) (fJ f) x w
  else a.

Definition sumFractureVelocities (edge : nat -> nat -> bool) (d p : nat) (fs : list face) : averages :=
  fold_left (addFractureVelocity edge p) fs (zeroAverages d).

(** commitBuffers, vtkdiscretefracturemodule.hh:275-280. *)
Definition fractureAverage (a : averages) (I : nat) : list Q :=
  map (fun x => x / Qmax (1 # 100000000000000000000) (aWeight a I))%Q (aVec a I).

(** The buffer of the fracture volumes after processElement for the elements in the given
    order, vtkdiscretefracturemodule.hh:170-206: the volume [vol e i] of the fractures in the
    sub-control volume is added once per phase. *)
Definition addFractureVolume (n : nat) (g : grid) (vol : nat -> nat -> Q) (b : nat -> Q) (eiI : nat * nat * nat)
  : nat -> Q :=
  match eiI with
  | (e, i, dof) => if isFractureVertex g dof
                 then fun k => if (k =? dof)%nat then fold_left (fun s _ => s + vol e i)%Q (seq 0 n) (b k) else b k
                 else b
  end.

Definition elementDofs (g : grid) (e : nat) : list (nat * nat * nat) :=
  map (fun iI => (e, fst iI, snd iI)) (combine (seq 0 (length (primaryDofs g e))) (primaryDofs g e)).

Definition interiorDofs (g : grid) : list (nat * nat * nat) :=
  flat_map (fun e => if isInterior g e then elementDofs g e else []) (seq 0 (numElements g)).

(** commitBuffers, vtkdiscretefracturemodule.hh:265-270. *)
Definition fractureVolumeFraction (cf : config) (g : grid) (vol : nat -> nat -> Q) (total : nat -> Q) (I : nat) : option Q :=
  fdiv (fold_left (addFractureVolume (numPhases cf) g vol) (interiorDofs g) (fun _ => 0%Q) I) (total I).

(** needExtensiveQuantities: VtkMultiPhaseModule overrides it (vtkmultiphasemodule.hh:370-373),
    all other modules keep [false] (baseoutputmodule.hh:138-139);
    prepareOutputFields updates the extensive quantities if one module asks for them
    (fvbasediscretization.hh:1683, 1700-1705). *)
Definition needExtensiveQuantities (cf : config) : bool :=
  parameter cf "VtkWriteFilterVelocities"%string || parameter cf "VtkWritePotentialGradients"%string.

(** The extensive quantities a module sees: those of this element or whatever the context
    still holds ([None]). *)
Definition facesSeen (cf : config) (fs : list face) : option (list face) :=
  if needExtensiveQuantities cf then Some fs else None.

Definition fractureVelocityOutput (cf : config) (edge : nat -> nat -> bool) (d p : nat) (fs : list face) (I : nat)
  : option (list Q) :=
  match facesSeen cf fs with
  | Some fs' => Some (fractureAverage (sumFractureVelocities edge d p fs') I)
  | None => None
  end.

(** * Several threads *)

(** [x += y] on memory shared by threads: the thread reads the old value into a register and
    writes the sum.  The threads of prepareOutputFields (fvbasediscretization.hh:1688-1714)
    run such steps without synchronization.  A location is the sum (one component) or the
    weight of a degree of freedom. *)
Inductive loc := SumOf (I : nat) | WeightOf (I : nat).
Inductive step := Read (l : loc) | AddWrite (l : loc) (x : Q).

Definition loc_eqb (a b : loc) : bool :=
  match a, b with SumOf i, SumOf j => (i =? j)%nat | WeightOf i, WeightOf j => (i =? j)%nat | _, _ => false end.

(** The steps of a thread for one face and one component of the velocity. *)
Definition plusAssign (l : loc) (x : Q) : list step := [Read l; AddWrite l x].
Definition faceSteps (norm : list Q -> Q) (p comp : nat) (f : face) : list step :=
  let w := velocityWeight norm p f in
  let x := nth comp (vscale (fVelocity f p) w) 0%Q in
  plusAssign (SumOf (fI f)) x ++ plusAssign (SumOf (fJ f)) x ++ plusAssign (WeightOf (fI f)) w ++ plusAssign (WeightOf (fJ f)) w.

(** The memory, and for each of two threads the steps left and the register. *)
Record threads := mkThreads { memory : loc -> Q; todo1 : list step; reg1 : Q; todo2 : list step; reg2 : Q }.

Definition runStep (m : loc -> Q) (r : Q) (s : step) : (loc -> Q) * Q :=
  match s with
  | Read l => (m, m l)
  | AddWrite l x => (fun l' => if loc_eqb l' l then (r + x)%Q else m l', r)
  end.

Inductive thread_step : threads -> threads -> Prop :=
| FirstThread : forall m s t1 r1 t2 r2,
    thread_step (mkThreads m (s :: t1) r1 t2 r2) (mkThreads (fst (runStep m r1 s)) t1 (snd (runStep m r1 s)) t2 r2)
| SecondThread : forall m t1 r1 s t2 r2,
    thread_step (mkThreads m t1 r1 (s :: t2) r2) (mkThreads (fst (runStep m r2 s)) t1 r1 t2 (snd (runStep m r2 s))).

Inductive thread_run : threads -> threads -> Prop :=
| RunDone : forall c, thread_run c c
| RunMore : forall a b c, thread_step a b -> thread_run b c -> thread_run a c.

(** Both threads start with the zeroed buffers. *)
Definition startThreads (norm : list Q -> Q) (p comp : nat) (fs1 fs2 : list face) : threads :=
  mkThreads (fun _ => 0%Q) (flat_map (faceSteps norm p comp) fs1) 0%Q (flat_map (faceSteps norm p comp) fs2) 0%Q.
