(** Vocabulary for the properties of the field output. *)
From Verif Require Export VtkOutModel.
From Verif Require VcfvModel.
Local Open Scope nat_scope.

(** ** What a file should show *)

(** The quantity a reader expects behind the name of a field (the part before the names of
    phase and component). *)
Definition expectedQty : list (string * qty) :=
  [ ("PV_", PrimaryVariable); ("process rank", ProcessRank); ("DOF index", DofIndex);
    ("extrusionFactor", ExtrusionFactor); ("pressure_", Pressure); ("density_", Density); ("saturation_", Saturation);
    ("mobility_", Mobility); ("relativePerm_", RelativePermeability); ("viscosity_", Viscosity);
    ("averageMolarMass_", AverageMolarMass); ("porosity", Porosity); ("intrinsicPerm", IntrinsicPermeability);
    ("temperature", Temperature); ("phase presence", PhasePresence);
    ("moleFrac_", MoleFraction); ("massFrac_", MassFraction); ("molarity_", Molarity);
    ("totalMassFrac^", TotalMassFraction); ("totalMoleFrac^", TotalMoleFraction); ("fugacity^", Fugacity);
    ("fugacityCoeff_", FugacityCoefficient);
    ("tortuosity", Tortuosity); ("diffusionCoefficient", DiffusionCoefficient);
    ("effectiveDiffusionCoefficient", EffectiveDiffusionCoefficient);
    ("internalEnergySolid", SolidInternalEnergy); ("thermalConductivity", ThermalConductivity);
    ("internalEnergy_", InternalEnergy);
    ("K^", EquilibriumRatio); ("L", LiquidFraction);
    ("R_s", GasDissolutionFactor); ("R_v", OilVaporizationFactor); ("B_o", OilFvf); ("B_g", GasFvf); ("B_w", WaterFvf);
    ("p_o,sat", OilSaturationPressure); ("p_g,sat", GasSaturationPressure); ("R_s,sat", SaturatedRs);
    ("R_v,sat", SaturatedRv); ("saturation ratio_oil", OilSaturationRatio); ("saturation ratio_gas", GasSaturationRatio);
    ("primary vars meaning water", MeaningWater); ("primary vars meaning gas", MeaningGas);
    ("primary vars meaning pressure", MeaningPressure);
    ("saturation_solvent", SolventSaturation); ("dissolved_solvent", SolventRsw); ("density_solvent", SolventDensity);
    ("viscosity_solvent", SolventViscosity); ("mobility_solvent", SolventMobility);
    ("polymer concentration", PolymerConcentration); ("dead pore volume fraction", PolymerDeadPoreVolume);
    ("polymer rock density", PolymerRockDensity); ("polymer adsorption", PolymerAdsorption);
    ("polymer viscosity correction", PolymerViscosityCorrection);
    ("water viscosity correction", WaterViscosityCorrection);
    ("volumetric internal energy rock", RockInternalEnergy); ("total thermal conductivity", TotalThermalConductivity);
    ("internal energy_", FluidInternalEnergy);
    ("microbial concentration", MicrobialConcentration); ("oxygen concentration", OxygenConcentration);
    ("urea concentration", UreaConcentration); ("biofilm fraction", BiofilmFraction); ("calcite fraction", CalciteFraction);
    ("fractureSaturation_", FractureSaturation); ("fractureMobility_", FractureMobility);
    ("fractureRelativePerm_", FractureRelativePermeability); ("fracturePorosity", FracturePorosity);
    ("fractureIntrinsicPerm", FractureIntrinsicPermeability);
    ("enthalpy_", Enthalpy); ("enthalpy_", FluidEnthalpy) ]%string.

(** The text of a pattern before the first place for a name. *)
Fixpoint head (p : string) : string :=
  match p with
  | EmptyString => EmptyString
  | String c r => if Ascii.eqb c "%"%char then EmptyString else String c (head r)
  end.

(** The name of the field for a phase and a component. *)
Definition fieldName (cf : config) (f : field) (p c : nat) : string :=
  match fShape f with
  | ScalarShape => fPattern f
  | PhaseShape => snprintf (fPattern f) [phaseName cf p]
  | ComponentShape => snprintf (fPattern f) [componentName cf c]
  | PhaseComponentShape => snprintf (fPattern f) [phaseName cf p; componentName cf c]
  | EqShape => snprintf (fPattern f) [primaryVarName cf p]
  | TensorShape => (fPattern f ++ "[" ++ digit c ++ "]")%string
  end.

(** Which component of the field holds it: the row of a matrix, else the only one. *)
Definition fieldComp (f : field) (p : nat) : nat := match fShape f with TensorShape => p | _ => 0 end.

(** ** Grids *)

(** The positions of the corners of a reference element: of one dimension, pairwise
    different, and in the unit cube. *)
Definition cornersOk (cs : list (list Q)) : Prop :=
  (forall a b, In a cs -> In b cs -> length a = length b) /\
  (forall j k, j < length cs -> k < length cs -> j <> k ->
     exists d, d < length (nth j cs []) /\ ~ (nth d (nth j cs []) 0 == nth d (nth k cs []) 0)%Q) /\
  (forall a x, In a cs -> In x a -> (0 <= x <= 1)%Q).

(** Degrees of freedom are the elements or the vertices. *)
Record gridOk (d : disc) (g : grid) : Prop := mkGridOk {
  g_dofs : match d with
           | Ecfv => numGridDof g = numElements g /\ forall e, e < numElements g -> primaryDofs g e = [e]
           | Vcfv => numGridDof g = numVertices g /\ forall e, e < numElements g -> primaryDofs g e = cornerVertices g e
           end;
  g_vertices : forall e v, e < numElements g -> In v (cornerVertices g e) -> v < numVertices g;
  g_corners : forall e, e < numElements g -> length (cornerPositions g e) = length (cornerVertices g e) /\ cornersOk (cornerPositions g e)
}.

(** The degree of freedom which belongs to corner [k] of element [e], and its local index. *)
Definition dofSeen (d : disc) (g : grid) (e k : nat) : nat :=
  match d with Ecfv => e | Vcfv => nth k (cornerVertices g e) 0 end.
Definition localSeen (d : disc) (k : nat) : nat := match d with Ecfv => 0 | Vcfv => k end.

(** All elements agree on the values at a degree of freedom they share. *)
Definition oneValuePerDof (g : grid) (v : values) : Prop :=
  forall e1 i1 e2 i2, nth_error (primaryDofs g e1) i1 <> None ->
    nth_error (primaryDofs g e1) i1 = nth_error (primaryDofs g e2) i2 ->
    (forall q p c, val v q p c e1 i1 = val v q p c e2 i2) /\ (forall p, molarDensity v p e1 i1 = molarDensity v p e2 i2).

(** What a value means: fractions of the whole for the totals, ten times the (scaled) urea
    concentration, the index, the rank, else the value of the quantity itself. *)
Definition means (cf : config) (v : values) (q : qty) (p c e i I : nat) (x : option Q) : Prop :=
  let fraction part whole := (x = None /\ (whole == 0)%Q) \/ exists t, x = Some t /\ ~ (whole == 0)%Q /\ (t * whole == part)%Q in
  let mass a := (val v Density a 0 e i * val v Saturation a 0 e i)%Q in
  let moles a := (molarDensity v a e i * val v Saturation a 0 e i)%Q in
  match q with
  | TotalMassFraction => fraction (sumTo (numPhases cf) (fun a => mass a * val v MassFraction a c e i)%Q) (sumTo (numPhases cf) mass)
  | TotalMoleFraction => fraction (sumTo (numPhases cf) (fun a => moles a * val v MoleFraction a c e i)%Q) (sumTo (numPhases cf) moles)
  | UreaConcentration => x = Some (10 * val v UreaConcentration p c e i)%Q
  | DofIndex => x = Some (natQ I)
  | ProcessRank => x = Some (natQ (rank v))
  | _ => x = Some (val v q p c e i)
  end.

(** Where a quantity applies: phase properties for active phases, fracture properties on
    fractures, the properties of dissolved gas and oil if both phases are active, all others
    everywhere. *)
Definition applies (cf : config) (g : grid) (q : qty) (p I : nat) : bool :=
  match q with
  | Pressure | Density | Saturation | Mobility | RelativePermeability | Viscosity | AverageMolarMass
  | FluidInternalEnergy | FluidEnthalpy => phaseIsActive cf p
  | FractureSaturation | FractureMobility | FractureRelativePermeability | FracturePorosity
  | FractureIntrinsicPermeability => isFractureVertex g I
  | GasDissolutionFactor | OilVaporizationFactor | OilSaturationPressure | GasSaturationPressure | SaturatedRs
  | SaturatedRv | OilSaturationRatio | GasSaturationRatio => oilAndGasActive cf
  | _ => true
  end.

(** ** Averages over faces *)

(** How often a face counts for a degree of freedom. *)
Definition sides (f : face) (I : nat) : Q := ((if fI f =? I then 1 else 0) + (if fJ f =? I then 1 else 0))%Q.
Definition total (h : face -> Q) (fs : list face) : Q := fold_right (fun f s => h f + s)%Q 0%Q fs.
Definition touches (f : face) (I : nat) : Prop := fI f = I \/ fJ f = I.

Definition sameValue (a b : option Q) : Prop :=
  match a, b with Some x, Some y => (x == y)%Q | None, None => True | _, _ => False end.

Definition facesOk (d p : nat) (fs : list face) : Prop :=
  forall f, In f fs -> (0 < fExtrusion f)%Q /\ length (fVelocity f p) = d /\ length (fGradient f p) = d.

(** The sum of the volumes of the parts which belong to a degree of freedom. *)
Definition volumesAt (vol : nat -> nat -> Q) (I : nat) (l : list (nat * nat * nat)) : Q :=
  fold_right (fun x s => (if snd x =? I then vol (fst (fst x)) (snd (fst x)) else 0) + s)%Q 0%Q l.

(** ** Names *)

(** The fields of the diffusion module, whose patterns have no place for names. *)
Definition isDiffusion (f : field) : bool :=
  existsb (fun f' => String.eqb (fParam f) (fParam f')) diffusionFields.

Fixpoint noChar (ch : ascii) (s : string) : Prop :=
  match s with EmptyString => True | String c r => c <> ch /\ noChar ch r end.

(** Names of phases, components and primary variables: different, not too long; phase names
    have no hat and none is "solvent". *)
Record namesOk (cf : config) : Prop := mkNamesOk {
  n_phases : forall i j, i < numPhases cf -> j < numPhases cf -> phaseName cf i = phaseName cf j -> i = j;
  n_components : forall i j, i < numComponents cf -> j < numComponents cf -> componentName cf i = componentName cf j -> i = j;
  n_vars : forall i j, i < numEq cf -> j < numEq cf -> primaryVarName cf i = primaryVarName cf j -> i = j;
  n_phaseLength : forall i, i < numPhases cf -> String.length (phaseName cf i) <= 200;
  n_componentLength : forall i, i < numComponents cf -> String.length (componentName cf i) <= 200;
  n_varLength : forall i, i < numEq cf -> String.length (primaryVarName cf i) <= 200;
  n_hat : forall i, i < numPhases cf -> noChar "^"%char (phaseName cf i);
  n_solvent : forall i, i < numPhases cf -> phaseName cf i <> "solvent"%string;
  n_dim : dimWorld cf <= 3
}.
