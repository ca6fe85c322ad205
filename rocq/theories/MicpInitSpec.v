(** * Vocabulary for the parameters of MICP *)
From Coq Require Import List QArith.
From Verif Require Import DeckInitModel MicpInitModel.
Open Scope Q_scope.

(** Each parameter is that of the deck. *)
Definition asInDeck (d : micpDeck) (p : micpParams) : Prop :=
  densityBiofilm_ p = kDensityBiofilm d /\ densityCalcite_ p = kDensityCalcite d /\ detachmentRate_ p = kDetachmentRate d /\
  criticalPorosity_ p = kCriticalPorosity d /\ fittingFactor_ p = kFittingFactor d /\
  halfVelocityOxygen_ p = kHalfVelocityOxygen d /\ halfVelocityUrea_ p = kHalfVelocityUrea d /\
  maximumGrowthRate_ p = kMaximumGrowthRate d /\ maximumUreaUtilization_ p = kMaximumUreaUtilization d /\
  microbialAttachmentRate_ p = kMicrobialAttachmentRate d /\ microbialDeathRate_ p = kMicrobialDeathRate d /\
  minimumPermeability_ p = kMinimumPermeability d /\ oxygenConsumptionFactor_ p = kOxygenConsumptionFactor d /\
  yieldGrowthCoefficient_ p = kYieldGrowthCoefficient d /\ maximumOxygenConcentration_ p = kMaximumOxygenConcentration d /\
  10 * maximumUreaConcentration p == kMaximumUreaConcentration d /\
  toleranceBeforeClogging_ p = kToleranceBeforeClogging d /\ phi_ p = kPoro d.

(** The values lie within the limits of the deck for a cell of porosity [phi]. Urea is scaled down by ten. *)
Definition withinLimits (d : micpDeck) (phi : Q) (v : micpVars) : Prop :=
  0 <= microbes v <= kDensityBiofilm d /\ 0 <= oxygen v <= kMaximumOxygenConcentration d /\
  0 <= 10 * urea v <= kMaximumUreaConcentration d /\
  0 <= biofilm v <= phi - kToleranceBeforeClogging d /\ 0 <= calcite v <= phi - kToleranceBeforeClogging d.

(** The limits of the deck leave room. *)
Definition saneLimits (d : micpDeck) (phi : Q) : Prop :=
  0 <= kDensityBiofilm d /\ 0 <= kMaximumOxygenConcentration d /\ 0 <= kMaximumUreaConcentration d /\
  kToleranceBeforeClogging d <= phi.
