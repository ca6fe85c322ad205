(** * Parameters of the biogrout (MICP) module and the limits taken from them

    Models initFromState, setMICPpara, checkCloggingMICP and the accessors of
    opm/models/blackoil/blackoilmicpmodules.hh 94-194 and 357-445, and the limits of
    opm/models/blackoil/blackoilnewtonmethod.hh 400-409. Simplified: scalars are rational, so the copy into single
    precision (131-133) is the same as the assignment (135); the outcomes are those of DeckInitModel.v. *)
From Coq Require Import List Bool Arith QArith.
From Verif Require Import DeckInitModel.
Import ListNotations.
Open Scope Q_scope.

(** The MICP part of the deck: the items of MICPPARA and PORO. *)
Record micpDeck := mkMicpDeck {
  micp : bool; kDensityBiofilm : Q; kDensityCalcite : Q; kDetachmentRate : Q; kCriticalPorosity : Q; kFittingFactor : Q;
  kHalfVelocityOxygen : Q; kHalfVelocityUrea : Q; kMaximumGrowthRate : Q; kMaximumUreaUtilization : Q;
  kMicrobialAttachmentRate : Q; kMicrobialDeathRate : Q; kMinimumPermeability : Q; kOxygenConsumptionFactor : Q;
  kYieldGrowthCoefficient : Q; kMaximumOxygenConcentration : Q; kMaximumUreaConcentration : Q;
  kToleranceBeforeClogging : Q; kPoro : list Q }.

(** blackoilmicpparams.hh 37-56. *)
Record micpParams := mkMicpParams {
  densityBiofilm_ : Q; densityCalcite_ : Q; detachmentRate_ : Q; criticalPorosity_ : Q; fittingFactor_ : Q;
  halfVelocityOxygen_ : Q; halfVelocityUrea_ : Q; maximumGrowthRate_ : Q; maximumUreaUtilization_ : Q;
  microbialAttachmentRate_ : Q; microbialDeathRate_ : Q; minimumPermeability_ : Q; oxygenConsumptionFactor_ : Q;
  yieldGrowthCoefficient_ : Q; maximumOxygenConcentration_ : Q; maximumUreaConcentration_ : Q;
  toleranceBeforeClogging_ : Q; phi_ : list Q }.

(** blackoilmicpmodules.hh 159-194: all but the porosities are set. *)
Definition setMICPpara (p : micpParams)
  (densityBiofilm densityCalcite detachmentRate criticalPorosity fittingFactor halfVelocityOxygen halfVelocityUrea
   maximumGrowthRate maximumUreaUtilization microbialAttachmentRate microbialDeathRate minimumPermeability
   oxygenConsumptionFactor yieldGrowthCoefficient maximumOxygenConcentration maximumUreaConcentration
   toleranceBeforeClogging : Q) : micpParams :=
  {| densityBiofilm_ := densityBiofilm; densityCalcite_ := densityCalcite; detachmentRate_ := detachmentRate;
     criticalPorosity_ := criticalPorosity; fittingFactor_ := fittingFactor; halfVelocityOxygen_ := halfVelocityOxygen;
     halfVelocityUrea_ := halfVelocityUrea; maximumGrowthRate_ := maximumGrowthRate;
     maximumUreaUtilization_ := maximumUreaUtilization; microbialAttachmentRate_ := microbialAttachmentRate;
     microbialDeathRate_ := microbialDeathRate; minimumPermeability_ := minimumPermeability;
     oxygenConsumptionFactor_ := oxygenConsumptionFactor; yieldGrowthCoefficient_ := yieldGrowthCoefficient;
     maximumOxygenConcentration_ := maximumOxygenConcentration; maximumUreaConcentration_ := maximumUreaConcentration;
     toleranceBeforeClogging_ := toleranceBeforeClogging; phi_ := phi_ p |}.

(** 130-136. *)
Definition setPhi (p : micpParams) (poro : list Q) : micpParams :=
  mkMicpParams (densityBiofilm_ p) (densityCalcite_ p) (detachmentRate_ p) (criticalPorosity_ p) (fittingFactor_ p)
    (halfVelocityOxygen_ p) (halfVelocityUrea_ p) (maximumGrowthRate_ p) (maximumUreaUtilization_ p)
    (microbialAttachmentRate_ p) (microbialDeathRate_ p) (minimumPermeability_ p) (oxygenConsumptionFactor_ p)
    (yieldGrowthCoefficient_ p) (maximumOxygenConcentration_ p) (maximumUreaConcentration_ p)
    (toleranceBeforeClogging_ p) poro.

(** 94-137; [en]: MICP is compiled in, [p]: the parameters before the call. *)
Definition micpInit (en : bool) (d : micpDeck) (p : micpParams) : result micpParams :=
  if en && negb (micp d) then Throws eEnabled else
  if negb en && micp d then Throws eDisabled else
  if negb (micp d) then Done p else
  Done (setPhi (setMICPpara p (kDensityBiofilm d) (kDensityCalcite d) (kDetachmentRate d) (kCriticalPorosity d)
          (kFittingFactor d) (kHalfVelocityOxygen d) (kHalfVelocityUrea d) (kMaximumGrowthRate d)
          (kMaximumUreaUtilization d) (kMicrobialAttachmentRate d) (kMicrobialDeathRate d) (kMinimumPermeability d)
          (kOxygenConsumptionFactor d) (kYieldGrowthCoefficient d) (kMaximumOxygenConcentration d)
          (kMaximumUreaConcentration d) (kToleranceBeforeClogging d)) (kPoro d)).

(** 402-405: the accessor divides by the factor by which the wells scale urea. The other accessors (357-445) return the
    field. *)
Definition maximumUreaConcentration (p : micpParams) : Q := maximumUreaConcentration_ p / 10.

(** The five MICP primary variables of a cell. *)
Record micpVars := mkMicpVars { microbes : Q; oxygen : Q; urea : Q; biofilm : Q; calcite : Q }.

(** std::clamp(v, lo, hi), whose precondition is that hi is not less than lo; [None]: violated. *)
Definition clamp (v lo hi : Q) : option Q :=
  if Qle_bool lo hi then Some (if negb (Qle_bool lo v) then lo else if negb (Qle_bool v hi) then hi else v) else None.

(** blackoilnewtonmethod.hh 400-409, for the cell [dof]; [v]: the values after the Newton update. *)
Definition micpLimit (p : micpParams) (dof : nat) (v : micpVars) : option micpVars :=
  match clamp (microbes v) 0 (densityBiofilm_ p), clamp (oxygen v) 0 (maximumOxygenConcentration_ p),
        clamp (urea v) 0 (maximumUreaConcentration p), nth_error (phi_ p) dof with
  | Some m, Some o, Some u, Some phi =>
      match clamp (biofilm v) 0 (phi - toleranceBeforeClogging_ p), clamp (calcite v) 0 (phi - toleranceBeforeClogging_ p) with
      | Some b, Some c => Some (mkMicpVars m o u b c)
      | _, _ => None
      end
  | _, _, _, _ => None
  end.

(** blackoilmicpmodules.hh 147-152; true: the error is thrown. [v]: the MICP variables of the cell in the solution of the
    previous time level, [phi]: the porosity given by the caller. *)
Definition checkClogging (p : micpParams) (phi : Q) (v : micpVars) : bool :=
  negb (Qle_bool (toleranceBeforeClogging_ p) (phi - biofilm v - calcite v)).
