(** * Vocabulary for the black-oil intensive quantities *)
From Coq Require Import QArith List Bool.
From Verif Require Import BoIqModel.
Open Scope Q_scope.

(** Sum over the three phases or components. *)
Definition total (f : phase -> Q) : Q := f Water + f Oil + f Gas.

(** A component can only be dissolved or vaporized if both phases concerned exist. *)
Definition consistent (C : config) : Prop :=
  (dissolvedGas C = true -> active C Oil = true /\ active C Gas = true) /\
  (vaporizedOil C = true -> active C Oil = true /\ active C Gas = true) /\
  (dissolvedGasInWater C = true -> active C Water = true /\ active C Gas = true) /\
  (vaporizedWater C = true -> active C Water = true /\ active C Gas = true).

(** Mass of the fluids per bulk volume, from the reported densities: saturation times density times porosity, summed
    over the phases which exist. *)
Definition massOfPhases (C : config) (q : intensive) : Q :=
  total (fun p => if active C p then saturation (fluid q) p * density (fluid q) p * porosity q else 0).

(** Fraction z of the extended black-oil model: its surface volume in the gas and in the oil phase. *)
Definition zContent (q : intensive) : Q :=
  porosity q * (eY (ext q) * saturation (fluid q) Gas * invB (fluid q) Gas
                + eX (ext q) * Rs (fluid q) * saturation (fluid q) Oil * invB (fluid q) Oil).

(** The relative permeability which belongs to a direction. *)
Definition krTowards (kr : phase -> Q) (dir : option dirMobility) (p : phase) (d : faceDir) : Q :=
  match dir, d with
  | None, _ => kr p
  | Some m, (XMinus | XPlus) => mobX m p
  | Some m, (YMinus | YPlus) => mobY m p
  | Some m, (ZMinus | ZPlus) => mobZ m p
  | Some _, OtherDir => 0
  end.

(** What the oil phase looks like: the same dissolved gas, formation volume and density. *)
Definition sameOil (q r : intensive) : Prop :=
  Rs (fluid q) == Rs (fluid r) /\ invB (fluid q) Oil == invB (fluid r) Oil /\
  density (fluid q) Oil == density (fluid r) Oil /\ eX (ext q) == eX (ext r).

(** The same for the gas phase. *)
Definition sameGas (q r : intensive) : Prop :=
  Rv (fluid q) == Rv (fluid r) /\ invB (fluid q) Gas == invB (fluid r) Gas /\
  density (fluid q) Gas == density (fluid r) Gas /\ eY (ext q) == eY (ext r).

(** The tables give equal values for equal (not only identical) rational arguments. *)
Definition properTables (T : extboTables) : Prop :=
  (forall p p' z, p == p' -> tBo T p z == tBo T p' z /\ tBg T p z == tBg T p' z /\ tX T p z == tX T p' z /\
                             tY T p z == tY T p' z /\ tRv T p z == tRv T p' z).

(** The primary variables with another meaning and value of the gas variable. *)
Definition withGas (pv : priVars) (m : gasMeaning) (x : Q) : priVars :=
  {| gasM := m; waterM := waterM pv; compositionVar := x; waterVar := waterVar pv; zFractionVar := zFractionVar pv;
     saltIsSp := saltIsSp pv; saltVar := saltVar pv; biofilmVar := biofilmVar pv; calciteVar := calciteVar pv |}.

(** The fluid state at other pressures. *)
Definition withPressure (fs : fluidState) (pr : phase -> Q) : fluidState :=
  {| saturation := saturation fs; pressure := pr; Rs := Rs fs; Rv := Rv fs; Rvw := Rvw fs; Rsw := Rsw fs;
     invB := invB fs; density := density fs |}.

(** The pressure the rock feels: of the oil, or else of the water, or else of the gas. *)
Definition rockPressure (C : config) (pr : phase -> Q) : Q :=
  if active C Oil then pr Oil else if active C Water then pr Water else pr Gas.
