(** The rate vectors of all models: immiscible/immiscibleratevector.hh, flash/flashratevector.hh,
    ncp/ncpratevector.hh, pvs/pvsratevector.hh, richards/richardsratevector.hh and
    blackoil/blackoilratevector.hh.

    A rate vector is a function from the index of an equation; the vectors have [numEq] entries and a write to an
    index which is not one of them is the outcome [OutOfRange] (Dune::FieldVector does not check the index: undefined
    behaviour). Derivatives are not modelled. *)
From Verif Require Export Num.
Export ListNotations.

Definition rate := nat -> Q.

(** Where the equations of a model are. *)
Record layout := mkLayout {
  l_conti0 : nat;          (* conti0EqIdx *)
  l_comps : nat;           (* numComponents *)
  l_energy : option nat    (* energyEqIdx if the energy equation is enabled *)
}.

Definition set (v : rate) (i : nat) (q : Q) : rate := fun j => if (j =? i)%nat then q else v j.
(** A loop over all components which assigns to the entry of each. *)
Definition assignComps (l : layout) (f : nat -> Q) (v : rate) : rate :=
  fold_left (fun v c => set v (l_conti0 l + c) (f c)) (seq 0 (l_comps l)) v.

(** What a fluid state provides of a phase. [f_rho2] is what density(phaseIdx, compIdx) returns. *)
Record fluid := mkFluid {
  f_rho : nat -> Q; f_rho2 : nat -> nat -> Q; f_h : nat -> Q;
  f_molarity : nat -> nat -> Q; f_massFrac : nat -> nat -> Q; f_moleFrac : nat -> nat -> Q }.

(** energymodule.hh 326-335 (no-op without energy, 121-126): setEnthalpyRate(rateVec, fluidState, phaseIdx, volume). *)
Definition setEnthalpy (l : layout) (f : fluid) (a : nat) (volume : Q) (v : rate) : rate :=
  match l_energy l with
  | Some e => set v e (volume * f_rho f a * f_h f a)
  | None => v
  end.

(** ** immiscibleratevector.hh *)
(** 99-100. [old] is the vector before the call. *)
Definition immMass (value old : rate) : rate := value.
(** 111-117. *)
Definition immMolar (l : layout) (M : nat -> Q) (value old : rate) : rate :=
  assignComps l (fun c => value (l_conti0 l + c)%nat * M c) old.
(** 146-155. *)
Definition immVolume (l : layout) (f : fluid) (a : nat) (volume : Q) (old : rate) : rate :=
  setEnthalpy l f a volume (assignComps l (fun c => f_rho2 f a c * f_massFrac f a c * volume) old).

(** ** flashratevector.hh *)
(** 94-95. *)
Definition flashMolar (value old : rate) : rate := value.
(** 81-89. *)
Definition flashMass (l : layout) (M : nat -> Q) (value old : rate) : rate :=
  flashMolar (assignComps l (fun c => value (l_conti0 l + c)%nat / M c) value) old.
(** 107-116. *)
Definition flashVolume (l : layout) (f : fluid) (a : nat) (volume : Q) (old : rate) : rate :=
  setEnthalpy l f a volume (assignComps l (fun c => f_rho2 f a c * f_moleFrac f a c * volume) old).

(** ** ncpratevector.hh *)
(** 103-104. *)
Definition ncpMolar (value old : rate) : rate := value.
(** 89-98. *)
Definition ncpMass (l : layout) (M : nat -> Q) (value old : rate) : rate :=
  ncpMolar (assignComps l (fun c => value (l_conti0 l + c)%nat / M c) value) old.
(** 117-125. *)
Definition ncpVolume (l : layout) (f : fluid) (a : nat) (volume : Q) (old : rate) : rate :=
  setEnthalpy l f a volume (assignComps l (fun c => f_molarity f a c * volume) (fun _ => 0)).

(** ** pvsratevector.hh *)
(** 87-94. *)
Definition pvsMass (l : layout) (M : nat -> Q) (value old : rate) : rate :=
  assignComps l (fun c => value (l_conti0 l + c)%nat / M c) old.
(** 99-100. *)
Definition pvsMolar (value old : rate) : rate := value.
(** 113-122. *)
Definition pvsVolume (l : layout) (f : fluid) (a : nat) (volume : Q) (old : rate) : rate :=
  setEnthalpy l f a volume (assignComps l (fun c => f_rho2 f a c * f_moleFrac f a c * volume) old).

(** ** richardsratevector.hh; [eq] is contiEqIdx, [lc] the component of the liquid. *)
(** 87-88. *)
Definition richMass (value old : rate) : rate := value.
(** 93-98. *)
Definition richMolar (eq lc : nat) (M : nat -> Q) (value old : rate) : rate := set old eq (value eq * M lc).
(** 111-119 (without the enthalpy: the model has no energy equation). *)
Definition richVolume (eq lc : nat) (f : fluid) (a : nat) (volume : Q) (old : rate) : rate :=
  set old eq (f_rho f a * f_massFrac f a lc * volume).

(** ** blackoilratevector.hh *)
(** The canonical components. *)
Inductive boComp := Oil | Water | Gas.
Definition boComps := [Gas; Oil; Water].       (* the order of the statements of 97-110 *)
Record boModel := mkBo {
  b_numEq : nat;
  b_comps : nat;                                (* numComponents *)
  b_active : boComp -> bool;                    (* phaseIsActive *)
  b_index : boComp -> nat;                      (* canonicalToActiveComponentIndex *)
  b_solvent : option nat;                       (* contiSolventEqIdx, -1000 if disabled *)
  b_polymer : option nat;                       (* contiPolymerEqIdx if enabled *)
  b_unsupported : bool;                         (* polymer molecular weight, foam, brine or MICP *)
  b_surface : bool;                             (* BlackoilConserveSurfaceVolume *)
  b_refRho : boComp -> Q;                       (* referenceDensity in the given region *)
  b_solventRefRho : Q;
  b_molarMass : nat -> Q;                       (* FluidSystem::molarMass(compIdx), by canonical index *)
  b_solventMolarMass : Q;
  b_polymerMolarMass : Q
}.
Inductive outcome := Done (v : rate) | Throws | OutOfRange.
Definition scaleEntry (v : rate) (i : nat) (q : Q) : rate := set v i (v i * q).
Definition divEntry (v : rate) (i : nat) (q : Q) : rate := set v i (v i / q).
(** 96-114 and 153-171: the conversion to surface volumes. *)
Definition toSurface (b : boModel) (v : rate) : rate :=
  if b_surface b then
    let v := fold_left (fun v c => if b_active b c then divEntry v (b_index b c) (b_refRho b c) else v) boComps v in
    match b_solvent b with Some i => divEntry v i (b_solventRefRho b) | None => v end
  else v.
(** 92-115. *)
Definition boMass (b : boModel) (value : rate) : rate := toSurface b value.
(** 122-172; conti0EqIdx is 0 (no offset). The index of the disabled solvent equation is -1000. *)
Definition boMolar (b : boModel) (value : rate) : outcome :=
  if (b_numEq b <? b_comps b)%nat then OutOfRange
  else
    let v := fold_left (fun v c => scaleEntry v c (b_molarMass b c)) (seq 0 (b_comps b)) value in
    match b_solvent b with
    | None => OutOfRange
    | Some i =>
        let v := scaleEntry v i (b_solventMolarMass b) in
        if b_unsupported b then Throws
        else
          let v := match b_polymer b with Some j => scaleEntry v j (b_polymerMolarMass b) | None => v end in
          Done (toSurface b v)
    end.
(** 178-187. *)
Definition boVolume (b : boModel) (f : fluid) (a : nat) (volume : Q) (old : rate) : outcome :=
  if (b_numEq b <? b_comps b)%nat then OutOfRange
  else Done (fold_left (fun v c => set v c (f_rho f a * f_massFrac f a c * volume)) (seq 0 (b_comps b)) old).

(** blackoiltwophaseindices.hh 182-200: canonicalToActiveComponentIndex of the models of two phases, with the canonical
    indices oil = 0, water = 1, gas = 2. *)
Definition canonical (c : boComp) : nat := match c with Oil => 0 | Water => 1 | Gas => 2 end.
Definition twoPhaseIndex (gas water : bool) (c : boComp) : nat :=
  if negb gas then canonical c
  else if negb water then (canonical c / 2)%nat
  else (canonical c - 1)%nat.
