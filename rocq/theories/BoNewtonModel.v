(** The update of the primary variables of one cell by the Newton method of the black-oil
    model. Models opm/models/blackoil/blackoilnewtonmethod.hh, updatePrimaryVariables_ and
    the update_ for a list of cells. *)
From Verif Require Export BoVarsModel.

(** The parameters: blackoilnewtonmethod.hh 75-85 and the limits of the biofilm module for
    the cell (400-409). *)
Record limits := mkLimits {
  oscillationThreshold : Q;
  dpMaxRel : Q;
  dsMax : Q;
  projectSaturations : bool;
  maxTempChange : Q;
  tempMax : Q;
  tempMin : Q;
  pressMax : Q;
  pressMin : Q;
  waterSaturationMax : Q;
  waterOnlyThreshold : Q;
  densityBiofilm : Q;
  maximumOxygen : Q;
  maximumUrea : Q;
  maximumSolid : Q      (* porosity of the cell minus the tolerance before clogging *)
}.

(** Absolute value, [std::clamp] and [signum] (opm/models/utils/signum.hh 42-44) on exact
    numbers. *)
Definition qabs (x : Q) : Q := if Qltb x 0 then - x else x.
Definition clamp (x lo hi : Q) : Q := if Qltb x lo then lo else if Qltb hi x then hi else x.
Definition signum (x : Q) : Q := if Qltb 0 x then 1 else if Qltb x 0 then -(1) else 0.
(** [delta >= 0. ? 1. : -1.] *)
Definition sign1 (x : Q) : Q := if Qltb x 0 then -(1) else 1.

Section Update.
Variable c : config.
Variable l : limits.
Variable current : vars.         (* currentValue *)
Variable update : Z -> Q.        (* update *)

Local Notation x := (idx c).
Definition on (i : Z) : bool := (0 <=? i)%Z.     (* 232-239: enableX *)

(** blackoilnewtonmethod.hh 245-275: the common factor of all saturation updates. *)
Definition deltaSw : Q := match m_water current with Sw => update (waterSwitchIdx x) | _ => 0 end.
Definition deltaSg : Q := match m_gas current with Sg => update (compositionSwitchIdx x) | _ => 0 end.
Definition deltaSs : Q :=
  match m_solvent current with Ss => update (solventSaturationIdx x) | _ => 0 end.
Definition deltaSo : Q := 0 - deltaSw - deltaSg - deltaSs.
Definition maxSatDelta : Q :=
  qmax (qmax (qmax (qabs deltaSg) (qabs deltaSo)) (qabs deltaSw)) (qabs deltaSs).
Definition satAlpha : Q := if Qltb (dsMax l) maxSatDelta then dsMax l / maxSatDelta else 1.

(** An R factor does not become negative: 296-298, 309-311, 319-321. *)
Definition keep_factor (delta cur : Q) : Q := if Qltb cur delta then cur else delta.

(** blackoilnewtonmethod.hh 284-347: the change of one variable. The comparison with
    [double] constants (1e-10, 1e-8) is modelled with the decimal fractions. *)
Definition limited (pv : Z) : Q :=
  let delta := update pv in
  let cur := val current pv in
  if (pv =? pressureSwitchIdx x)%Z then
    if Qltb (dpMaxRel l * cur) (qabs delta) then signum delta * dpMaxRel l * cur else delta
  else if (pv =? waterSwitchIdx x)%Z then
    match m_water current with Sw => delta * satAlpha | _ => keep_factor delta cur end
  else if (pv =? compositionSwitchIdx x)%Z then
    match m_gas current with Sg => delta * satAlpha | _ => keep_factor delta cur end
  else if on (solventSaturationIdx x) && (pv =? solventSaturationIdx x)%Z then
    match m_solvent current with Ss => delta * satAlpha | _ => keep_factor delta cur end
  else if on (zFractionIdx x) && (pv =? zFractionIdx x)%Z then
    clamp delta (cur - 1) cur
  else if on (polymerMoleWeightIdx x) && (pv =? polymerMoleWeightIdx x)%Z then
    sign1 delta * qmin (qabs delta) 100 * satAlpha
  else if on (temperatureIdx x) && (pv =? temperatureIdx x)%Z then
    sign1 delta * qmin (qabs delta) (maxTempChange l)
  else if on (saltConcentrationIdx x) && (pv =? saltConcentrationIdx x)%Z &&
          enableSaltPrecipitation c && match m_brine current with Sp => true | _ => false end then
    sign1 delta * qmin (qabs delta) (1#10)
  else delta.

(** blackoilnewtonmethod.hh 349-409: the new value. The tests are independent of each other;
    [next] is the vector written so far. *)
Definition when (b : bool) (g : Q -> Q) (y : Q) : Q := if b then g y else y.
Definition new_value (pv : Z) (next : vars) : Q :=
  let is i := on i && (pv =? i)%Z in
  let y := val current pv - limited pv in
  let y := when (is (solventSaturationIdx x)) (fun y =>
             match m_solvent current with Ss => qmin (qmax y 0) 1 | _ => y end) y in
  let y := when (is (zFractionIdx x)) (fun y => qmin (qmax y 0) 1) y in
  let y := when (is (polymerConcentrationIdx x)) (fun y => qmax y 0) y in
  let y := when (is (polymerMoleWeightIdx x)) (fun y =>
             let y := qmax y 0 in
             if Qltb (val next (polymerConcentrationIdx x)) (1#10000000000) then 0 else y) y in
  let y := when (is (foamConcentrationIdx x)) (fun y => qmax y 0) y in
  let y := when (is (saltConcentrationIdx x)) (fun y =>
             let y := if negb (enableSaltPrecipitation c) ||
                         (enableSaltPrecipitation c &&
                          match m_brine current with Cs => true | _ => false end)
                      then qmax y 0 else y in
             if enableSaltPrecipitation c && match m_brine current with Sp => true | _ => false end
             then qmin y (1 - (1#100000000)) else y) y in
  let y := when (is (temperatureIdx x)) (fun y => clamp y (tempMin l) (tempMax l)) y in
  let y := when (pv =? pressureSwitchIdx x)%Z (fun y => clamp y (pressMin l) (pressMax l)) y in
  let micp i := on (microbialConcentrationIdx x) && (pv =? i)%Z in
  let y := when (micp (microbialConcentrationIdx x)) (fun y => clamp y 0 (densityBiofilm l)) y in
  let y := when (micp (oxygenConcentrationIdx x)) (fun y => clamp y 0 (maximumOxygen l)) y in
  let y := when (micp (ureaConcentrationIdx x)) (fun y => clamp y 0 (maximumUrea l)) y in
  let y := when (micp (biofilmConcentrationIdx x)) (fun y => clamp y 0 (maximumSolid l)) y in
  when (micp (calciteConcentrationIdx x)) (fun y => clamp y 0 (maximumSolid l)) y.

(** blackoilnewtonmethod.hh 277-410: the loop over all variables. *)
Definition all_variables : list Z := map Z.of_nat (seq 0 (Z.to_nat (numEq x))).
Definition updated (next : vars) : vars :=
  fold_left (fun nx pv => set pv (new_value pv nx) nx) all_variables next.

(** blackoilnewtonmethod.hh 226-427: the whole update. [wasSwitched] is the entry of the cell
    in the vector of that name; its new value also tells whether the cell is counted. *)
Definition update_cell (f : fluid) (wasSwitched : bool) (next : vars) : vars * bool :=
  let eps := if wasSwitched then oscillationThreshold l else 0 in
  let '(v, switched) :=
    adapt c f (waterSaturationMax l) (waterOnlyThreshold l) eps (updated next) in
  (if projectSaturations l then fst (chop c v) else v, switched).
End Update.

(** newtonmethod.hh 276 and 665-711, for cells without constraints: the update of all cells,
    and the number of cells which switched. The new solution starts as a copy of the current
    one. *)
Fixpoint update_cells (c : config) (l : limits) (cells : list (fluid * bool * vars * (Z -> Q)))
  : list (vars * bool) * nat :=
  match cells with
  | [] => ([], O)
  | (f, was, v, upd) :: r =>
      let '(rest, n) := update_cells c l r in
      let res := update_cell c l v upd f was v in
      (res :: rest, if snd res then S n else n)
  end.
