(** The primary variables of the black-oil model and the changes of their interpretation.
    Models opm/models/blackoil/blackoilprimaryvariables.hh (assignNaive,
    adaptPrimaryVariables, chopAndNormalizeSaturations) and the part of
    opm/models/blackoil/blackoilintensivequantities.hh which turns primary variables into
    saturations and phase pressures. [Scalar] is modelled by exact rational numbers; the
    PVT relations, capillary pressures and limits of the problem are arbitrary functions. *)
From Verif Require Export Num BoIdxModel.
Open Scope Q_scope.

(** blackoilprimaryvariables.hh 124-156. *)
Inductive WaterMeaning := Sw | Rvw | Rsw | WDisabled.
Inductive PressureMeaning := Po | Pg | Pw.
Inductive GasMeaning := Sg | Rs | Rv | GDisabled.
Inductive BrineMeaning := Cs | Sp | BDisabled.
Inductive SolventMeaning := Ss | Rsolw | SDisabled.

(** blackoilprimaryvariables.hh 60-61 and 1141-1148: the values and their meanings. The
    values are a function of the index; an index outside of the vector is undefined
    behaviour in the code and excluded by the hypotheses of the theorems. [pcFactor_] is
    recomputed before each use and not part of the state, nor is the PVT region, which no
    function modelled here changes. *)
Record vars := mkVars {
  val : Z -> Q;
  m_water : WaterMeaning;
  m_pressure : PressureMeaning;
  m_gas : GasMeaning;
  m_brine : BrineMeaning;
  m_solvent : SolventMeaning
}.

Definition set (i : Z) (x : Q) (v : vars) : vars :=
  mkVars (fun j => if (j =? i)%Z then x else val v j)
         (m_water v) (m_pressure v) (m_gas v) (m_brine v) (m_solvent v).
Definition set_water m v := mkVars (val v) m (m_pressure v) (m_gas v) (m_brine v) (m_solvent v).
Definition set_pressure m v := mkVars (val v) (m_water v) m (m_gas v) (m_brine v) (m_solvent v).
Definition set_gas m v := mkVars (val v) (m_water v) (m_pressure v) m (m_brine v) (m_solvent v).
Definition set_brine m v := mkVars (val v) (m_water v) (m_pressure v) (m_gas v) m (m_solvent v).
Definition set_solvent m v := mkVars (val v) (m_water v) (m_pressure v) (m_gas v) (m_brine v) m.

(** Compile-time configuration: blackoilprimaryvariables.hh 76-106. The phases the fluid
    system considers to be active are taken to be those enabled by the indices. *)
Record config := mkConfig {
  idx : indices;
  waterEnabled : bool;
  oilEnabled : bool;
  gasEnabled : bool;
  enableSolvent : bool;
  enableSaltPrecipitation : bool;
  (* run-time switches of the fluid system and of the solvent module *)
  disgas : bool;        (* FluidSystem::enableDissolvedGas() *)
  vapoil : bool;        (* FluidSystem::enableVaporizedOil() *)
  vapwat : bool;        (* FluidSystem::enableVaporizedWater() *)
  disgasw : bool;       (* FluidSystem::enableDissolvedGasInWater() *)
  soluble : bool        (* SolventModule::isSolubleInWater() *)
}.

Definition numActivePhases (c : config) : nat :=
  (if waterEnabled c then 1 else 0) + (if oilEnabled c then 1 else 0) +
  (if gasEnabled c then 1 else 0).

Definition compositionSwitchEnabled (c : config) : bool :=
  (0 <=? compositionSwitchIdx (idx c))%Z.

(** What the code asks the fluid system, the material law and the problem for, in one cell. *)
Record fluid := mkFluid {
  f_scale : Q;                        (* pressureScale_ *)
  f_saltSol : Q;                      (* BrineModule::saltSol *)
  f_solLimit : Q -> Q -> Q;           (* SolventModule::solubilityLimit: p, salt *)
  f_pcfact : option (Q -> Q);         (* BrineModule::pcfactTable, if there are tables *)
  f_pc : Q -> Q -> Q -> Q * Q * Q;    (* capillary pressures (w, o, g) of so, sg, sw *)
  f_rvwSat : Q -> Q -> Q;             (* gasPvt().saturatedWaterVaporizationFactor: p, salt *)
  f_rswSat : Q -> Q -> Q;             (* waterPvt().saturatedGasDissolutionFactor: p, salt *)
  f_rsSat : Q -> Q -> Q -> Q;         (* oilPvt().saturatedGasDissolutionFactor: p, so, soMax *)
  f_rvSat : Q -> Q -> Q;              (* gasPvt().saturatedOilVaporizationFactor: p, soMax *)
  f_maxSo : Q;                        (* problem.maxOilSaturation *)
  f_rsMax : Q;                        (* problem.maxGasDissolutionFactor *)
  f_rvMax : Q                         (* problem.maxOilVaporizationFactor *)
}.

Definition pcw (x : Q * Q * Q) : Q := fst (fst x).
Definition pco (x : Q * Q * Q) : Q := snd (fst x).
Definition pcg (x : Q * Q * Q) : Q := snd x.

(** [std::min] and [std::max] on exact numbers. *)
Definition qmin (a b : Q) : Q := if Qltb b a then b else a.
Definition qmax (a b : Q) : Q := if Qltb a b then b else a.

Section Fluid.
Variable c : config.
Variable f : fluid.

(** blackoilprimaryvariables.hh 1131-1139. *)
Definition pressure_ (v : vars) : Q := val v (pressureSwitchIdx (idx c)) * f_scale f.
Definition setScaledPressure_ (p : Q) (v : vars) : vars :=
  set (pressureSwitchIdx (idx c)) (p / f_scale f) v.

(** blackoilprimaryvariables.hh 1012-1019. *)
Definition solventSaturation_ (v : vars) : Q :=
  if enableSolvent c
  then match m_solvent v with Ss => val v (solventSaturationIdx (idx c)) | _ => 0 end
  else 0.

(** blackoilprimaryvariables.hh 567-579: the saturations the switching conditions use. *)
Definition read_sw (v : vars) : Q :=
  match m_water v with
  | Sw => val v (waterSwitchIdx (idx c))
  | Rsw => 1
  | _ => 0
  end.
Definition read_sg (v : vars) : Q :=
  match m_gas v with
  | Sg => val v (compositionSwitchIdx (idx c))
  | GDisabled => if gasEnabled c then 1 - read_sw v else 0
  | _ => 0
  end.

(** blackoilprimaryvariables.hh 581-600: returns the salt concentration used further on. *)
Definition brine_stage (eps : Q) (v : vars) : vars * Q :=
  if enableSaltPrecipitation c then
    let i := saltConcentrationIdx (idx c) in
    match m_brine v with
    | Sp => (if Qltb (val v i) (- eps) then set i (f_saltSol f) (set_brine Cs v) else v,
             f_saltSol f)
    | Cs => (if Qltb (f_saltSol f + eps) (val v i) then set i 0 (set_brine Sp v) else v,
             val v i)
    | BDisabled => (v, 0)
    end
  else (v, 0).

(** blackoilprimaryvariables.hh 602-625. The pressure variable is used without its scale. *)
Definition solvent_stage (eps salt : Q) (v : vars) : vars :=
  if enableSolvent c && soluble c then
    let i := solventSaturationIdx (idx c) in
    let limit := f_solLimit f (val v (pressureSwitchIdx (idx c))) salt in
    match m_solvent v with
    | Ss => if Qltb (val v i) (- eps) then set i limit (set_solvent Rsolw v) else v
    | Rsolw => if Qltb (limit + eps) (val v i) then set i 0 (set_solvent Ss v) else v
    | SDisabled => v
    end
  else v.

(** blackoilprimaryvariables.hh 636-655: cells which contain almost only water. The assertion
    on the meaning of the water variable is a theorem. *)
Definition water_filled (swMaximum sw : Q) (v : vars) : vars * bool :=
  let v1 := if waterEnabled c then set (waterSwitchIdx (idx c)) (qmin swMaximum sw) v else v in
  let v2 := if compositionSwitchEnabled c then set (compositionSwitchIdx (idx c)) 0 v1 else v1 in
  let changed := match m_gas v with Sg => false | _ => true end in
  (if changed && compositionSwitchEnabled c then set_gas Sg v2 else v2, changed).

(** blackoilprimaryvariables.hh 657-666. *)
Definition pcFactor (v : vars) : Q :=
  match f_pcfact f, m_brine v with
  | Some t, Sp => t (qmin (1 - val v (saltConcentrationIdx (idx c))) 1)
  | _, _ => 1
  end.

(** blackoilprimaryvariables.hh 673-680, also 718-725: the gas pressure the water
    vaporization factor is evaluated at. *)
Definition gas_pressure (pcf sg : Q) (v : vars) : Q :=
  match m_pressure v with
  | Po => let ss := solventSaturation_ v in
          let pc := f_pc f (1 - sg - ss) (sg + ss) 0 in
          pressure_ v + pcf * (pcg pc - pco pc)
  | _ => pressure_ v
  end.

(** blackoilprimaryvariables.hh 668-771. *)
Definition water_stage (eps salt pcf sw sg : Q) (v : vars) : vars * bool :=
  let i := waterSwitchIdx (idx c) in
  match m_water v with
  | Sw =>
      if Qltb sw (- eps) && Qltb eps sg && vapwat c then
        (set i (f_rvwSat f (gas_pressure pcf sg v) salt) (set_water Rvw v), true)
      else if Qltb sg (- eps) && Qltb eps sw && disgasw c then
        let pc := f_pc f (1 - sw - solventSaturation_ v) 0 sw in
        let pw := pressure_ v + pcf * (pcw pc - pcg pc) in
        (setScaledPressure_ pw (set_pressure Pw
           (set i (qmin (f_rswSat f pw salt) (f_rsMax f)) (set_water Rsw v))), true)
      else (v, false)
  | Rvw =>
      if Qltb (f_rvwSat f (gas_pressure pcf sg v) salt * (1 + eps)) (val v i)
      then (set i 0 (set_water Sw v), true)
      else (v, false)
  | Rsw =>
      let pw := pressure_ v in
      if Qltb (qmin (f_rswSat f pw salt) (f_rsMax f)) (val v i) then
        let pc := f_pc f 0 0 1 in
        let pg := pw + pcf * (pcg pc - pcw pc) in
        (setScaledPressure_ pg (set_pressure Pg (set i 1 (set_water Sw v))), true)
      else (v, false)
  | WDisabled => (v, false)
  end.

(** blackoilprimaryvariables.hh 784-800: Sg becomes Rs. *)
Definition sg_to_rs (eps sw sg : Q) (v : vars) : vars * bool :=
  let s := 1 - sw - solventSaturation_ v in
  if Qltb sg (- eps) && Qltb 0 s && disgas c then
    (set (compositionSwitchIdx (idx c))
         (qmin (f_rsMax f) (f_rsSat f (pressure_ v) s (qmax s (f_maxSo f))))
         (set_gas Rs v), true)
  else (v, false).

(** blackoilprimaryvariables.hh 801-830: Sg becomes Rv. *)
Definition sg_to_rv (eps pcf sw sg : Q) (v : vars) : vars * bool :=
  let ss := solventSaturation_ v in
  let so := 1 - sw - ss - sg in
  if Qltb so (- eps) && Qltb 0 sg && vapoil c then
    let pc := f_pc f 0 (sg + ss) sw in
    let pg := pressure_ v + pcf * (pcg pc - pco pc) in
    (set (compositionSwitchIdx (idx c)) (qmin (f_rvMax f) (f_rvSat f pg (f_maxSo f)))
         (set_gas Rv (setScaledPressure_ pg (set_pressure Pg v))), true)
  else (v, false).

(** blackoilprimaryvariables.hh 774-907. With the extended black-oil model the saturated
    factors depend on the z fraction instead, which is left out. *)
Definition gas_stage (eps pcf sw sg : Q) (v : vars) : vars * bool :=
  let i := compositionSwitchIdx (idx c) in
  match m_gas v with
  | Sg =>
      let '(v1, c1) := sg_to_rs eps sw sg v in
      let '(v2, c2) := sg_to_rv eps pcf sw sg v1 in
      (v2, c1 || c2)
  | Rs =>
      let so := 1 - sw - solventSaturation_ v in
      let rsSat := f_rsSat f (pressure_ v) so (qmax so (f_maxSo f)) in
      if Qltb (qmin (f_rsMax f) (rsSat * (1 + eps))) (val v i)
      then (set i 0 (set_gas Sg v), true)
      else (v, false)
  | Rv =>
      let rvSat := f_rvSat f (pressure_ v) (f_maxSo f) in
      if Qltb (qmin (f_rvMax f) (rvSat * (1 + eps))) (val v i) then
        let ss := solventSaturation_ v in
        let sg2 := 1 - sw - ss in
        let pc := f_pc f 0 (sg2 + ss) sw in
        let po := pressure_ v + pcf * (pco pc - pcg pc) in
        (set i sg2 (setScaledPressure_ po (set_pressure Po (set_gas Sg v))), true)
      else (v, false)
  | GDisabled => (v, false)
  end.

(** blackoilprimaryvariables.hh 549-909: adaptPrimaryVariables. *)
Definition adapt (swMaximum threshold eps : Q) (v : vars) : vars * bool :=
  match m_water v, m_gas v with
  | WDisabled, GDisabled => (v, false)
  | _, _ =>
      let sw := read_sw v in
      let sg := read_sg v in
      let '(v1, salt) := brine_stage eps v in
      let v2 := solvent_stage eps salt v1 in
      if Qle_bool threshold sw && negb (disgasw c) then water_filled swMaximum sw v2
      else
        let pcf := pcFactor v2 in
        let '(v3, c1) := water_stage eps salt pcf sw sg v2 in
        let '(v4, c2) := gas_stage eps pcf sw sg v3 in
        (v4, c1 || c2)
  end.

(** blackoilprimaryvariables.hh 911-946: chopAndNormalizeSaturations. *)
Definition clamp01 (x : Q) : Q := qmin (qmax x 0) 1.

Definition chop (v : vars) : vars * bool :=
  match m_water v, m_gas v with
  | WDisabled, GDisabled => (v, false)
  | _, _ =>
      let sw := match m_water v with Sw => val v (waterSwitchIdx (idx c)) | _ => 0 end in
      let sg := match m_gas v with Sg => val v (compositionSwitchIdx (idx c)) | _ => 0 end in
      let ss := match m_solvent v with Ss => val v (solventSaturationIdx (idx c)) | _ => 0 end in
      let so := 1 - sw - sg - ss in
      let st := clamp01 sw + clamp01 so + clamp01 sg + clamp01 ss in
      let v1 := match m_water v with
                | Sw => set (waterSwitchIdx (idx c)) (clamp01 sw / st) v | _ => v end in
      let v2 := match m_gas v1 with
                | Sg => set (compositionSwitchIdx (idx c)) (clamp01 sg / st) v1 | _ => v1 end in
      let v3 := match m_solvent v2 with
                | Ss => set (solventSaturationIdx (idx c)) (clamp01 ss / st) v2 | _ => v2 end in
      (v3, negb (Qeq_bool st 1))
  end.

(** A fluid state as assignNaive reads it. *)
Record state := mkState {
  s_sat : Q * Q * Q;            (* saturations (w, o, g) *)
  s_p : Q * Q * Q;              (* pressures (w, o, g) *)
  s_rvw : Q; s_rsw : Q; s_rs : Q; s_rv : Q;
  s_salt : Q                    (* saturation of precipitated salt *)
}.

Definition present (enabled : bool) (s : Q) : bool := if enabled then Qltb 0 s else false.

(** blackoilprimaryvariables.hh 398-536: assignNaive. The variables of the extensions are
    assigned elsewhere; the meaning of the solvent variable is not touched. *)
Definition assign (s : state) (v : vars) : vars :=
  let gasP := present (gasEnabled c) (pcg (s_sat s)) in
  let oilP := present (oilEnabled c) (pco (s_sat s)) in
  let watP := present (waterEnabled c) (pcw (s_sat s)) in
  let mp :=
    if gasP && vapoil c && negb oilP then Pg
    else if oilEnabled c then Po
    else if watP && disgasw c && negb gasP then Pw
    else if gasEnabled c then Pg
    else Pw in
  let mw :=
    if watP && gasP then Sw
    else if gasP && vapwat c then Rvw
    else if watP && disgasw c then Rsw
    else if waterEnabled c && negb (numActivePhases c =? 1)%nat then Sw
    else WDisabled in
  let mg :=
    if gasP && oilP then Sg
    else if oilP && disgas c then Rs
    else if gasP && vapoil c then Rv
    else if gasEnabled c && oilEnabled c then Sg
    else GDisabled in
  let mb :=
    if enableSaltPrecipitation c then (if Qltb 0 (s_salt s) then Sp else Cs) else BDisabled in
  let v1 := mkVars (val v) mw mp mg mb (m_solvent v) in
  let v2 := setScaledPressure_
    (match mp with Po => pco (s_p s) | Pg => pcg (s_p s) | Pw => pcw (s_p s) end) v1 in
  let v3 := match mw with
            | Sw => set (waterSwitchIdx (idx c)) (pcw (s_sat s)) v2
            | Rvw => set (waterSwitchIdx (idx c)) (s_rvw s) v2
            | Rsw => set (waterSwitchIdx (idx c)) (s_rsw s) v2
            | WDisabled => v2
            end in
  match mg with
  | Sg => set (compositionSwitchIdx (idx c)) (pcg (s_sat s)) v3
  | Rs => set (compositionSwitchIdx (idx c)) (s_rs s) v3
  | Rv => set (compositionSwitchIdx (idx c)) (s_rv s) v3
  | GDisabled => v3
  end.

(** blackoilintensivequantities.hh 205-232: water and hydrocarbon gas saturations. *)
Definition iq_sw (v : vars) : Q :=
  if waterEnabled c then
    match m_water v with
    | Sw => val v (waterSwitchIdx (idx c))
    | Rsw | WDisabled => 1
    | Rvw => 0
    end
  else 0.
Definition iq_sg0 (v : vars) : Q :=
  if gasEnabled c then
    match m_gas v with
    | Sg => val v (compositionSwitchIdx (idx c))
    | Rv => 1 - iq_sw v
    | GDisabled => if waterEnabled c then 1 - iq_sw v else 1
    | Rs => 0
    end
  else 0.
(** blackoilintensivequantities.hh 234-245: oil saturation, and the correction for the
    solvent. *)
Definition iq_so (v : vars) : Q :=
  let so := 1 - iq_sw v - iq_sg0 v in
  if oilEnabled c then so - solventSaturation_ v else so.
Definition iq_sg (v : vars) : Q :=
  if oilEnabled c then iq_sg0 v
  else if gasEnabled c then iq_sg0 v - solventSaturation_ v else iq_sg0 v.

(** blackoilintensivequantities.hh 247-295: the pressures (w, o, g) of the phases, without
    solvent (which enlarges the gas saturation used by the capillary pressure). *)
Definition iq_pressures (v : vars) : Q * Q * Q :=
  let pc := f_pc f (iq_so v) (iq_sg v) (iq_sw v) in
  let pcf := pcFactor v in
  let p := pressure_ v in
  let ref := match m_pressure v with Pg => pcg pc | Pw => pcw pc | Po => pco pc end in
  (p + (pcf * pcw pc - pcf * ref), p + (pcf * pco pc - pcf * ref),
   p + (pcf * pcg pc - pcf * ref)).

End Fluid.
