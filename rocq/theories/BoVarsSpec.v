(** Vocabulary for the properties of the black-oil primary variables. *)
From Verif Require Import BoVarsModel.

(** The entries of the vector which are in use are different ones. *)
Definition entries (c : config) (v : vars) : list Z :=
  pressureSwitchIdx (idx c) ::
  (match m_water v with WDisabled => [] | _ => [waterSwitchIdx (idx c)] end) ++
  (match m_gas v with GDisabled => [] | _ => [compositionSwitchIdx (idx c)] end) ++
  (match m_brine v with BDisabled => [] | _ => [saltConcentrationIdx (idx c)] end) ++
  (match m_solvent v with SDisabled => [] | _ => [solventSaturationIdx (idx c)] end).
Definition separate (c : config) (v : vars) : Prop := NoDup (entries c v).

Definition same_meanings (v w : vars) : Prop :=
  m_water v = m_water w /\ m_pressure v = m_pressure w /\ m_gas v = m_gas w /\
  m_brine v = m_brine w /\ m_solvent v = m_solvent w.

(** Same values (as numbers) and same meanings. *)
Definition same (v w : vars) : Prop := (forall i, val v i == val w i) /\ same_meanings v w.

(** A variable which stands for a saturation has that value; a saturation which is no
    primary variable counts as zero here. *)
Definition water_of (c : config) (v : vars) : Q :=
  match m_water v with Sw => val v (waterSwitchIdx (idx c)) | _ => 0 end.
Definition gas_of (c : config) (v : vars) : Q :=
  match m_gas v with Sg => val v (compositionSwitchIdx (idx c)) | _ => 0 end.
Definition solvent_of (c : config) (v : vars) : Q :=
  match m_solvent v with Ss => val v (solventSaturationIdx (idx c)) | _ => 0 end.
Definition rest_of (c : config) (v : vars) : Q :=
  1 - water_of c v - gas_of c v - solvent_of c v.

Definition fraction (x : Q) : Prop := 0 <= x /\ x <= 1.

Definition physical (c : config) (v : vars) : Prop :=
  fraction (water_of c v) /\ fraction (gas_of c v) /\ fraction (solvent_of c v) /\
  fraction (rest_of c v).

(** Nothing to normalise: a single phase. *)
Definition single_phase (v : vars) : Prop := m_water v = WDisabled /\ m_gas v = GDisabled.

(** The pressure variable belongs to a phase which the other meanings call present: gas if
    it is the only hydrocarbon phase, water if it is the only phase, else oil. *)
Definition pressure_fits (c : config) (v : vars) : Prop :=
  m_pressure v =
    match m_gas v with
    | Rv => Pg
    | Rs | Sg => Po
    | GDisabled =>
        if oilEnabled c then Po
        else if gasEnabled c then match m_water v with Rsw => Pw | _ => Pg end
        else Pw
    end.

(** Dissolution is only switched on for phases which are there, and gas dissolves in water
    only in models without oil. *)
Definition sensible (c : config) : Prop :=
  (vapoil c = true -> oilEnabled c = true /\ gasEnabled c = true) /\
  (disgas c = true -> oilEnabled c = true /\ gasEnabled c = true) /\
  (vapwat c = true -> waterEnabled c = true /\ gasEnabled c = true) /\
  (disgasw c = true ->
     oilEnabled c = false /\ waterEnabled c = true /\ gasEnabled c = true) /\
  (compositionSwitchEnabled c = oilEnabled c && gasEnabled c).

(** The meanings agree with the phases of the model. *)
Definition meanings_fit (c : config) (v : vars) : Prop :=
  (m_gas v = GDisabled <-> oilEnabled c && gasEnabled c = false) /\
  (m_water v = WDisabled <-> waterEnabled c && negb (numActivePhases c =? 1)%nat = false) /\
  (m_water v = Rsw -> disgasw c = true) /\
  (m_water v = Rvw -> vapwat c = true).

(** Between two calls the Newton method changes values, but not meanings. *)
Definition new_values (v w : vars) : Prop := same_meanings v w.

(** The meanings a cell can get to: from the assignment of a fluid state, by value changes
    and by adaptations, each with its own fluid properties and limits. [ok] restricts
    the adaptations. *)
Inductive reachable (c : config) (ok : Q -> vars -> Prop) : vars -> Prop :=
| r_assign : forall f s v, reachable c ok (assign c f s v)
| r_values : forall v w, reachable c ok v -> new_values v w -> reachable c ok w
| r_adapt : forall f swMaximum threshold eps v, reachable c ok v -> ok threshold v ->
    reachable c ok (fst (adapt c f swMaximum threshold eps v)).

(** A cell of the extended water-filled case: gas without oil, and almost no gas. *)
Definition not_water_filled_gas (c : config) (threshold : Q) (v : vars) : Prop :=
  m_gas v = Rv -> read_sw c v < threshold.

(** Two sets of variables describe the same fluid: the model computes the same saturations
    and the same pressures of the phases from them. *)
Definition same_fluid (c : config) (f : fluid) (v w : vars) : Prop :=
  iq_sw c v == iq_sw c w /\ iq_so c v == iq_so c w /\ iq_sg c v == iq_sg c w /\
  pcw (iq_pressures c f v) == pcw (iq_pressures c f w) /\
  pco (iq_pressures c f v) == pco (iq_pressures c f w) /\
  pcg (iq_pressures c f v) == pcg (iq_pressures c f w).

(** No saturation stops being a variable. *)
Definition nothing_vanishes (v w : vars) : Prop :=
  (m_water v = Sw -> m_water w = Sw) /\ (m_gas v = Sg -> m_gas w = Sg).

(** Capillary pressures depend on the values of the saturations only. *)
Definition proper_pc (f : fluid) : Prop := forall so sg sw so' sg' sw',
  so == so' -> sg == sg' -> sw == sw' ->
  pcw (f_pc f so sg sw) == pcw (f_pc f so' sg' sw') /\
  pco (f_pc f so sg sw) == pco (f_pc f so' sg' sw') /\
  pcg (f_pc f so sg sw) == pcg (f_pc f so' sg' sw').

(** A fluid state in equilibrium: saturations of the active phases which are fractions and
    add up to one, and phase pressures which differ by the capillary pressures. *)
Definition equilibrium (c : config) (f : fluid) (s : state) : Prop :=
  0 <= pcw (s_sat s) /\ 0 <= pco (s_sat s) /\ 0 <= pcg (s_sat s) /\
  pcw (s_sat s) + pco (s_sat s) + pcg (s_sat s) == 1 /\
  (waterEnabled c = false -> pcw (s_sat s) == 0) /\
  (oilEnabled c = false -> pco (s_sat s) == 0) /\
  (gasEnabled c = false -> pcg (s_sat s) == 0) /\
  (let pc := f_pc f (pco (s_sat s)) (pcg (s_sat s)) (pcw (s_sat s)) in
   pcg (s_p s) - pco (s_p s) == pcg pc - pco pc /\
   pcw (s_p s) - pco (s_p s) == pcw pc - pco pc).
