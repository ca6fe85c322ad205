(** * C105-C108: mass, mobilities, phase changes and porosity of the black-oil intensive quantities *)
From Coq Require Import QArith List Bool Qminmax Lqa.
From Verif Require Import BoIqModel BoIqSpec BoIqProofs.
Open Scope Q_scope.

(** ** C105 *)

(** The mass of the fluids by the reported densities is the mass of the components in the storage term: with surface
    volumes, every component counts with its reference density. *)
Theorem C105_mass_of_volumes : forall C F T D pv fs kr dir,
  consistent C -> extbo C = false -> conserveSurfaceVolume C = true ->
  let q := update C F T D pv fs kr dir in
  saturation (fluid q) = saturation fs /\
  massOfPhases C q == total (fun c => if active C c then refDensity F c * componentStorage C F q c else 0).
Proof.
  intros C F T D pv fs kr dir HC HE HV q. split.
  - destruct (update_agree C F T D pv fs kr dir) as (S&_). subst q; rewrite S; apply composed_sat.
  - subst q; rewrite update_eq; cbv zeta. unfold zPvtUpdate at 1 2; rewrite HE. apply mass_of_densities; auto.
Qed.

(** If masses are conserved, the storage terms themselves add up to the mass of the phases. *)
Theorem C105_mass_of_masses : forall C F T D pv fs kr dir,
  consistent C -> extbo C = false -> conserveSurfaceVolume C = false ->
  let q := update C F T D pv fs kr dir in
  massOfPhases C q == total (componentStorage C F q).
Proof.
  intros C F T D pv fs kr dir HC HE HV q.
  subst q; rewrite update_eq; cbv zeta. unfold zPvtUpdate at 1 2; rewrite HE. apply mass_of_densities_masses; auto.
Qed.

(** With the extended black-oil module the surface volume of z counts with the density of z instead of the density of
    gas. Only without vaporized water; the regularisation terms of its storage (BoExtModel.v) are not in [zContent]. *)
Theorem C105_mass_extended_partial : forall C F T D pv fs kr dir,
  consistent C -> extbo C = true -> conserveSurfaceVolume C = true -> active C Oil = true -> active C Gas = true ->
  vaporizedWater C = false -> compositionSwitch C = true ->
  (dissolvedGas C = false -> gasM pv <> GasRs) -> (vaporizedOil C = false -> gasM pv <> GasRv) ->
  let q := update C F T D pv fs kr dir in
  massOfPhases C q ==
  total (fun c => if active C c then refDensity F c * componentStorage C F q c else 0)
  + (tRefDensity T - refDensity F Gas) * zContent q.
Proof.
  intros C F T D pv fs kr dir HC HE HV HO HG HW HS Hs Hv q.
  subst q; rewrite update_eq; cbv zeta. apply mass_of_densities_ext; auto;
  destruct (looped_agree C F (zFractionUpdate C T pv fs) (composed C F T D pv fs) kr dir) as (_&_&A&B&_);
  destruct (composed_steps C F T D pv fs) as (a&b&c&_&_&_&_&_&_&_&_&S1&S2&_);
  [rewrite A, S1; intros E; specialize (Hs E)|rewrite B, S2; intros E; specialize (Hv E)];
  unfold setRvStep, setRsStep; rewrite E, HS; destruct (gasM pv); try (exfalso; congruence); reflexivity.
Qed.

(** A case of three phases with everything dissolved and vaporized. *)
Definition allOn (e cv : bool) : config :=
  {| active := fun _ => true; dissolvedGas := true; dissolvedGasInWater := true; vaporizedOil := true;
     vaporizedWater := true; extbo := e; compositionSwitch := true; micp := false; saltPrecipitation := false;
     conserveSurfaceVolume := cv |}.
Definition someFluid : fluidSystem :=
  {| satDissolution := fun _ p _ => match p with Oil => 2 | Gas => 1 # 2 | Water => 1 # 3 end;
     satVaporization := fun _ => 1 # 4; invFormationVolume := fun _ p => match p with Water => 1 | Oil => 2 | Gas => 3 end;
     viscosity := fun _ p => match p with Water => 1 | Oil => 5 | Gas => 7 end;
     refDensity := fun p => match p with Water => 10 | Oil => 8 | Gas => 1 end |}.
Definition someTables : extboTables :=
  {| tOilViscosity := fun _ _ => 2; tGasViscosity := fun _ _ => 3; tBo := fun p _ => p; tBg := fun p _ => p;
     tRs := fun p z => p + z; tRv := fun p _ => p; tX := fun p _ => p; tY := fun _ _ => 1 # 2;
     tPbubRs := fun z r => r - z; tOilCmp := fun _ => 0; tGasCmp := fun _ => 0; tZLim := 1; tRefDensity := 2 |}.
Definition someCell : cellData :=
  {| maxOilSat := 0; rsMax := 100; rvMax := 100; rswMax := 100; basePorosity := 1 # 5; rockCompressibility := 1;
     rockRefPressure := 1; rockMultiplier := 1 |}.
Definition someVars (m : gasMeaning) (x z : Q) : priVars :=
  {| gasM := m; waterM := WaterSw; compositionVar := x; waterVar := 1 # 5; zFractionVar := z; saltIsSp := false;
     saltVar := 0; biofilmVar := 0; calciteVar := 0 |}.
Definition someState (po pg : Q) : fluidState :=
  {| saturation := fun p => match p with Water => 1 # 5 | Oil => 1 # 5 | Gas => 3 # 5 end;
     pressure := fun p => match p with Gas => pg | _ => po end; Rs := 0; Rv := 0; Rvw := 0; Rsw := 0;
     invB := fun _ => 0; density := fun _ => 0 |}.

Example C105_case : consistent (allOn false true) /\
  massOfPhases (allOn false true)
    (update (allOn false true) someFluid someTables someCell (someVars GasSg (3 # 5) 0) (someState 1 1) (fun _ => 1) None)
  == 587 # 150.
Proof. split; [repeat split|vm_compute; reflexivity]. Qed.

(** The densities of the extended black-oil module do not contain the vaporized water, which the storage contains. *)
Theorem C105_vaporized_water_refuted : exists C F T D pv fs,
  consistent C /\ extbo C = true /\ conserveSurfaceVolume C = true /\
  let q := update C F T D pv fs (fun _ => 1) None in
  ~ massOfPhases C q ==
    total (fun c => if active C c then refDensity F c * componentStorage C F q c else 0)
    + (tRefDensity T - refDensity F Gas) * zContent q.
Proof.
  exists (allOn true true), someFluid, someTables, someCell, (someVars GasSg (3 # 5) (1 # 2)), (someState 1 1).
  split; [repeat split|]. split; [reflexivity|]. split; [reflexivity|].
  vm_compute; discriminate.
Qed.

(** ** C106 *)

(** Every mobility, also every directional one, is the relative permeability divided exactly once by one and the same
    viscosity of its phase; the viscosity is the one at the final composition of the phase. *)
Theorem C106_mobilities : forall C F T D pv fs kr dir p,
  active C p = true ->
  let q := update C F T D pv fs kr dir in
  exists f mu,
    saturation f = saturation fs /\ pressure f = pressure fs /\
    Rs f = Rs (fluid q) /\ Rv f = Rv (fluid q) /\ Rvw f = Rvw (fluid q) /\ Rsw f = Rsw (fluid q) /\
    (extbo C = false -> invB f p = invB (fluid q) p) /\
    mu = match extbo C, p with
         | true, Oil => tOilViscosity T (pressure fs Oil) (zFractionVar pv)
         | true, Gas => tGasViscosity T (pressure fs Gas) (zFractionVar pv)
         | _, _ => viscosity F f p
         end /\
    mobility q p = kr p / mu /\
    forall d, mobilityTowards q p d =
              match dir, d with
              | Some _, OtherDir => None
              | _, _ => Some (krTowards kr dir p d / mu)
              end.
Proof.
  intros C F T D pv fs kr dir p HA q.
  destruct (looped_mobility C F (zFractionUpdate C T pv fs) (composed C F T D pv fs) kr dir p HA) as (f & AG & IB & M & MD).
  destruct (update_agree C F T D pv fs kr dir) as (U1&U2&U3&U4&U5&U6).
  destruct AG as (A1&A2&A3&A4&A5&A6).
  assert (EM : eOilMu (zFractionUpdate C T pv fs) = tOilViscosity T (pressure fs Oil) (zFractionVar pv) /\
               eGasMu (zFractionUpdate C T pv fs) = tGasViscosity T (pressure fs Gas) (zFractionVar pv))
    by (unfold zFractionUpdate; destruct (gasM pv); split; reflexivity).
  destruct EM as [EM1 EM2]. rewrite EM1, EM2 in M, MD.
  exists f. eexists.
  split; [rewrite A1; apply composed_sat|]. split; [rewrite A2; apply composed_pressure|].
  subst q. split; [congruence|]. split; [congruence|]. split; [congruence|]. split; [congruence|].
  split; [|split; [reflexivity|split]].
  - intros HE. rewrite IB, update_eq; cbv zeta; cbn [fluid]. unfold zPvtUpdate; rewrite HE, densities_invB; reflexivity.
  - rewrite update_eq; cbv zeta; unfold mobility; cbn [mobilityArray]. exact M.
  - intros d. rewrite update_eq; cbv zeta; unfold mobilityTowards; cbn [dirMob mobilityArray].
    destruct dir as [a|]; destruct (snd (looped C F (zFractionUpdate C T pv fs) (composed C F T D pv fs) kr _)) as [b|];
      try contradiction.
    + destruct MD as (X&Y&Z'). destruct d; cbn [krTowards]; rewrite ?X, ?Y, ?Z'; reflexivity.
    + cbn [krTowards]. rewrite M. destruct d; reflexivity.
Qed.

(** A phase which does not exist keeps the entry of the relative permeability. *)
Theorem C106_other_phases : forall C F T D pv fs kr dir p,
  active C p = false -> mobility (update C F T D pv fs kr dir) p = kr p.
Proof. intros; rewrite update_eq; cbv zeta; unfold mobility; cbn [mobilityArray]; apply looped_inactive; assumption. Qed.

(** The access fails for exactly the directions which are none, if directional mobilities exist. *)
Theorem C106_direction_errors : forall C F T D pv fs kr dir p d,
  mobilityTowards (update C F T D pv fs kr dir) p d = None <-> dir <> None /\ d = OtherDir.
Proof.
  intros. rewrite update_eq; cbv zeta; unfold mobilityTowards; cbn [dirMob mobilityArray].
  pose proof (looped_dir C F (zFractionUpdate C T pv fs) (composed C F T D pv fs) kr dir) as L.
  destruct (snd (looped C F (zFractionUpdate C T pv fs) (composed C F T D pv fs) kr dir)) as [m|].
  - assert (dir <> None) by (intros E; apply L in E; discriminate).
    destruct d; split; intros H1; try discriminate; try (destruct H1; discriminate); [split; auto|reflexivity].
  - split; [discriminate|]. intros [A _]. exfalso; apply A, L; reflexivity.
Qed.

Example C106_case :
  let q := update (allOn true true) someFluid someTables someCell (someVars GasSg (3 # 5) (1 # 2)) (someState 1 1)
             (fun _ => 1) (Some {| mobX := fun _ => 2; mobY := fun _ => 3; mobZ := fun _ => 4 |}) in
  mobility q Water == 1 /\ mobility q Oil == 1 # 2 /\ mobilityTowards q Gas YMinus = Some (3 / 3) /\
  mobilityTowards q Gas OtherDir = None.
Proof. vm_compute. repeat split. Qed.

(** The limits for dissolution and vaporization hold if the ratio is not itself a primary variable. *)
Theorem C106_limits_partial : forall C F T D pv fs kr dir,
  let f := fluid (update C F T D pv fs kr dir) in
  (dissolvedGas C = true -> gasM pv <> GasRs -> Rs f <= rsMax D) /\
  (vaporizedOil C = true -> gasM pv <> GasRv -> Rv f <= rvMax D) /\
  (dissolvedGasInWater C = true -> waterM pv <> WaterRsw -> Rsw f <= rswMax D) /\
  (gasM pv = GasRs -> Rs f = compositionVar pv) /\
  (gasM pv = GasRv -> Rv f = compositionVar pv) /\
  (waterM pv = WaterRsw -> Rsw f = waterVar pv) /\
  (waterM pv = WaterRvw -> Rvw f = waterVar pv).
Proof.
  intros C F T D pv fs kr dir f.
  destruct (update_agree C F T D pv fs kr dir) as (_&_&U3&U4&U5&U6). subst f. rewrite U3, U4, U5, U6.
  destruct (composed_steps C F T D pv fs) as (a&b&c&_&_&_&_&_&_&_&_&S1&S2&S3&S4). rewrite S1, S2, S3, S4.
  unfold setRswStep, setRvwStep, setRvStep, setRsStep.
  split; [|split; [|split; [|split; [|split; [|split]]]]]; intros E; try intros N; rewrite E;
  [destruct (gasM pv); try (exfalso; congruence)|destruct (gasM pv); try (exfalso; congruence)
  |destruct (waterM pv); try (exfalso; congruence)| | | | ];
  cbn [Rs Rv Rvw Rsw setRs setRv setRvw setRsw]; try apply Q.le_min_l; reflexivity.
Qed.

(** Otherwise the phases are saturated up to these limits, at the pressures and saturations of the cell. *)
Theorem C106_saturated : forall C F T D pv fs kr dir,
  consistent C -> extbo C = false ->
  let f := fluid (update C F T D pv fs kr dir) in
  let so := Qmax (saturation fs Oil) (maxOilSat D) in
  exists a b c,
    saturation a = saturation fs /\ pressure a = pressure fs /\
    saturation b = saturation fs /\ pressure b = pressure fs /\
    saturation c = saturation fs /\ pressure c = pressure fs /\
    (dissolvedGas C = true -> gasM pv <> GasRs -> Rs f = Qmin (rsMax D) (satDissolution F fs Oil so)) /\
    (vaporizedOil C = true -> gasM pv <> GasRv -> Rv f = Qmin (rvMax D) (satDissolution F a Gas so)) /\
    (vaporizedWater C = true -> waterM pv <> WaterRvw -> Rvw f = satVaporization F b) /\
    (dissolvedGasInWater C = true -> waterM pv <> WaterRsw -> Rsw f = Qmin (rswMax D) (satDissolution F c Water 0)).
Proof.
  intros C F T D pv fs kr dir (HC1&HC2&_) HE f so.
  destruct (update_agree C F T D pv fs kr dir) as (_&_&U3&U4&U5&U6). subst f. rewrite U3, U4, U5, U6.
  destruct (composed_steps C F T D pv fs) as (a&b&c&A1&A2&B1&B2&C1&C2&_&_&S1&S2&S3&S4). rewrite S1, S2, S3, S4.
  exists a, b, c. do 6 (split; [assumption|]).
  unfold setRswStep, setRvwStep, setRvStep, setRsStep, soMax; rewrite HE, A1.
  split; [|split; [|split]]; intros E N; rewrite E.
  - destruct (HC1 E) as [-> _]. destruct (gasM pv); try (exfalso; congruence); reflexivity.
  - destruct (HC2 E) as [-> _]. destruct (gasM pv); try (exfalso; congruence); reflexivity.
  - destruct (waterM pv); try (exfalso; congruence); reflexivity.
  - destruct (waterM pv); try (exfalso; congruence); reflexivity.
Qed.

(** The same with the extended black-oil module; no gas is dissolved in a cell which is full of water. *)
Theorem C106_saturated_extended : forall C F T D pv fs kr dir,
  extbo C = true ->
  let f := fluid (update C F T D pv fs kr dir) in
  let z := zFractionVar pv in
  (dissolvedGas C = true -> gasM pv <> GasRs -> (waterM pv <> WaterSw \/ waterVar pv < 999999 # 1000000) ->
   Rs f = Qmin (rsMax D) (tRs T (pressure fs Oil) z)) /\
  (dissolvedGas C = true -> gasM pv <> GasRs -> waterM pv = WaterSw -> 999999 # 1000000 <= waterVar pv ->
   Rs f = Qmin (rsMax D) 0) /\
  (vaporizedOil C = true -> gasM pv <> GasRv -> Rv f = Qmin (rvMax D) (tRv T (pressure fs Gas) z)).
Proof.
  intros C F T D pv fs kr dir HE f z.
  destruct (update_agree C F T D pv fs kr dir) as (_&_&U3&U4&_). subst f z. rewrite U3, U4.
  destruct (composed_steps C F T D pv fs) as (a&b&c&_&_&_&_&_&_&_&_&S1&S2&_). rewrite S1, S2.
  unfold setRvStep, setRsStep; rewrite HE.
  split; [|split]; intros E N; rewrite E.
  - intros W. unfold zFractionUpdate; rewrite E.
    assert (Q : match waterM pv with
                | WaterSw => if leb (999999 # 1000000) (waterVar pv) then 0 else tRs T (pressure fs Oil) (zFractionVar pv)
                | _ => tRs T (pressure fs Oil) (zFractionVar pv)
                end = tRs T (pressure fs Oil) (zFractionVar pv)).
    { destruct (waterM pv); try reflexivity. destruct W as [W|W]; [congruence|]. rewrite leb_false by exact W. reflexivity. }
    rewrite Q. destruct (gasM pv); try (exfalso; congruence); reflexivity.
  - intros W L. unfold zFractionUpdate; rewrite E, W.
    replace (leb (999999 # 1000000) (waterVar pv)) with true
      by (unfold leb; destruct (Qlt_le_dec (waterVar pv) (999999 # 1000000)) as [X|X]; [exfalso; apply (Qlt_not_le _ _ X L)|reflexivity]).
    destruct (gasM pv); try (exfalso; congruence); reflexivity.
  - unfold zFractionUpdate; rewrite E. destruct (gasM pv); try (exfalso; congruence); reflexivity.
Qed.

(** As a primary variable the ratio is not limited. *)
Theorem C106_limits_refuted : exists C F T D pv fs,
  dissolvedGas C = true /\ rsMax D < Rs (fluid (update C F T D pv fs (fun _ => 1) None)).
Proof.
  exists (allOn false true), someFluid, someTables, someCell, (someVars GasRs 101 0), (someState 1 1).
  split; [reflexivity|vm_compute; reflexivity].
Qed.

(** ** C107 *)

(** Extended black-oil module: when the gas phase disappears, the oil which is just saturated is the same with both
    primary variables. Needs that the bubble-point table inverts the table of Rs, a fraction z up to the limit, a limit
    of Rs above the saturated value, and a cell which is not full of water. *)
Theorem C107_oil_continuous_partial : forall C F T D pv fs kr dir s,
  extbo C = true -> dissolvedGas C = true -> properTables T ->
  let z := zFractionVar pv in
  let po := pressure fs Oil in
  let r := tRs T po z in
  tPbubRs T z r == po -> z <= tZLim T -> r <= rsMax D ->
  (waterM pv = WaterSw -> waterVar pv < 999999 # 1000000) ->
  sameOil (update C F T D (withGas pv GasSg s) fs kr dir) (update C F T D (withGas pv GasRs r) fs kr dir).
Proof.
  intros C F T D pv fs kr dir s HE HD PT z po r HB HZ HR HW.
  set (e1 := zFractionUpdate C T (withGas pv GasSg s) fs).
  set (e2 := zFractionUpdate C T (withGas pv GasRs r) fs).
  assert (B1 : eBo e1 = tBo T po z /\ eX e1 = tX T po z /\ eRs e1 = r).
  { unfold e1, zFractionUpdate; cbn [gasM waterM withGas waterVar zFractionVar compositionVar eBo eX eRs].
    rewrite HD. split; [reflexivity|]. split; [reflexivity|].
    destruct (waterM pv) eqn:W; try reflexivity. rewrite leb_false; auto. }
  assert (B2 : eBo e2 == tBo T po z /\ eX e2 == tX T po z).
  { unfold e2, zFractionUpdate; cbn [gasM waterM withGas waterVar zFractionVar compositionVar eBo eX eRs].
    rewrite ltb_false by exact HZ. fold z po.
    destruct (PT (tPbubRs T z r) po z HB) as (P1&_&P3&_). split; [|exact P3].
    rewrite P1, HB. ring. }
  assert (R1 : Rs (composed C F T D (withGas pv GasSg s) fs) == r).
  { destruct B1 as (_&_&B1). unfold composed; fold e1. unfold setRswStep, setRvwStep, setRvStep, setRsStep; cbn [gasM withGas waterM].
    rewrite HD, HE, B1.
    destruct (waterM pv), (vaporizedOil C), (compositionSwitch C), (vaporizedWater C), (dissolvedGasInWater C);
      cbn [Rs setRs setRv setRvw setRsw]; apply Q.min_r; exact HR. }
  assert (R2 : Rs (composed C F T D (withGas pv GasRs r) fs) = r).
  { unfold composed; fold e2. unfold setRswStep, setRvwStep, setRvStep, setRsStep; cbn [gasM withGas waterM].
    destruct (waterM pv), (vaporizedOil C), (compositionSwitch C), (vaporizedWater C), (dissolvedGasInWater C);
      cbn [Rs setRs setRv setRvw setRsw]; reflexivity. }
  destruct B1 as (B11&B12&_). destruct B2 as (B21&B22).
  destruct (update_agree C F T D (withGas pv GasSg s) fs kr dir) as (_&_&U1&_).
  destruct (update_agree C F T D (withGas pv GasRs r) fs kr dir) as (_&_&U2&_).
  assert (I1 : Rs (fluid (update C F T D (withGas pv GasSg s) fs kr dir)) == r) by (rewrite U1; exact R1).
  assert (I2 : Rs (fluid (update C F T D (withGas pv GasRs r) fs kr dir)) = r) by (rewrite U2; exact R2).
  clear U1 U2 R1 R2. revert I1 I2. unfold sameOil. rewrite !update_eq; cbv zeta; cbn [fluid ext]. fold e1 e2.
  unfold zPvtUpdate; rewrite HE. cbn [Rs invB density setInvB setDensity put phaseEqb].
  intros I1 I2. rewrite I1, I2, B11, B12, B21, B22. repeat split; reflexivity.
Qed.

(** The same for the gas when the oil phase disappears. Needs that both phases have the same pressure. *)
Theorem C107_gas_continuous_partial : forall C F T D pv fs kr dir s,
  extbo C = true -> vaporizedOil C = true -> properTables T ->
  let z := zFractionVar pv in
  let r := tRv T (pressure fs Gas) z in
  pressure fs Gas == pressure fs Oil -> r <= rvMax D ->
  sameGas (update C F T D (withGas pv GasSg s) fs kr dir) (update C F T D (withGas pv GasRv r) fs kr dir).
Proof.
  intros C F T D pv fs kr dir s HE HD PT z r HP HR.
  set (e1 := zFractionUpdate C T (withGas pv GasSg s) fs).
  set (e2 := zFractionUpdate C T (withGas pv GasRv r) fs).
  assert (B1 : eBg e1 = tBg T (pressure fs Gas) z /\ eY e1 = tY T (pressure fs Oil) z /\ eRv e1 = r).
  { unfold e1, zFractionUpdate; cbn [gasM waterM withGas waterVar zFractionVar compositionVar eBg eY eRv].
    rewrite HD. repeat split; reflexivity. }
  assert (B2 : eBg e2 == tBg T (pressure fs Gas) z /\ eY e2 == tY T (pressure fs Oil) z).
  { unfold e2, zFractionUpdate; cbn [gasM waterM withGas waterVar zFractionVar compositionVar eBg eY eRv].
    fold z. destruct (PT _ _ z HP) as (_&P2&_&_&P5). split; [|reflexivity].
    rewrite <- P2. unfold r. rewrite P5. ring. }
  assert (R1 : Rv (composed C F T D (withGas pv GasSg s) fs) == r).
  { destruct B1 as (_&_&B1). unfold composed; fold e1. unfold setRswStep, setRvwStep, setRvStep, setRsStep; cbn [gasM withGas waterM].
    rewrite HD, HE, B1.
    destruct (waterM pv), (dissolvedGas C), (compositionSwitch C), (vaporizedWater C), (dissolvedGasInWater C);
      cbn [Rv setRs setRv setRvw setRsw]; apply Q.min_r; exact HR. }
  assert (R2 : Rv (composed C F T D (withGas pv GasRv r) fs) = r).
  { unfold composed; fold e2. unfold setRswStep, setRvwStep, setRvStep, setRsStep; cbn [gasM withGas waterM].
    destruct (waterM pv), (dissolvedGas C), (compositionSwitch C), (vaporizedWater C), (dissolvedGasInWater C);
      cbn [Rv setRs setRv setRvw setRsw]; reflexivity. }
  destruct B1 as (B11&B12&_). destruct B2 as (B21&B22).
  destruct (update_agree C F T D (withGas pv GasSg s) fs kr dir) as (_&_&_&U1&_).
  destruct (update_agree C F T D (withGas pv GasRv r) fs kr dir) as (_&_&_&U2&_).
  assert (I1 : Rv (fluid (update C F T D (withGas pv GasSg s) fs kr dir)) == r) by (rewrite U1; exact R1).
  assert (I2 : Rv (fluid (update C F T D (withGas pv GasRv r) fs kr dir)) = r) by (rewrite U2; exact R2).
  clear U1 U2 R1 R2. revert I1 I2. unfold sameGas. rewrite !update_eq; cbv zeta; cbn [fluid ext]. fold e1 e2.
  unfold zPvtUpdate; rewrite HE. cbn [Rv invB density setInvB setDensity put phaseEqb].
  intros I1 I2. rewrite I1, I2, B11, B12, B21, B22. repeat split; reflexivity.
Qed.

(** The volumes of saturated phases are those of the tables; the volumes of undersaturated ones follow from the bubble
    point, of vaporized oil for gas, with the compressibilities. *)
Theorem C107_formation_volumes : forall C F T D pv fs kr dir,
  extbo C = true ->
  let f := fluid (update C F T D pv fs kr dir) in
  let z := zFractionVar pv in
  let r := compositionVar pv in
  let po := pressure fs Oil in
  (gasM pv <> GasRs -> ~ tBo T po z == 0 -> invB f Oil * tBo T po z == 1) /\
  (gasM pv <> GasRv -> ~ tBg T (pressure fs Gas) z == 0 -> invB f Gas * tBg T (pressure fs Gas) z == 1) /\
  (gasM pv = GasRs ->
     forall pb, ((z <= tZLim T /\ pb = tPbubRs T z r) \/ (tZLim T < z /\ pb = tPbubRs T (tZLim T) r)) ->
     ~ tBo T pb z + tOilCmp T z * (po - pb) == 0 ->
     invB f Oil * (tBo T pb z + tOilCmp T z * (po - pb)) == 1) /\
  (gasM pv = GasRv ->
     let b := tBg T po z + tGasCmp T z * (r - tRv T po z) in ~ b == 0 -> invB f Gas * b == 1).
Proof.
  intros C F T D pv fs kr dir HE f z r po. subst f. rewrite update_eq; cbv zeta; cbn [fluid].
  unfold zPvtUpdate; rewrite HE. cbn [invB setInvB setDensity put phaseEqb].
  set (e := zFractionUpdate C T pv fs).
  assert (INV : forall a b, a == b -> ~ b == 0 -> 1 / a * b == 1) by (intros a b E N; rewrite E; field; exact N).
  split; [|split; [|split]].
  - intros N Z0. apply INV; [|exact Z0]. unfold e, zFractionUpdate. destruct (gasM pv); try (exfalso; congruence); reflexivity.
  - intros N Z0. apply INV; [|exact Z0]. unfold e, zFractionUpdate. destruct (gasM pv); try (exfalso; congruence); reflexivity.
  - intros N pb PP Z0. apply INV; [|exact Z0]. unfold e, zFractionUpdate. rewrite N. cbn [eBo]. fold z r po.
    unfold ltb. destruct (Qlt_le_dec (tZLim T) z) as [L|L]; destruct PP as [[W ->]|[W ->]]; try reflexivity;
      exfalso; [exact (Qlt_not_le _ _ L W)|exact (Qlt_not_le _ _ W L)].
  - intros N Z0. apply INV; [|exact Z0]. unfold e, zFractionUpdate. rewrite N. cbn [eBg]. reflexivity.
Qed.

Lemma someTables_proper : properTables someTables.
Proof. intros p p' z H. cbn. repeat split; auto; reflexivity. Qed.

Example C107_case :
  let pv := someVars GasSg (3 # 5) (1 # 2) in
  properTables someTables /\
  tPbubRs someTables (1 # 2) (tRs someTables 4 (1 # 2)) == 4 /\ zFractionVar pv <= tZLim someTables /\
  tRs someTables 4 (1 # 2) <= rsMax someCell /\ waterVar pv < 999999 # 1000000 /\
  invB (fluid (update (allOn true true) someFluid someTables someCell pv (someState 4 4) (fun _ => 1) None)) Oil == 1 # 4.
Proof. split; [apply someTables_proper|]. vm_compute. repeat split; discriminate. Qed.

(** Above the limit of z the bubble point is looked up at the limit, and the oil jumps. *)
Theorem C107_above_limit_refuted : exists C F T D pv fs s,
  extbo C = true /\ dissolvedGas C = true /\ properTables T /\
  (forall z p, tPbubRs T z (tRs T p z) == p) /\ tRs T (pressure fs Oil) (zFractionVar pv) <= rsMax D /\
  waterVar pv < 999999 # 1000000 /\
  ~ invB (fluid (update C F T D (withGas pv GasSg s) fs (fun _ => 1) None)) Oil ==
    invB (fluid (update C F T D (withGas pv GasRs (tRs T (pressure fs Oil) (zFractionVar pv))) fs (fun _ => 1) None)) Oil.
Proof.
  exists (allOn true true), someFluid, someTables, someCell, (someVars GasSg (3 # 5) 2), (someState 4 4), (3 # 5).
  split; [reflexivity|]. split; [reflexivity|]. split; [apply someTables_proper|].
  split; [intros; cbn; ring|]. split; [vm_compute; discriminate|]. split; [vm_compute; reflexivity|].
  vm_compute; discriminate.
Qed.

(** With a capillary pressure the gas jumps: the saturated gas is taken at the pressure of the gas, the undersaturated
    gas at the pressure of the oil. *)
Theorem C107_capillary_pressure_refuted : exists C F T D pv fs s,
  extbo C = true /\ vaporizedOil C = true /\ properTables T /\
  tRv T (pressure fs Gas) (zFractionVar pv) <= rvMax D /\
  ~ invB (fluid (update C F T D (withGas pv GasSg s) fs (fun _ => 1) None)) Gas ==
    invB (fluid (update C F T D (withGas pv GasRv (tRv T (pressure fs Gas) (zFractionVar pv))) fs (fun _ => 1) None)) Gas.
Proof.
  exists (allOn true true), someFluid, someTables, someCell, (someVars GasSg (3 # 5) (1 # 2)), (someState 4 5), (3 # 5).
  split; [reflexivity|]. split; [reflexivity|]. split; [apply someTables_proper|]. split; [vm_compute; discriminate|].
  vm_compute; discriminate.
Qed.

(** ** C108 *)

(** Compression never closes the pores: at least half of the pore volume remains, whatever the pressure. *)
Theorem C108_positive : forall C F T D pv fs kr dir,
  0 < basePorosity D -> 0 < rockMultiplier D -> micp C = false ->
  (saltPrecipitation C = true -> saltIsSp pv = true -> saltVar pv < 1) ->
  let phi := porosity (update C F T D pv fs kr dir) in
  0 < phi /\
  (saltPrecipitation C = false -> (1 # 2) * basePorosity D * rockMultiplier D <= phi).
Proof.
  intros C F T D pv fs kr dir H0 H1 HM HS phi. subst phi. rewrite porosity_of_update. unfold porosityOf. rewrite HM.
  set (p := if active C Oil then pressure fs Oil else if active C Water then pressure fs Water else pressure fs Gas).
  set (x := rockCompressibility D * (p - rockRefPressure D)).
  assert (A : (1 # 2) * basePorosity D <=
              (if ltb 0 (rockCompressibility D) then basePorosity D * (1 + x + (1 # 2) * x * x) else basePorosity D)).
  { destruct (ltb 0 (rockCompressibility D)); [|lra]. pose proof (parabola_pos x) as P.
    set (y := 1 + x + (1 # 2) * x * x) in *. nra. }
  set (w := if ltb 0 (rockCompressibility D) then basePorosity D * (1 + x + (1 # 2) * x * x) else basePorosity D) in *.
  assert (B : (1 # 2) * basePorosity D * rockMultiplier D <= w * rockMultiplier D) by nra.
  assert (B0 : 0 < w * rockMultiplier D) by nra.
  destruct (saltPrecipitation C); cbn [andb].
  - split; [|discriminate]. destruct (saltIsSp pv); [|exact B0]. specialize (HS eq_refl eq_refl). nra.
  - split; [exact B0|intros _; exact B].
Qed.

(** More pressure gives more pore volume, from the pressure on at which compressibility times the distance to the
    reference pressure is -1. *)
Theorem C108_monotone_partial : forall C F T D pv fs kr dir pr,
  0 <= basePorosity D -> 0 <= rockMultiplier D ->
  (saltPrecipitation C = true -> saltIsSp pv = true -> saltVar pv <= 1) ->
  rockPressure C (pressure fs) <= rockPressure C pr ->
  - (1) <= rockCompressibility D * (rockPressure C (pressure fs) - rockRefPressure D) ->
  porosity (update C F T D pv fs kr dir) <= porosity (update C F T D pv (withPressure fs pr) kr dir).
Proof.
  intros C F T D pv fs kr dir pr H0 H1 HS HP HX. rewrite !porosity_of_update. unfold porosityOf. cbn [pressure withPressure].
  unfold rockPressure in *.
  set (p := if active C Oil then pressure fs Oil else if active C Water then pressure fs Water else pressure fs Gas) in *.
  set (p' := if active C Oil then pr Oil else if active C Water then pr Water else pr Gas) in *.
  set (c := rockCompressibility D) in *. set (p0 := rockRefPressure D) in *. set (phi := basePorosity D) in *.
  assert (A : (if ltb 0 c then phi * (1 + c * (p - p0) + (1 # 2) * (c * (p - p0)) * (c * (p - p0))) else phi) <=
              (if ltb 0 c then phi * (1 + c * (p' - p0) + (1 # 2) * (c * (p' - p0)) * (c * (p' - p0))) else phi)).
  { destruct (ltb 0 c) eqn:L; [|lra]. apply ltb_true in L.
    assert (M : c * (p - p0) <= c * (p' - p0)) by nra.
    pose proof (parabola_mono _ _ HX M) as P.
    set (a := 1 + c * (p - p0) + _) in *. set (b := 1 + c * (p' - p0) + _) in *. nra. }
  set (w := if ltb 0 c then phi * (1 + c * (p - p0) + (1 # 2) * (c * (p - p0)) * (c * (p - p0))) else phi) in *.
  set (w' := if ltb 0 c then phi * (1 + c * (p' - p0) + (1 # 2) * (c * (p' - p0)) * (c * (p' - p0))) else phi) in *.
  assert (B : w * rockMultiplier D <= w' * rockMultiplier D) by nra.
  set (v := w * rockMultiplier D) in *. set (v' := w' * rockMultiplier D) in *.
  assert (E : (if micp C then v + (- biofilmVar pv - calciteVar pv) else v) <=
              (if micp C then v' + (- biofilmVar pv - calciteVar pv) else v')) by (destruct (micp C); lra).
  set (u := if micp C then v + _ else v) in *. set (u' := if micp C then v' + _ else v') in *.
  destruct (saltPrecipitation C); cbn [andb]; [|exact E]. destruct (saltIsSp pv); [|exact E].
  specialize (HS eq_refl eq_refl). nra.
Qed.

Example C108_case :
  rockPressure (allOn false true) (pressure (someState 1 1)) <= rockPressure (allOn false true) (fun _ => 2) /\
  - (1) <= rockCompressibility someCell * (rockPressure (allOn false true) (pressure (someState 1 1)) - rockRefPressure someCell) /\
  porosity (update (allOn false true) someFluid someTables someCell (someVars GasSg (3 # 5) 0)
              (withPressure (someState 1 1) (fun _ => 2)) (fun _ => 1) None) == 1 # 2.
Proof. vm_compute. repeat split; discriminate. Qed.

(** Far below the reference pressure the pores open again when the pressure falls. *)
Theorem C108_monotone_refuted : exists C F T D pv fs pr,
  0 < basePorosity D /\ 0 < rockMultiplier D /\ micp C = false /\ saltPrecipitation C = false /\
  rockPressure C (pressure fs) < rockPressure C pr /\
  porosity (update C F T D pv (withPressure fs pr) (fun _ => 1) None) < porosity (update C F T D pv fs (fun _ => 1) None).
Proof.
  exists (allOn false true), someFluid, someTables, someCell, (someVars GasSg (3 # 5) 0), (someState (-3) 1), (fun _ => -1).
  vm_compute. repeat split.
Qed.

(** Biofilm and calcite are subtracted without a limit: the porosity can become negative. *)
Theorem C108_micp_refuted : exists C F T D pv fs,
  0 < basePorosity D /\ 0 < rockMultiplier D /\ 0 <= biofilmVar pv /\ 0 <= calciteVar pv /\
  biofilmVar pv < basePorosity D /\ calciteVar pv < basePorosity D /\
  porosity (update C F T D pv fs (fun _ => 1) None) < 0.
Proof.
  exists {| active := fun p => phaseEqb p Water; dissolvedGas := false; dissolvedGasInWater := false;
            vaporizedOil := false; vaporizedWater := false; extbo := false; compositionSwitch := false; micp := true;
            saltPrecipitation := false; conserveSurfaceVolume := true |}, someFluid, someTables, someCell,
    {| gasM := GasDisabled; waterM := WaterDisabled; compositionVar := 0; waterVar := 0; zFractionVar := 0;
       saltIsSp := false; saltVar := 0; biofilmVar := 3 # 20; calciteVar := 3 # 20 |}, (someState 1 1).
  vm_compute. repeat split; discriminate.
Qed.

Print Assumptions C105_mass_of_volumes.
Print Assumptions C105_mass_of_masses.
Print Assumptions C105_mass_extended_partial.
Print Assumptions C105_vaporized_water_refuted.
Print Assumptions C106_mobilities.
Print Assumptions C106_other_phases.
Print Assumptions C106_direction_errors.
Print Assumptions C106_limits_partial.
Print Assumptions C106_saturated.
Print Assumptions C106_saturated_extended.
Print Assumptions C106_limits_refuted.
Print Assumptions C107_oil_continuous_partial.
Print Assumptions C107_gas_continuous_partial.
Print Assumptions C107_formation_volumes.
Print Assumptions C107_above_limit_refuted.
Print Assumptions C107_capillary_pressure_refuted.
Print Assumptions C108_positive.
Print Assumptions C108_monotone_partial.
Print Assumptions C108_monotone_refuted.
Print Assumptions C108_micp_refuted.
