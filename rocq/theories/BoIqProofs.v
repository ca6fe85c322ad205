(** * Proofs about the black-oil intensive quantities *)
From Coq Require Import QArith List Bool Qminmax Lqa.
From Verif Require Import BoIqModel BoIqSpec.
Open Scope Q_scope.

Lemma ltb_true : forall a b, ltb a b = true -> a < b.
Proof. unfold ltb; intros a b; destruct (Qlt_le_dec a b); [auto|discriminate]. Qed.

Lemma ltb_false : forall a b, b <= a -> ltb a b = false.
Proof. unfold ltb; intros a b H; destruct (Qlt_le_dec a b); [exfalso; apply (Qlt_not_le _ _ q H)|reflexivity]. Qed.

Lemma leb_false : forall a b, b < a -> leb a b = false.
Proof. unfold leb; intros a b H; destruct (Qlt_le_dec b a); [reflexivity|exfalso; apply (Qlt_not_le _ _ H q)]. Qed.

(** The fluid state before the loop over the phases. *)
Definition composed C F T D pv fs : fluidState :=
  let e := zFractionUpdate C T pv fs in
  setRswStep C F D pv (setRvwStep C F pv (setRvStep C F D pv e (setRsStep C F D pv e fs))).

Lemma rsw_step : forall C F D pv x,
  let y := setRswStep C F D pv x in
  saturation y = saturation x /\ pressure y = pressure x /\ Rs y = Rs x /\ Rv y = Rv x /\ Rvw y = Rvw x.
Proof. intros; unfold y, setRswStep; destruct (waterM pv), (dissolvedGasInWater C); repeat split. Qed.

Lemma rvw_step : forall C F pv x,
  let y := setRvwStep C F pv x in
  saturation y = saturation x /\ pressure y = pressure x /\ Rs y = Rs x /\ Rv y = Rv x.
Proof. intros; unfold y, setRvwStep; destruct (waterM pv), (vaporizedWater C); repeat split. Qed.

Lemma rv_step : forall C F D pv e x,
  let y := setRvStep C F D pv e x in
  saturation y = saturation x /\ pressure y = pressure x /\ Rs y = Rs x.
Proof. intros; unfold y, setRvStep; destruct (gasM pv), (vaporizedOil C), (compositionSwitch C); repeat split. Qed.

Lemma rs_step : forall C F D pv e x,
  let y := setRsStep C F D pv e x in
  saturation y = saturation x /\ pressure y = pressure x.
Proof. intros; unfold y, setRsStep; destruct (gasM pv), (dissolvedGas C), (compositionSwitch C); repeat split. Qed.

(** Which step determines which ratio; the states in between have the saturations and pressures of the first. *)
Lemma composed_steps : forall C F T D pv fs,
  let e := zFractionUpdate C T pv fs in
  let g := composed C F T D pv fs in
  exists a b c,
    saturation a = saturation fs /\ pressure a = pressure fs /\
    saturation b = saturation fs /\ pressure b = pressure fs /\
    saturation c = saturation fs /\ pressure c = pressure fs /\
    saturation g = saturation fs /\ pressure g = pressure fs /\
    Rs g = Rs (setRsStep C F D pv e fs) /\ Rv g = Rv (setRvStep C F D pv e a) /\
    Rvw g = Rvw (setRvwStep C F pv b) /\ Rsw g = Rsw (setRswStep C F D pv c).
Proof.
  intros C F T D pv fs e g.
  exists (setRsStep C F D pv e fs), (setRvStep C F D pv e (setRsStep C F D pv e fs)),
    (setRvwStep C F pv (setRvStep C F D pv e (setRsStep C F D pv e fs))).
  unfold g, composed; cbv zeta; fold e.
  set (a := setRsStep C F D pv e fs). set (b := setRvStep C F D pv e a). set (c := setRvwStep C F pv b).
  destruct (rs_step C F D pv e fs) as (A1&A2). destruct (rv_step C F D pv e a) as (B1&B2&B3).
  destruct (rvw_step C F pv b) as (C1&C2&C3&C4). destruct (rsw_step C F D pv c) as (D1&D2&D3&D4&D5).
  fold a in A1, A2. fold b in B1, B2, B3. fold c in C1, C2, C3, C4.
  repeat split; congruence.
Qed.

Lemma composed_sat : forall C F T D pv fs, saturation (composed C F T D pv fs) = saturation fs.
Proof. intros; destruct (composed_steps C F T D pv fs) as (?&?&?&_&_&_&_&_&_&H&_); exact H. Qed.

Lemma composed_pressure : forall C F T D pv fs, pressure (composed C F T D pv fs) = pressure fs.
Proof. intros; destruct (composed_steps C F T D pv fs) as (?&?&?&_&_&_&_&_&_&_&H&_); exact H. Qed.

(** Two fluid states agree on everything but the formation volumes and densities. *)
Definition agree (a b : fluidState) : Prop :=
  saturation a = saturation b /\ pressure a = pressure b /\ Rs a = Rs b /\ Rv a = Rv b /\ Rvw a = Rvw b /\ Rsw a = Rsw b.

Lemma agree_refl : forall a, agree a a.
Proof. repeat split. Qed.

Lemma agree_trans : forall a b c, agree a b -> agree b c -> agree a c.
Proof. intros a b c (A1&A2&A3&A4&A5&A6) (B1&B2&B3&B4&B5&B6); repeat split; congruence. Qed.

Lemma agree_invB : forall a b p x, agree a b -> agree (setInvB a p x) b.
Proof. intros a b p x H; exact H. Qed.

Lemma agree_density : forall a b p x, agree a b -> agree (setDensity a p x) b.
Proof. intros a b p x H; exact H. Qed.

(** The state after the loop over the phases. *)
Definition looped C F e fs kr dir :=
  phaseStep C F e Gas (phaseStep C F e Oil (phaseStep C F e Water (fs, kr, dir))).

Lemma looped_agree : forall C F e fs kr dir, agree (fst (fst (looped C F e fs kr dir))) fs.
Proof.
  intros; unfold looped, phaseStep; destruct (active C Water), (active C Oil), (active C Gas); repeat split.
Qed.

Lemma densities_agree : forall C F fs, agree (densities C F fs) fs.
Proof.
  intros; unfold densities; destruct (active C Water), (active C Oil), (active C Gas); repeat split.
Qed.

Lemma densities_invB : forall C F fs, invB (densities C F fs) = invB fs.
Proof. intros; unfold densities; destruct (active C Water), (active C Oil), (active C Gas); reflexivity. Qed.

Lemma zPvt_agree : forall C F T e fs, agree (zPvtUpdate C F T e fs) fs.
Proof. intros; unfold zPvtUpdate; destruct (extbo C); repeat split. Qed.

Lemma update_eq : forall C F T D pv fs kr dir,
  update C F T D pv fs kr dir =
  let e := zFractionUpdate C T pv fs in
  let l := looped C F e (composed C F T D pv fs) kr dir in
  let f := densities C F (fst (fst l)) in
  {| fluid := zPvtUpdate C F T e f; mobilityArray := snd (fst l); dirMob := snd l;
     porosity := porosityOf C D pv f; ext := e |}.
Proof.
  intros. unfold update. cbv zeta. fold (composed C F T D pv fs). fold (looped C F (zFractionUpdate C T pv fs) (composed C F T D pv fs) kr dir).
  destruct (looped C F (zFractionUpdate C T pv fs) (composed C F T D pv fs) kr dir) as [[a b] c]; reflexivity.
Qed.

Lemma update_agree : forall C F T D pv fs kr dir, agree (fluid (update C F T D pv fs kr dir)) (composed C F T D pv fs).
Proof.
  intros; rewrite update_eq; cbv zeta; cbn [fluid].
  eapply agree_trans; [apply zPvt_agree|]. eapply agree_trans; [apply densities_agree|]. apply looped_agree.
Qed.

(** ** Mass *)
Definition ifn (b : bool) (x : Q) : Q := if b then x else 0.

Lemma storage_step : forall C q p st c,
  storageStep C q p st c =
  let v := saturation (fluid q) p * invB (fluid q) p * porosity q in
  match p, c with
  | Water, Water | Oil, Oil | Gas, Gas => if active C p then st c + v else 0
  | Oil, Gas => if active C p && dissolvedGas C then st c + Rs (fluid q) * v else st c
  | Water, Gas => if active C p && dissolvedGasInWater C then st c + Rsw (fluid q) * v else st c
  | Gas, Oil => if active C p && vaporizedOil C then st c + Rv (fluid q) * v else st c
  | Gas, Water => if active C p && vaporizedWater C then st c + Rvw (fluid q) * v else st c
  | _, _ => st c
  end.
Proof.
  intros; unfold storageStep.
  destruct p; destruct (active C _);
    destruct (dissolvedGas C), (dissolvedGasInWater C), (vaporizedOil C), (vaporizedWater C); destruct c; reflexivity.
Qed.

Lemma adapt_mass : forall C F st c,
  adaptMass C F st c = if conserveSurfaceVolume C then st c else if active C c then st c * refDensity F c else st c.
Proof.
  intros; unfold adaptMass; destruct (conserveSurfaceVolume C); [reflexivity|].
  destruct c; destruct (active C Water), (active C Oil), (active C Gas); reflexivity.
Qed.

Lemma densities_water : forall C F fs, active C Water = true ->
  density (densities C F fs) Water ==
  invB fs Water * (refDensity F Water + ifn (dissolvedGasInWater C) (Rsw fs * refDensity F Gas)).
Proof.
  intros C F fs A; unfold densities; rewrite A; destruct (active C Oil), (active C Gas), (dissolvedGasInWater C);
    cbn [density setDensity put phaseEqb ifn]; ring.
Qed.

Lemma densities_gas : forall C F fs, active C Gas = true ->
  density (densities C F fs) Gas ==
  invB fs Gas * (refDensity F Gas + ifn (vaporizedOil C) (Rv fs * refDensity F Oil)
                 + ifn (vaporizedWater C) (Rvw fs * refDensity F Water)).
Proof.
  intros C F fs A; unfold densities; rewrite A; destruct (active C Oil), (active C Water), (vaporizedOil C), (vaporizedWater C);
    cbn [density setDensity put phaseEqb ifn invB Rv Rvw]; ring.
Qed.

Lemma densities_oil : forall C F fs, active C Oil = true ->
  density (densities C F fs) Oil ==
  invB fs Oil * (refDensity F Oil + ifn (dissolvedGas C) (Rs fs * refDensity F Gas)).
Proof.
  intros C F fs A; unfold densities; rewrite A; destruct (active C Gas), (active C Water), (dissolvedGas C);
    cbn [density setDensity put phaseEqb ifn invB Rs]; ring.
Qed.

(** The storage of the components, for any intensive quantities. *)
Lemma storage_components : forall C F q,
  consistent C ->
  let f := fluid q in
  let v := fun p => ifn (active C p) (saturation f p * invB f p * porosity q) in
  let k := fun c => if conserveSurfaceVolume C then 1 else refDensity F c in
  componentStorage C F q Water == ifn (active C Water) (k Water * (v Water + ifn (vaporizedWater C) (Rvw f * v Gas))) /\
  componentStorage C F q Oil == ifn (active C Oil) (k Oil * (v Oil + ifn (vaporizedOil C) (Rv f * v Gas))) /\
  componentStorage C F q Gas ==
    ifn (active C Gas) (k Gas * (v Gas + ifn (dissolvedGas C) (Rs f * v Oil) + ifn (dissolvedGasInWater C) (Rsw f * v Water))).
Proof.
  intros C F q (H1&H2&H3&H4) f v k. subst f v k. unfold componentStorage. rewrite !adapt_mass, !storage_step. cbv zeta.
  generalize (saturation (fluid q)) (invB (fluid q)) (porosity q) (Rs (fluid q)) (Rv (fluid q)) (Rvw (fluid q)) (Rsw (fluid q)).
  intros s b phi rs rv rvw rsw.
  split; [|split].
  - destruct (vaporizedWater C); [destruct (H4 eq_refl) as [a1 a2]; rewrite a1, a2|];
    destruct (conserveSurfaceVolume C), (active C Water), (active C Gas); cbn [andb ifn]; ring.
  - destruct (vaporizedOil C); [destruct (H2 eq_refl) as [a1 a2]; rewrite a1, a2|];
    destruct (conserveSurfaceVolume C), (active C Oil), (active C Gas); cbn [andb ifn]; ring.
  - destruct (dissolvedGas C); [destruct (H1 eq_refl) as [a1 a2]; rewrite a1, a2|];
    (destruct (dissolvedGasInWater C); [destruct (H3 eq_refl) as [a3 a4]; rewrite a3, ?a4|]);
    destruct (conserveSurfaceVolume C), (active C Oil), (active C Gas), (active C Water); try discriminate;
    cbn [andb ifn]; ring.
Qed.

Lemma mass_of_densities : forall C F fs m d phi e,
  consistent C -> conserveSurfaceVolume C = true ->
  let q := {| fluid := densities C F fs; mobilityArray := m; dirMob := d; porosity := phi; ext := e |} in
  massOfPhases C q == total (fun c => if active C c then refDensity F c * componentStorage C F q c else 0).
Proof.
  intros C F fs m d phi e HC HV q. destruct (storage_components C F q HC) as (S1&S2&S3).
  unfold massOfPhases, total. rewrite HV in S1, S2, S3.
  revert S1 S2 S3. generalize (componentStorage C F q). intros st S1 S2 S3.
  pose proof (densities_water C F fs) as D1. pose proof (densities_gas C F fs) as D2. pose proof (densities_oil C F fs) as D3.
  subst q; cbn [fluid porosity] in *. rewrite densities_invB in *.
  destruct (densities_agree C F fs) as (A1&_&A3&A4&A5&A6). rewrite A1, A3, A4, A5, A6 in *. clear A1 A3 A4 A5 A6.
  generalize dependent (density (densities C F fs)). intros rho D1 D2 D3. destruct HC as (H1&H2&H3&H4).
  destruct (active C Water), (active C Oil), (active C Gas); rewrite ?D1, ?D2, ?D3 by reflexivity; clear D1 D2 D3; cbn [ifn] in S1, S2, S3; rewrite ?S1, ?S2, ?S3; clear S1 S2 S3;
  destruct (dissolvedGas C); try (destruct (H1 eq_refl); discriminate); destruct (vaporizedOil C); try (destruct (H2 eq_refl); discriminate);
  destruct (dissolvedGasInWater C); try (destruct (H3 eq_refl); discriminate); destruct (vaporizedWater C); try (destruct (H4 eq_refl); discriminate);
  cbn [ifn]; ring.
Qed.

Lemma mass_of_densities_masses : forall C F fs m d phi e,
  consistent C -> conserveSurfaceVolume C = false ->
  let q := {| fluid := densities C F fs; mobilityArray := m; dirMob := d; porosity := phi; ext := e |} in
  massOfPhases C q == total (componentStorage C F q).
Proof.
  intros C F fs m d phi e HC HV q. destruct (storage_components C F q HC) as (S1&S2&S3).
  unfold massOfPhases, total. rewrite HV in S1, S2, S3.
  revert S1 S2 S3. generalize (componentStorage C F q). intros st S1 S2 S3.
  pose proof (densities_water C F fs) as D1. pose proof (densities_gas C F fs) as D2. pose proof (densities_oil C F fs) as D3.
  subst q; cbn [fluid porosity] in *. rewrite densities_invB in *.
  destruct (densities_agree C F fs) as (A1&_&A3&A4&A5&A6). rewrite A1, A3, A4, A5, A6 in *. clear A1 A3 A4 A5 A6.
  generalize dependent (density (densities C F fs)). intros rho D1 D2 D3. destruct HC as (H1&H2&H3&H4).
  destruct (active C Water), (active C Oil), (active C Gas); rewrite ?D1, ?D2, ?D3 by reflexivity; clear D1 D2 D3; cbn [ifn] in S1, S2, S3; rewrite ?S1, ?S2, ?S3; clear S1 S2 S3;
  destruct (dissolvedGas C); try (destruct (H1 eq_refl); discriminate); destruct (vaporizedOil C); try (destruct (H2 eq_refl); discriminate);
  destruct (dissolvedGasInWater C); try (destruct (H3 eq_refl); discriminate); destruct (vaporizedWater C); try (destruct (H4 eq_refl); discriminate);
  cbn [ifn]; ring.
Qed.

Lemma mass_of_densities_ext : forall C F T fs m d phi e,
  consistent C -> conserveSurfaceVolume C = true -> extbo C = true -> active C Oil = true -> active C Gas = true ->
  vaporizedWater C = false -> (dissolvedGas C = false -> Rs fs == 0) -> (vaporizedOil C = false -> Rv fs == 0) ->
  let q := {| fluid := zPvtUpdate C F T e (densities C F fs); mobilityArray := m; dirMob := d; porosity := phi; ext := e |} in
  massOfPhases C q ==
  total (fun c => if active C c then refDensity F c * componentStorage C F q c else 0)
  + (tRefDensity T - refDensity F Gas) * zContent q.
Proof.
  intros C F T fs m d phi e HC HV HE HO HG HW Hs Hv q. destruct (storage_components C F q HC) as (S1&S2&S3).
  unfold massOfPhases, zContent, total. rewrite HV in S1, S2, S3.
  revert S1 S2 S3. generalize (componentStorage C F q). intros st S1 S2 S3.
  pose proof (densities_water C F fs) as D1.
  subst q; unfold zPvtUpdate in *; rewrite HE in *.
  cbn [fluid porosity ext saturation invB setDensity setInvB density put phaseEqb Rs Rv Rvw Rsw] in *. rewrite densities_invB in *.
  destruct (densities_agree C F fs) as (A1&_&A3&A4&A5&A6). rewrite A1, A3, A4, A5, A6 in *. clear A1 A3 A4 A5 A6.
  generalize dependent (density (densities C F fs)). intros rho D1. destruct HC as (H1&H2&H3&H4).
  rewrite HO, HG, HW in *. cbn [ifn] in S1, S2, S3. rewrite S2, S3. revert S1. generalize (1 / eBo e) (1 / eBg e). intros ib ig S1.
  revert Hs Hv; generalize (Rs fs) (Rv fs); intros rs rv Hs Hv.
  clear S2 S3; destruct (active C Water); [rewrite D1 by reflexivity|]; clear D1; cbn [ifn] in S1; [rewrite S1|]; clear S1;
  destruct (dissolvedGasInWater C); try (destruct (H3 eq_refl); discriminate);
  (destruct (dissolvedGas C); [clear Hs|assert (Hs' := Hs eq_refl); clear Hs]);
  (destruct (vaporizedOil C); [clear Hv|assert (Hv' := Hv eq_refl); clear Hv]);
  cbn [ifn]; try rewrite Hs'; try rewrite Hv'; ring.
Qed.

(** ** Mobilities *)
Lemma looped_mobility : forall C F e fs kr dir p,
  active C p = true ->
  exists f, agree f fs /\ invB f p = invB (fst (fst (looped C F e fs kr dir))) p /\
    let mu := match extbo C, p with
              | true, Oil => eOilMu e
              | true, Gas => eGasMu e
              | _, _ => viscosity F f p
              end in
    snd (fst (looped C F e fs kr dir)) p = kr p / mu /\
    match dir, snd (looped C F e fs kr dir) with
    | None, None => True
    | Some a, Some b => mobX b p = mobX a p / mu /\ mobY b p = mobY a p / mu /\ mobZ b p = mobZ a p / mu
    | _, _ => False
    end.
Proof.
  intros C F e fs kr dir p HA; unfold looped, phaseStep.
  destruct p.
  - rewrite HA. set (f := setInvB fs Water (invFormationVolume F fs Water)).
    exists f. split; [repeat split|].
    destruct (active C Oil), (active C Gas), dir as [d|]; unfold divide;
      destruct (extbo C); cbn; repeat split; reflexivity.
  - rewrite HA.
    set (g := fst (fst (if active C Water then (setInvB fs Water (invFormationVolume F fs Water), kr, dir) else (fs, kr, dir)))).
    exists (setInvB g Oil (invFormationVolume F g Oil)).
    split; [unfold g; destruct (active C Water); repeat split|].
    unfold g; destruct (active C Water), (active C Gas), dir as [d|]; unfold divide;
      destruct (extbo C); cbn; repeat split; reflexivity.
  - rewrite HA.
    set (g := fst (fst (looped {| active := fun p => match p with Gas => false | _ => active C p end;
      dissolvedGas := dissolvedGas C; dissolvedGasInWater := dissolvedGasInWater C; vaporizedOil := vaporizedOil C;
      vaporizedWater := vaporizedWater C; extbo := extbo C; compositionSwitch := compositionSwitch C; micp := micp C;
      saltPrecipitation := saltPrecipitation C; conserveSurfaceVolume := conserveSurfaceVolume C |} F e fs kr dir))).
    exists (setInvB g Gas (invFormationVolume F g Gas)).
    split; [apply agree_invB; apply looped_agree|].
    unfold g, looped, phaseStep; cbn [active extbo];
    destruct (active C Water), (active C Oil), dir as [d|]; unfold divide; cbn [extbo];
      destruct (extbo C); cbn; repeat split; reflexivity.
Qed.

Lemma looped_inactive : forall C F e fs kr dir p,
  active C p = false -> snd (fst (looped C F e fs kr dir)) p = kr p.
Proof.
  intros C F e fs kr dir p HA; unfold looped, phaseStep.
  destruct p; rewrite HA; destruct (active C Water), (active C Oil), (active C Gas), (extbo C) eqn:X;
    unfold divide; rewrite ?X; cbn; try reflexivity; try discriminate.
Qed.

Lemma looped_dir : forall C F e fs kr dir,
  snd (looped C F e fs kr dir) = None <-> dir = None.
Proof.
  intros; unfold looped, phaseStep; destruct dir; destruct (active C Water), (active C Oil), (active C Gas); cbn;
    split; intros; try discriminate; reflexivity.
Qed.

(** ** Porosity *)
Lemma parabola_pos : forall x, 1 # 2 <= 1 + x + (1 # 2) * x * x.
Proof.
  intros x. assert (H : 0 <= (x + 1) * (x + 1)).
  { destruct (Qlt_le_dec (x + 1) 0) as [L|L]; [|apply Qmult_le_0_compat; exact L].
    setoid_replace ((x + 1) * (x + 1)) with ((- (x + 1)) * (- (x + 1))) by ring. apply Qmult_le_0_compat; lra. }
  nra.
Qed.

Lemma parabola_mono : forall x y, - (1) <= x -> x <= y -> 1 + x + (1 # 2) * x * x <= 1 + y + (1 # 2) * y * y.
Proof. intros x y A B. assert (H : 0 <= (y - x) * (2 + x + y)) by (apply Qmult_le_0_compat; lra). nra. Qed.

Lemma porosity_of_update : forall C F T D pv fs kr dir,
  porosity (update C F T D pv fs kr dir) = porosityOf C D pv fs.
Proof.
  intros; rewrite update_eq; cbv zeta; cbn [porosity]. unfold porosityOf.
  destruct (densities_agree C F (fst (fst (looped C F (zFractionUpdate C T pv fs) (composed C F T D pv fs) kr dir)))) as (_&P&_).
  destruct (looped_agree C F (zFractionUpdate C T pv fs) (composed C F T D pv fs) kr dir) as (_&P'&_).
  rewrite P, P', composed_pressure; reflexivity.
Qed.
