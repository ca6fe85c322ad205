(** The mixing rules of the black-oil extensions: C88 (solvent), C89 (polymer), C90 (relative
    permeabilities with solvent, biogrout, salt). *)
From Coq Require Import Reals List Lra Bool Psatz.
From Verif Require Import BoMixModel BoMixSpec BoMixProofs.
Import ListNotations.
Local Open Scope R_scope.

(* ----- C88 ----- *)

(** Nothing changes if the fluids are not miscible, without solvent, if the mixing parameters
    are zero or the pressure is too low for mixing. *)
Theorem C88_unmixed_fluids_unchanged : forall f,
  f_miscible f = false \/ f_ss f < cutOff \/ (physical f /\ viscosityMixing f = 0 /\ densityMixing f = 0) \/
  (physical f /\ misciblePart f = 0) ->
  effectiveProperties f = mkMixed (f_rhoOil f) (f_rhoGas f) (f_rhoSolvent f) (f_muSolvent f) (f_mobOil f) (f_mobGas f).
Proof.
  intros f [H | [H | [(P & A & B) | (P & A)]]].
  - unfold effectiveProperties. rewrite H. reflexivity.
  - unfold effectiveProperties. rewrite ltb_true by exact H. destruct (negb (f_miscible f)); reflexivity.
  - apply no_mixing; assumption.
  - unfold effectiveProperties. destruct (negb (f_miscible f)); [reflexivity|]. destruct (ltb (f_ss f) cutOff); [reflexivity|].
    change (mixPmisc f) with (misciblePart f). rewrite A. unfold blendMu, blendB.
    pose proof (ph_muGas f P). pose proof (ph_muSolvent f P). pose proof (ph_bg f P). pose proof (ph_bs f P).
    assert (Z : forall be b m n, 0 < b -> 0 < n -> (0 * be + (1 - 0) * b) / (0 * be / m + (1 - 0) * b / n) = n).
    { intros be b m n B N. unfold Rdiv. rewrite !Rmult_0_l, !Rplus_0_l. field. lra. }
    assert (Y : forall be b r, (0 * be + (1 - 0) * b) * r = b * r) by (intros; ring).
    rewrite (Z _ (f_bg f) _ (f_muGas f)), (Z _ (f_bs f) _ (f_muSolvent f)) by assumption. rewrite !Y. rewrite (ph_rhoSolvent f P), (rhoGas_ref f P).
    replace (f_mobGas f * (f_muGas f / f_muGas f)) with (f_mobGas f) by (field; lra).
    destruct (f_oil f) eqn:O.
    + destruct (ph_oil f P O) as (_ & MO & BO & _). rewrite Z by assumption. rewrite (rhoOil_ref f P O).
      replace (f_mobOil f * (f_muOil f / f_muOil f)) with (f_mobOil f) by (field; lra). reflexivity.
    + reflexivity.
Qed.

(** The mixed viscosities: the ones of oil and gas, which show in the mobilities, lie between the
    own one and the one of the solvent, the one of the solvent lies in the range of all. *)
Theorem C88_mixed_viscosities_in_range : forall f, physical f -> mixes f -> f_miscible f = true -> cutOff <= f_ss f ->
  mobilityFor [f_muGas f; f_muSolvent f] (f_mobGas f) (f_muGas f) (m_mobGas (effectiveProperties f)) /\
  (0 < m_muSolvent (effectiveProperties f) /\ inHull (viscosities f) (m_muSolvent (effectiveProperties f))) /\
  (f_oil f = true -> mobilityFor [f_muOil f; f_muSolvent f] (f_mobOil f) (f_muOil f) (m_mobOil (effectiveProperties f))).
Proof. intros f P M. apply viscosities_in_hull; assumption. Qed.

(** The mixed densities lie in the range of the densities of the active fluids. *)
Theorem C88_mixed_densities_in_range : forall f, physical f -> mixes f -> f_miscible f = true -> cutOff <= f_ss f ->
  inHull (densities f) (m_rhoGas (effectiveProperties f)) /\
  inHull (densities f) (m_rhoSolvent (effectiveProperties f)) /\
  (f_oil f = true -> inHull (densities f) (m_rhoOil (effectiveProperties f))) /\
  (cutOff <= Rabs (Rpower (f_muSolvent f) (/ 4) - Rpower (f_muGas f) (/ 4)) ->
   inHull [f_rhoGas f; f_rhoSolvent f] (m_rhoGas (effectiveProperties f))).
Proof.
  intros f P M I S. destruct (densities_in_hull f P M I S) as (A & B & C).
  split; [exact A|]. split; [exact B|]. split; [exact C|]. intros D. apply gas_density_two; assumption.
Qed.

(** Fully mixed: the solvent has the mean density of the mobile fluids and the viscosity of the
    quarter-power rule, the gas has the mean density of gas and solvent. *)
Theorem C88_full_mixing : forall f, physical f -> mixes f -> f_miscible f = true -> cutOff <= f_ss f ->
  misciblePart f = 1 -> viscosityMixing f = 1 -> densityMixing f = 1 ->
  m_rhoSolvent (effectiveProperties f) =
    mean3 (mobileOil f) (if f_oil f then f_rhoOil f else 0) (mobileGas f) (f_rhoGas f) (mobileSolvent f) (f_rhoSolvent f) /\
  / Rpower (m_muSolvent (effectiveProperties f)) (/ 4) =
    mean3 (mobileOil f) (if f_oil f then / Rpower (f_muOil f) (/ 4) else 0) (mobileGas f) (/ Rpower (f_muGas f) (/ 4))
      (mobileSolvent f) (/ Rpower (f_muSolvent f) (/ 4)) /\
  (cutOff < mobileSolvent f + mobileGas f -> cutOff <= Rabs (Rpower (f_muSolvent f) (/ 4) - Rpower (f_muGas f) (/ 4)) ->
   m_rhoGas (effectiveProperties f) = mean2 (mobileGas f) (f_rhoGas f) (mobileSolvent f) (f_rhoSolvent f)).
Proof.
  intros f P M I S W1 W2 W3. destruct (full_mixing f P M I S W1 W2 W3) as (A & B & C).
  split; [exact A|]. split; [|exact C]. rewrite B. fold (root4 (mixThree (muOilOr1 f) (f_muSolvent f) (f_muGas f) (mobileOil f) (mobileSolvent f) (mobileGas f))).
  destruct (mobile_nonneg f P) as (SO & SG & SS). pose proof cutOff_pos as CP. destruct M as (M & _).
  rewrite mixThree_root; auto using muOilOr1_pos; try apply P.
  fold (root4 (f_muOil f)) (root4 (f_muGas f)) (root4 (f_muSolvent f)). unfold mean3, muOilOr1.
  pose proof (root4_pos (f_muOil f)). pose proof (root4_pos (f_muGas f)). pose proof (root4_pos (f_muSolvent f)).
  destruct (f_oil f) eqn:O.
  - field. repeat split; lra.
  - rewrite (mobileOil_none f O) in *. pose proof (root4_pos 1). field. repeat split; lra.
Qed.

(** A cell with three fluids: [so], [sg], [ss], residual saturation [res] besides water or not,
    the mixing parameters, the viscosities and densities. *)
Definition cell3 (water : bool) (so sg ss res p wMu wRho muO muG muS rhoO rhoG rhoS : R) : fluids :=
  mkFluids true true water so sg ss (1 - so - sg - ss) (fun _ => res) (fun _ => res) 200 200
    (fun _ => p) (fun _ => 1) wMu wRho muO muG muS rhoO rhoG rhoS rhoO rhoG rhoS 0 0 1 1 1 1 1.
Lemma cell3_physical water so sg ss res p wMu wRho muO muG muS rhoO rhoG rhoS :
  0 <= so -> 0 <= sg -> 0 <= ss -> weight p -> weight wMu -> weight wRho -> 0 < muO -> 0 < muG -> 0 < muS ->
  0 < rhoO -> 0 < rhoG -> 0 < rhoS ->
  physical (cell3 water so sg ss res p wMu wRho muO muG muS rhoO rhoG rhoS).
Proof.
  intros. split; cbn; try lra; try assumption; unfold misciblePart, viscosityMixing, densityMixing, cell3; cbn; auto;
    try (intros _; repeat split; lra); rewrite Rmult_1_r; assumption.
Qed.
Lemma cutOff_small : cutOff < / 10.
Proof. unfold cutOff. apply Rinv_lt_contravar; [apply Rmult_lt_0_compat; [lra | apply pow_lt; lra]|]. rewrite <- (pow_1 10) at 1. apply Rlt_pow; [lra | lia]. Qed.
Lemma root4_16 : root4 16 = 2.
Proof. replace 16 with (2 ^ 4) by (cbn; lra). apply root4_of_pow. lra. Qed.
Lemma root4_1 : root4 1 = 1.
Proof. replace 1 with (1 ^ 4) at 1 by (cbn; lra). apply root4_of_pow. lra. Qed.

(** Non-vacuity: a cell with everything between the extremes. *)
Example solvent_cell : let f := cell3 true (1/2) (1/5) (1/5) (1/20) (1/2) (1/3) (2/3) 16 1 (1/2) 800 100 400 in
  physical f /\ mixes f /\ f_miscible f = true /\ cutOff <= f_ss f /\
  cutOff <= Rabs (Rpower (f_muSolvent (cell3 true (1/2) (1/5) (1/5) (1/20) (1/2) (1/3) (2/3) 1 1 16 800 100 400)) (/ 4) - Rpower 1 (/ 4)).
Proof.
  pose proof cutOff_small as CS. pose proof cutOff_pos as CP. cbn zeta. split; [|split; [|split; [|split]]].
  - apply cell3_physical; unfold weight; lra.
  - unfold mixes, mobileOil, mobileGas, mobileSolvent, cell3; cbn. rewrite !Rmax_left by lra. split; [lra | right; lra].
  - reflexivity.
  - cbn. lra.
  - cbn. fold (root4 16) (root4 1). rewrite root4_16, root4_1. rewrite Rabs_right; lra.
Qed.

(** The density of mixed oil is not in the range of the ones of oil and solvent: oil is mixed
    with the solvent whose density has been replaced already. *)
Theorem C88_mixed_oil_density_refuted : ~ forall f, physical f -> mixes f -> f_miscible f = true -> cutOff <= f_ss f ->
  f_oil f = true -> cutOff <= Rabs (Rpower (f_muSolvent f) (/ 4) - Rpower (f_muOil f) (/ 4)) ->
  inHull [f_rhoOil f; f_rhoSolvent f] (m_rhoOil (effectiveProperties f)).
Proof.
  intros H. pose proof cutOff_small as CS. pose proof cutOff_pos as CP.
  pose (f := cell3 false (1/3) (1/3) (1/3) 0 1 1 1 16 1 1 400 100 400).
  assert (P : physical f) by (apply cell3_physical; unfold weight; lra).
  assert (M : mixes f) by (unfold mixes, mobileOil, mobileGas, mobileSolvent, f, cell3; cbn; split; [lra | right; lra]).
  assert (C : cutOff <= f_ss f) by (cbn; lra).
  assert (A : cutOff <= Rabs (Rpower (f_muSolvent f) (/ 4) - Rpower (f_muOil f) (/ 4))).
  { cbn. fold (root4 16) (root4 1). rewrite root4_16, root4_1. rewrite Rabs_left; lra. }
  specialize (H f P M eq_refl C eq_refl A).
  assert (W1 : misciblePart f = 1) by reflexivity.
  assert (W2 : viscosityMixing f = 1) by (unfold viscosityMixing; cbn; ring).
  assert (W3 : densityMixing f = 1) by (unfold densityMixing; cbn; ring).
  destruct (C88_full_mixing f P M eq_refl C W1 W2 W3) as (S & _ & _).
  assert (E : m_rhoOil (effectiveProperties f) = 350).
  { unfold effectiveProperties in S |- *. rewrite (ltb_false (f_ss f)) in S |- * by exact C. cbn [f_miscible f cell3 negb m_rhoSolvent m_rhoOil f_oil] in S |- *.
    fold f in S |- *. rewrite S.
    replace (mean3 _ _ _ _ _ _) with 300 by (unfold mean3, mobileOil, mobileGas, mobileSolvent, f, cell3; cbn; field).
    change (mixPmisc f) with 1.
    assert (RO : rhoOilEff f 300 = 350).
    { unfold rhoOilEff. change (mixRho f) with (densityMixing f). rewrite W3. rewrite muOilTo_eq by reflexivity. 
      rewrite towards_1; [| cbn; lra | apply mixTwo_pos; cbn; lra].
      rewrite ltb_false. 2: { rewrite <- Rabs_Ropp, Ropp_minus_distr. exact A. }
      assert (N : root4 (f_muOil f) <> root4 (f_muSolvent f)) by (cbn; rewrite root4_16, root4_1; lra).
      assert (SO : mobileOil f = 1/3) by reflexivity. assert (SS : mobileSolvent f = 1/3) by reflexivity.
      pose proof (way_two (root4 (f_muOil f)) (root4 (f_muSolvent f)) (mobileOil f) (mobileSolvent f) (root4_pos _) (root4_pos _)
        ltac:(lra) ltac:(lra) ltac:(lra) N _ (mixTwo_root (f_muOil f) (f_muSolvent f) (mobileOil f) (mobileSolvent f) ltac:(cbn; lra) ltac:(cbn; lra) ltac:(lra) ltac:(lra) ltac:(lra)) (root4_pos _)) as X.
      set (e := root4 (mixTwo _ _ _ _)) in *. assert (EP : 0 < e) by apply root4_pos.
      change (muOilOr1 f) with (f_muOil f).
      replace (root4 (f_muOil f) * (e - root4 (f_muSolvent f)) / (e * (root4 (f_muOil f) - root4 (f_muSolvent f)))) with (1 / 2).
      - cbn. lra.
      - transitivity (root4 (f_muOil f) * (root4 (f_muSolvent f) - e) / (e * (root4 (f_muSolvent f) - root4 (f_muOil f)))).
        + rewrite X, SO, SS. field.
        + field. repeat split; lra. }
    rewrite RO. unfold blendB, refOfOil, f, cell3. cbn. field. }
  rewrite E in H. destruct H as (a & b & HA & HB & L). cbn in HA, HB. destruct HA as [<-|[<-|[]]]; lra.
Qed.

(** With all fluids residual the density of the solvent leaves the range. *)
Theorem C88_residual_fluids_refuted : ~ forall f, physical f -> f_miscible f = true -> cutOff <= f_ss f ->
  inHull (densities f) (m_rhoSolvent (effectiveProperties f)).
Proof.
  intros H. pose proof cutOff_small as CS. pose proof cutOff_pos as CP.
  pose (f := cell3 true (1/4) (1/4) (1/4) (1/4) 1 1 1 16 1 1 800 400 400).
  assert (P : physical f) by (apply cell3_physical; unfold weight; lra).
  assert (C : cutOff <= f_ss f) by (cbn; lra).
  specialize (H f P eq_refl C).
  assert (W3 : densityMixing f = 1) by (unfold densityMixing; cbn; ring).
  assert (Z : mobileOil f = 0 /\ mobileGas f = 0 /\ mobileSolvent f = 0).
  { unfold mobileOil, mobileGas, mobileSolvent, f, cell3; cbn. rewrite Rmax_left by lra. repeat split; lra. }
  destruct Z as (ZO & ZG & ZS).
  assert (E : m_rhoSolvent (effectiveProperties f) = 200).
  { unfold effectiveProperties. rewrite (ltb_false (f_ss f)) by exact C. cbn [f_miscible f cell3 negb m_rhoSolvent]. fold f.
    change (mixPmisc f) with 1.
    assert (RS : rhoSolventEff f = 200).
    { unfold rhoSolventEff. rewrite saturations. change (mixRho f) with (densityMixing f). rewrite W3, muSolventTo_eq.
      rewrite towards_1; [| cbn; lra | apply mixThree_pos; cbn; lra]. rewrite ZO, ZG, ZS. unfold mixThree.
      rewrite !(ltb_false cutOff) by lra. change (muOilOr1 f) with 16. change (f_muGas f) with 1. change (f_muSolvent f) with 1.
      rewrite root4_16, root4_1. rewrite ltb_false by (rewrite Rabs_left; lra).
      change (f_rhoSolvent f) with 400. field. }
    rewrite RS. unfold blendB. change (f_refSolvent f) with 400. field. }
  rewrite E in H. destruct H as (a & b & HA & HB & L). cbn in HA. destruct HA as [<-|[<-|[<-|[]]]]; lra.
Qed.

(* ----- C89 ----- *)

(** Polymer never makes water more mobile, and not less mobile than the fully concentrated
    solution in a rock with all polymer adsorbed; polymer does not run ahead of the water. *)
Theorem C89_polymer_thickens_water : forall y, polymerOk y -> 0 <= y_mobWater y ->
  1 <= y_rrf y -> 0 < y_adsLimit y -> 0 <= y_ads y (y_c y) ->
  let a := Rmax (if y_noDesorption y then y_maxAds y else y_ads y (y_c y)) (y_ads y (y_c y)) in
  o_ads (polymerUpdate y) = a /\
  y_mobWater y / (y_mult y (y_cmax y) * (1 + (y_rrf y - 1) * a / y_adsLimit y)) <= o_mobWater (polymerUpdate y) <= y_mobWater y /\
  0 < o_polymerCorrection (polymerUpdate y) <= 1.
Proof.
  intros y OK MW R L A a. destruct (polymer_bounds y OK) as ((B1 & B2) & B3).
  assert (EA : adsorption y = a).
  { unfold adsorption, a. destruct (y_noDesorption y); [reflexivity|]. rewrite Rmax_left; lra. }
  split; [exact EA|]. split; [|exact B3].
  change (o_mobWater (polymerUpdate y)) with (y_mobWater y * (o_waterCorrection (polymerUpdate y) / resistance y)).
  pose proof (resistance_ge1 y R L A) as RG. 
  assert (ER : resistance y = 1 + (y_rrf y - 1) * a / y_adsLimit y) by (unfold resistance; rewrite EA; reflexivity).
  rewrite <- ER. pose proof (mult_pos y OK) as (_ & MP).
  assert (IR : 0 < / resistance y <= 1). { split; [apply Rinv_0_lt_compat; lra|]. rewrite <- Rinv_1. apply Rinv_le_contravar; lra. }
  assert (IM : 0 < / y_mult y (y_cmax y)) by (apply Rinv_0_lt_compat; exact MP).
  unfold Rdiv. rewrite Rinv_mult. split.
  - apply Rmult_le_compat_l; [exact MW|]. apply Rmult_le_compat_r; lra.
  - rewrite <- (Rmult_1_r (y_mobWater y)) at 2. apply Rmult_le_compat_l; [exact MW|]. nra.
Qed.

(** More polymer makes the water less mobile. *)
Theorem C89_more_polymer_less_mobile : forall y c c', 0 < y_cmax y -> 0 < y_muWater y -> weight (y_w y) ->
  0 <= c <= c' -> c' <= y_cmax y ->
  1 <= y_mult y c -> y_mult y c <= y_mult y c' -> y_mult y c' <= y_mult y (y_cmax y) ->
  1 <= y_rrf y -> 0 < y_adsLimit y -> 0 <= y_ads y c <= y_ads y c' -> 0 <= y_mobWater y ->
  0 <= o_mobWater (polymerUpdate (atConc y c')) <= o_mobWater (polymerUpdate (atConc y c)).
Proof.
  intros y c c' CM MU W (C1 & C2) C3 M1 M2 M3 R L (A1 & A2) MW.
  destruct (waterCorrection_antitone y c c' CM MU W C1 C2 C3 M1 M2 M3) as (B1 & B2).
  pose proof (resistance_mono y c c' R L A2) as RM.
  assert (R1 : 1 <= resistance (atConc y c)) by (apply resistance_ge1; cbn; assumption).
  change (0 <= y_mobWater y * (o_waterCorrection (polymerUpdate (atConc y c')) / resistance (atConc y c'))
          <= y_mobWater y * (o_waterCorrection (polymerUpdate (atConc y c)) / resistance (atConc y c))).
  split.
  - apply Rmult_le_pos; [exact MW|]. apply Rmult_le_pos; [exact B1 | left; apply Rinv_0_lt_compat; lra].
  - apply Rmult_le_compat_l; [exact MW|]. apply Rdiv_mono; lra.
Qed.

(** Fully mixed, water and polymer have the viscosity of the mixture; not mixed at all, water
    and polymer share the volume, each with its own viscosity. *)
Theorem C89_mixing_extremes : forall y, polymerOk y ->
  (y_w y = 1 -> o_waterCorrection (polymerUpdate y) = / y_mult y (y_c y) /\ o_polymerCorrection (polymerUpdate y) = 1) /\
  (y_w y = 0 -> o_waterCorrection (polymerUpdate y) = mean2 (y_cmax y - y_c y) 1 (y_c y) (/ y_mult y (y_cmax y))).
Proof.
  intros y OK. pose proof (mult_pos y OK) as (M1 & M2). pose proof (po_cmax y OK) as CM. split; intros W.
  - rewrite (waterCorrection_eq y OK), (polymerCorrection_eq y OK), W.
    replace (1 - 1) with 0 by ring. rewrite Rpower_1, Rpower_O by assumption. split; field; repeat split; lra.
  - rewrite (waterCorrection_eq y OK), W, Rminus_0_r, Rpower_1, Rpower_O by assumption. unfold mean2. field. repeat split; lra.
Qed.

Definition polymerCell (c w : R) : polymer :=
  mkPolymer c 1 (fun x => 1 + x) w (fun x => x / 10) true (/ 10) 1 2 1 1.
Example polymer_cell : polymerOk (polymerCell (1 / 2) (1 / 2)) /\ polymerOk (polymerCell (1 / 2) 1).
Proof. split; (split; cbn; [lra | lra | lra | unfold weight; cbn; lra | lra]). Qed.
Example polymer_cell_value : o_mobWater (polymerUpdate (polymerCell (1 / 2) 1)) = / (3 / 2) / (1 + / 10).
Proof.
  assert (OK : polymerOk (polymerCell (1 / 2) 1)) by apply polymer_cell.
  destruct (C89_mixing_extremes _ OK) as (E & _). destruct (E eq_refl) as (E1 & _).
  change (o_mobWater (polymerUpdate (polymerCell (1 / 2) 1))) with (1 * (o_waterCorrection (polymerUpdate (polymerCell (1 / 2) 1)) / resistance (polymerCell (1 / 2) 1))).
  rewrite E1. unfold resistance, adsorption. cbn. rewrite Rmax_left by lra. field.
Qed.

(** Above the maximum concentration the mobility of water may become negative; the Newton method
    keeps the concentration above zero only. *)
Theorem C89_beyond_maximum_refuted : ~ forall y, 0 <= y_c y -> 0 < y_cmax y -> 0 < y_muWater y -> weight (y_w y) ->
  (forall c c', 0 <= c <= c' -> 1 <= y_mult y c <= y_mult y c') ->
  1 <= y_rrf y -> 0 < y_adsLimit y -> 0 <= y_ads y (y_c y) -> 0 < y_mobWater y ->
  0 <= o_mobWater (polymerUpdate y).
Proof.
  intros H. specialize (H (mkPolymer 3 1 (fun x => 1 + x) 0 (fun _ => 0) false 0 1 1 1 1)).
  assert (E : o_mobWater (polymerUpdate (mkPolymer 3 1 (fun x => 1 + x) 0 (fun _ => 0) false 0 1 1 1 1)) = - (1 / 2)).
  { unfold polymerUpdate, muWaterEff, muPolymerEff, muMixture, muPolymer, resistance, adsorption. cbn.
    rewrite Rminus_0_r, !Rpower_O, !Rpower_1 by lra. field. }
  rewrite E in H. cbn in H. unfold weight in H.
  assert (K : 0 <= - (1 / 2)); [apply H; try lra; intros c c' HC; lra | lra].
Qed.

(** The model with molar weights. *)
Theorem C89_molar_weight_thickens : forall gamma kappa k a weight c c', 0 <= gamma -> 0 <= kappa -> 0 <= k -> 0 <= c <= c' ->
  let iv := intrinsicViscosity k a weight in
  0 < weightCorrection gamma kappa c' iv <= weightCorrection gamma kappa c iv /\ weightCorrection gamma kappa c iv <= 1.
Proof.
  intros g kap k a wt c c' G K KK (C1 & C2) iv.
  assert (I : 0 <= iv) by (apply Rmult_le_pos; [exact KK | left; apply Rpower_pos]).
  split; [split|].
  - apply weightCorrection_bounds; lra.
  - apply weightCorrection_antitone; assumption.
  - apply weightCorrection_bounds; assumption.
Qed.

(** The shear factor: one without polymer effect or below the first velocity of the table;
    otherwise the multiplier of the table at the sheared velocity.  Partial: only if the
    iteration ends. *)
Theorem C89_shear_factor_partial : forall mult first eval slope v0 z lam d,
  computeShearFactor mult first eval slope v0 = Some z ->
  (forall x y, Rabs (eval x - eval y) <= lam * Rabs (x - y)) -> (forall x, d <= Rabs (1 + slope x)) -> 0 < d -> 0 <= lam ->
  (z = 1 /\ (Rabs (mult - 1) < / 10 ^ 14 \/ v0 = 0 \/ ln (Rabs v0) < first)) \/
  (v0 <> 0 /\ exists v, z = exp (eval (ln v)) /\ sheared z v (Rabs v0) (/ 10 ^ 12 * (1 + (1 + lam) / d))).
Proof. exact shear_result. Qed.

(** It ends for a table with one power law. *)
Theorem C89_shear_power_law : forall mult first p q v0, / 10 ^ 14 <= Rabs (mult - 1) -> v0 <> 0 -> first <= ln (Rabs v0) -> 1 + q <> 0 ->
  exists z v, computeShearFactor mult first (fun u => p + q * u) (fun _ => q) v0 = Some z /\
    z = exp (p + q * ln v) /\ 0 < v /\ v * z = Rabs v0.
Proof. exact shear_power_law. Qed.

Lemma multEps_1 : multEps <= 1.
Proof. unfold multEps. rewrite <- Rinv_1. apply Rinv_le_contravar; [lra|]. apply Rlt_le, Rlt_pow_R1; [lra | repeat constructor]. Qed.
(** [slope] is a derivative of the piecewise linear [eval], from one side. *)
Definition slopeOf (eval slope : R -> R) : Prop := forall u, exists e, 0 < e /\
  ((forall h, 0 <= h < e -> eval (u + h) = eval u + slope u * h) \/ (forall h, 0 <= h < e -> eval (u - h) = eval u - slope u * h)).

(** In general it need not end: a shear thinning polymer and a velocity with exactly one sheared
    velocity for which the factor is not found. *)
Theorem C89_shear_factor_found_refuted : ~ forall mult first eval slope v0,
  v0 <> 0 -> first <= ln (Rabs v0) -> slopeOf eval slope -> (forall x y, x <= y -> eval y <= eval x) ->
  (exists u, u + eval u = ln (Rabs v0) /\ forall u', u' + eval u' = ln (Rabs v0) -> u' = u) ->
  exists z, computeShearFactor mult first eval slope v0 = Some z.
Proof.
  intros H. pose proof (exp_pos (-5)) as EP.
  assert (V : ln (Rabs (exp (-5))) = -5) by (rewrite Rabs_right by lra; apply ln_exp).
  destruct (H 2 (-6) circleTable circleSlope (exp (-5))) as (z & Z).
  - lra.
  - rewrite V. lra.
  - intros u. destruct (Rlt_dec u (-1)) as [A | A]; [|destruct (Rlt_dec 1 u) as [B | B]; [|destruct (Rlt_dec (-1) u) as [C | C]]].
    + exists (-1 - u). split; [lra|]. left. intros h Hh. unfold circleTable, circleSlope. rewrite !ltb_true by lra. lra.
    + exists 1. split; [lra|]. left. intros h Hh. unfold circleTable, circleSlope. rewrite !(ltb_false _ (-1)), !ltb_true by lra. lra.
    + exists (u + 1). split; [lra|]. right. intros h Hh. unfold circleTable, circleSlope. rewrite !(ltb_false _ (-1)), !(ltb_false 1) by lra. lra.
    + exists 1. split; [lra|]. left. intros h Hh. unfold circleTable, circleSlope. rewrite !(ltb_false _ (-1)), !(ltb_false 1) by lra. lra.
  - apply circle_table_down.
  - rewrite V. exists 0. split; [apply circle_unique; reflexivity | intros u'; apply circle_unique].
  - unfold computeShearFactor in Z. rewrite V in Z.
    assert (E14 : multEps <= Rabs (2 - 1)).
    { replace (2 - 1) with 1 by ring. rewrite Rabs_R1. apply multEps_1. }
    rewrite ltb_false in Z by exact E14. destruct (Req_EM_T (exp (-5)) 0) as [E | _]; [lra|].
    rewrite ltb_false, circle_start in Z by lra. discriminate.
Qed.
Example shear_found : exists z, computeShearFactor 2 (-6) (fun u => -1 - u / 2) (fun _ => - (1 / 2)) (exp (-5)) = Some z /\ z = exp 3.
Proof.
  pose proof (exp_pos (-5)) as EP.
  assert (V : ln (Rabs (exp (-5))) = -5) by (rewrite Rabs_right by lra; apply ln_exp).
  assert (E14 : multEps <= Rabs (2 - 1)).
  { replace (2 - 1) with 1 by ring. rewrite Rabs_R1. apply multEps_1. }
  exists (exp 3). split; [|reflexivity]. unfold computeShearFactor. rewrite V, ltb_false by exact E14.
  destruct (Req_EM_T (exp (-5)) 0) as [E | _]; [lra|]. rewrite ltb_false by lra.
  pose proof shearEps_1 as SE.
  change 20%nat with (S (S 18)). rewrite newton_step, ltb_false by (rewrite Rabs_right; lra).
  rewrite newton_step. replace (-5 - (-5 + (-1 - -5 / 2) - -5) / (1 + - (1 / 2))) with (-8) by field.
  replace (-8 + (-1 - -8 / 2) - -5) with 0 by field. rewrite Rabs_R0, ltb_true by lra.
  f_equal. f_equal. field.
Qed.

(** The velocity of the water which is sheared is the flux per mobile pore volume if the critical
    saturation is the same in the cell which is read and in the upstream cell; it need not be. *)
Theorem C89_shear_velocity_partial : forall phi sw swcr correction flux scvf i e up v v',
  shearedVelocities phi sw swcr correction flux scvf i e up = (v, v') ->
  swcr scvf = swcr up -> / 10 ^ 12 <= (phi i + phi e) / 2 * (sw up - swcr up) ->
  v * ((phi i + phi e) / 2 * (sw up - swcr up)) = flux /\ v' = v * correction up.
Proof.
  intros phi sw swcr cor flux scvf i e up v v' H S D. unfold shearedVelocities in H. injection H as <- <-.
  split; [|reflexivity]. unfold waterVelocity. rewrite S.
  replace ((phi i * (1 / 2) + phi e * (1 / 2)) * (sw up - swcr up)) with ((phi i + phi e) / 2 * (sw up - swcr up)) by field.
  rewrite Rmax_left by exact D. assert (P : 0 < / 10 ^ 12) by (apply Rinv_0_lt_compat, pow_lt; lra).
  unfold Rdiv at 1. rewrite Rmult_assoc, Rinv_l by lra. ring.
Qed.
Theorem C89_shear_velocity_refuted : ~ forall phi sw swcr correction flux i e up v v',
  (up = i \/ up = e) -> shearedVelocities phi sw swcr correction flux 0 i e up = (v, v') ->
  / 10 ^ 12 <= (phi i + phi e) / 2 * (sw up - swcr up) ->
  v * ((phi i + phi e) / 2 * (sw up - swcr up)) = flux.
Proof.
  intros H.
  assert (S : / 10 ^ 12 < / 10). { apply Rinv_lt_contravar; [apply Rmult_lt_0_compat; [lra | apply pow_lt; lra]|]. rewrite <- (pow_1 10) at 1. apply Rlt_pow; [lra | repeat constructor]. }
  specialize (H (fun _ => 1) (fun _ => 1) (fun k => match k with O => 0 | _ => 1 / 2 end) (fun _ => 1) 1 0%nat 1%nat 1%nat _ _ (or_intror eq_refl) eq_refl).
  cbn in H. unfold waterVelocity in H. rewrite Rmax_left in H by lra. assert (K : 1 / ((1 * (1 / 2) + 1 * (1 / 2)) * (1 - 0)) * ((1 + 1) / 2 * (1 - 1 / 2)) = 1) by (apply H; lra).
  field_simplify in K. lra.
Qed.

(* ----- C90 ----- *)

(** The relative permeabilities after the saturation functions have seen the solvent. *)
Theorem C90_solvent_relperms_in_range : forall r kro krg kmax, tablesOk r kmax -> 0 <= r_sg r -> 0 <= kro <= kmax -> 0 <= krg <= kmax ->
  (r_miscible r = true -> r_oil r = true -> r_sogcr r <= r_so r /\ r_sorwmis r <= r_so r) ->
  let '(o, g, s) := postSatFunc r kro krg in 0 <= o <= kmax /\ 0 <= g <= kmax /\ 0 <= s <= kmax.
Proof. exact relperm_bounds. Qed.

(** Without miscibility oil is left alone, and gas and solvent share the permeability of gas if
    the tables add up to one. *)
Theorem C90_gas_and_solvent_share : forall r kro krg, (r_miscible r && r_oil r = false)%bool -> 0 <= r_sg r -> cutOff <= r_ss r ->
  (forall x, weight x -> r_ssfnKrg r x + r_ssfnKrs r (1 - x) = 1) ->
  let '(o, g, s) := postSatFunc r kro krg in o = kro /\ g + s = krg.
Proof. exact relperm_split. Qed.

Definition straight (misc : bool) (so sg ss sor : R) : relperms :=
  mkRelperms misc true true so sg ss (fun _ => 1) 1 0 0 sor 0 (fun x => 1 - x) (fun x => x) (fun _ => 1 / 2) (fun x => x) (fun x => x).
Lemma straight_ok misc so sg ss sor : tablesOk (straight misc so sg ss sor) 1.
Proof. unfold tablesOk, straight, weight. cbn. repeat split; intros; lra. Qed.
Example relperms_ok : tablesOk (straight true (1/5) (1/5) (1/5) (1/10)) 1 /\
  r_sogcr (straight true (1/5) (1/5) (1/5) (1/10)) <= 1/5 /\ r_sorwmis (straight true (1/5) (1/5) (1/5) (1/10)) <= 1/5 /\
  forall x, weight x -> r_ssfnKrg (straight false (1/5) (1/5) (1/5) (1/10)) x + r_ssfnKrs (straight false (1/5) (1/5) (1/5) (1/10)) (1 - x) = 1.
Proof. split; [apply straight_ok|]. cbn. repeat split; try lra. intros. ring. Qed.

(** With less oil than the miscible residual saturation the permeability of oil may be negative. *)
Theorem C90_residual_oil_refuted : ~ forall r kro krg, tablesOk r 1 -> 0 <= r_sg r -> 0 <= r_so r -> cutOff <= r_ss r -> weight kro -> weight krg ->
  0 <= fst (fst (postSatFunc r kro krg)).
Proof.
  intros H. pose proof cutOff_small as CS. pose proof cutOff_pos as CP.
  specialize (H (straight true (1/10) (1/5) (1/5) (3/10)) 0 1 (straight_ok _ _ _ _ _)).
  assert (K : 0 <= fst (fst (postSatFunc (straight true (1/10) (1/5) (1/5) (3/10)) 0 1))) by (apply H; cbn; unfold weight; lra).
  unfold postSatFunc, straight in K. cbn in K. rewrite !ltb_false in K by lra. cbn in K. 
  rewrite (Rmax_left (1 / 5 + 1 / 5 + 1 / 10 - _ - _)) in K by lra.
  rewrite ltb_true in K by lra. rewrite Rmax_left in K by lra. field_simplify in K. lra.
Qed.

(** Biogrout: the factor of the permeability is between the one of the minimum and one, one in
    the clean rock, and does not grow while the pores are filled. *)
Theorem C90_biogrout_permeability : forall phi phi' ref crit eta kmin K,
  crit < phi -> phi <= phi' -> phi' <= ref -> 0 <= eta -> 0 < kmin <= K ->
  kmin / K <= micpFactor phi ref crit eta kmin K <= micpFactor phi' ref crit eta kmin K /\
  micpFactor phi' ref crit eta kmin K <= micpFactor ref ref crit eta kmin K /\
  micpFactor ref ref crit eta kmin K = 1.
Proof.
  intros phi phi' ref crit eta kmin K P1 P2 P3 E KK. split; [split|split].
  - apply micp_bounds; lra.
  - apply micp_mono; lra.
  - apply micp_mono; lra.
  - apply micp_full; lra.
Qed.
Example biogrout_case : micpFactor (3/20) (1/5) (1/10) 1 (1/10) 1 = 6 / 11.
Proof.
  unfold micpFactor. replace ((3 / 20 - 1 / 10) / (1 / 5 - 1 / 10)) with (1 / 2) by field. rewrite Rpower_1 by lra.
  replace ((1 / 2 + 1 / 10 / 1) / (1 + 1 / 10 / 1)) with (6 / 11) by field. apply Rmax_left. lra.
Qed.

(** Salt: the fluid state knows the right concentration, and the salt saturation is the one of the
    primary variable or none. *)
Theorem C90_salt_concentration : forall precipitation meansSaturation solubility x old,
  let b := brineUpdate precipitation meansSaturation solubility x old in
  b_fluidState b = (if precipitation && meansSaturation then solubility else x)%bool /\
  (precipitation = true -> b_saturation b = if meansSaturation then x else 0) /\
  ((precipitation && meansSaturation = false)%bool -> b_returned b = b_fluidState b).
Proof. intros [|] [|] s x [a b c]; cbn; repeat split; congruence. Qed.

(** The intensive quantities themselves return an old concentration where salt has precipitated. *)
Theorem C90_returned_salt_refuted : ~ forall meansSaturation solubility x old,
  let b := brineUpdate true meansSaturation solubility x old in b_returned b = b_fluidState b.
Proof. intros H. specialize (H true 1 0 (mkBrine 0 0 0)). cbn in H. lra. Qed.

Print Assumptions C88_unmixed_fluids_unchanged.
Print Assumptions C88_mixed_viscosities_in_range.
Print Assumptions C88_mixed_densities_in_range.
Print Assumptions C88_full_mixing.
Print Assumptions C88_mixed_oil_density_refuted.
Print Assumptions C88_residual_fluids_refuted.
Print Assumptions C89_polymer_thickens_water.
Print Assumptions C89_more_polymer_less_mobile.
Print Assumptions C89_mixing_extremes.
Print Assumptions C89_beyond_maximum_refuted.
Print Assumptions C89_molar_weight_thickens.
Print Assumptions C89_shear_factor_partial.
Print Assumptions C89_shear_power_law.
Print Assumptions C89_shear_factor_found_refuted.
Print Assumptions C89_shear_velocity_partial.
Print Assumptions C89_shear_velocity_refuted.
Print Assumptions C90_solvent_relperms_in_range.
Print Assumptions C90_gas_and_solvent_share.
Print Assumptions C90_residual_oil_refuted.
Print Assumptions C90_biogrout_permeability.
Print Assumptions C90_salt_concentration.
Print Assumptions C90_returned_salt_refuted.
