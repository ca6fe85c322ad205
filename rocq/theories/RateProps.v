(** Property C73: rates given by mass, by moles or by volume. *)
From Verif Require Import RateModel RateSpec RateProofs.

(** Rates given by mass are stored in the unit which the model conserves. *)
Theorem C73_rates_by_mass : forall l M value old,
  let mass c := value (l_conti0 l + c)%nat in
  holdsMass MassUnit l M mass (immMass value old) /\
  holdsMass MoleUnit l M mass (flashMass l M value old) /\
  holdsMass MoleUnit l M mass (ncpMass l M value old) /\
  holdsMass MoleUnit l M mass (pvsMass l M value old) /\
  (forall eq, richMass value old eq == value eq).
Proof.
  intros l M value old mass. split; [|split; [|split; [|split]]]; [| | | |reflexivity]; intros c L; unfold amountOf.
  - reflexivity.
  - unfold flashMass, flashMolar. rewrite assign_comp by exact L. reflexivity.
  - unfold ncpMass, ncpMolar. rewrite assign_comp by exact L. reflexivity.
  - unfold pvsMass. rewrite assign_comp by exact L. reflexivity.
Qed.
(** Rates given by moles give the same entries as the corresponding masses. *)
Theorem C73_rates_by_moles : forall l M value old, (forall c, ~ M c == 0) ->
  let mass c := value (l_conti0 l + c)%nat * M c in
  holdsMass MassUnit l M mass (immMolar l M value old) /\
  holdsMass MoleUnit l M mass (flashMolar value old) /\
  holdsMass MoleUnit l M mass (ncpMolar value old) /\
  holdsMass MoleUnit l M mass (pvsMolar value old) /\
  (forall eq lc, richMolar eq lc M value old eq == value eq * M lc).
Proof.
  intros l M value old N mass. split; [|split; [|split; [|split]]]; [intros c L; unfold amountOf..|].
  - unfold immMolar. rewrite assign_comp by exact L. reflexivity.
  - unfold flashMolar, mass. field. apply N.
  - unfold ncpMolar, mass. field. apply N.
  - unfold pvsMolar, mass. field. apply N.
  - intros eq lc. unfold richMolar. rewrite set_same. reflexivity.
Qed.
(** The entry of the energy is the one of the argument. *)
Theorem C73_energy_entry_partial : forall l M value old e, otherEntry l e ->
  immMass value old e == value e /\
  flashMass l M value old e == value e /\ flashMolar value old e == value e /\
  ncpMass l M value old e == value e /\ ncpMolar value old e == value e /\
  pvsMolar value old e == value e.
Proof.
  intros l M value old e O. unfold flashMass, ncpMass, flashMolar, ncpMolar.
  rewrite !(assign_other l _ _ e O). repeat split; reflexivity.
Qed.
(** Not so for molar rates of the immiscible model and mass rates of the PVS model: the entry keeps the value it had
    before the call, which is undefined for a new vector. *)
Theorem C73_energy_entry_refuted :
  ~ (forall l M value old e, l_energy l = Some e -> otherEntry l e -> immMolar l M value old e == value e) /\
  ~ (forall l M value old e, l_energy l = Some e -> otherEntry l e -> pvsMass l M value old e == value e) /\
  (forall l M value old e, otherEntry l e -> immMolar l M value old e = old e /\ pvsMass l M value old e = old e).
Proof.
  assert (K : forall l M value old e, otherEntry l e -> immMolar l M value old e = old e /\ pvsMass l M value old e = old e).
  { intros l M value old e O. unfold immMolar, pvsMass. rewrite !(assign_other l _ _ e O). split; reflexivity. }
  assert (O : otherEntry (mkLayout 0 2 (Some 2%nat)) 2) by (right; cbn; lia).
  split; [|split; [|exact K]]; intros H; specialize (H (mkLayout 0 2 (Some 2%nat)) (fun _ => 1) (fun _ => 5) (fun _ => 7) 2%nat eq_refl O).
  - rewrite (proj1 (K _ _ _ _ _ O)) in H. discriminate H.
  - rewrite (proj2 (K _ _ _ _ _ O)) in H. discriminate H.
Qed.
(** Rates given by the volume of a phase: NCP and Richards models. *)
Theorem C73_rates_by_volume_partial : forall l M f a volume old,
  (forall c, ~ M c == 0) -> energyApart l -> consistentFluid M f a ->
  let mass c := f_rho f a * f_massFrac f a c * volume in
  holdsMass MoleUnit l M mass (ncpVolume l f a volume old) /\
  (forall e, l_energy l = Some e -> ncpVolume l f a volume old e == f_rho f a * volume * f_h f a) /\
  (forall e, otherEntry l e -> l_energy l <> Some e -> ncpVolume l f a volume old e == 0) /\
  (forall eq lc, richVolume eq lc f a volume old eq == mass lc).
Proof.
  intros l M f a volume old N E C mass. unfold ncpVolume. split; [|split; [|split]].
  - intros c L. rewrite enthalpy_comp by assumption. rewrite assign_comp by exact L. unfold amountOf, mass.
    rewrite <- (C c). field. apply N.
  - intros e H. rewrite (enthalpy_energy l f a volume _ e H). ring.
  - intros e O H. rewrite enthalpy_other by exact H. rewrite assign_other by exact O. reflexivity.
  - intros eq lc. unfold richVolume. rewrite set_same. reflexivity.
Qed.
(** Immiscible, flash and PVS models ask the fluid state for a density of a phase and a component. If that is the density of
    the phase, the immiscible model stores the mass, but the other two do not store the moles. *)
Theorem C73_rates_by_volume_refuted :
  (forall l M f a volume old, energyApart l -> (forall c, f_rho2 f a c == f_rho f a) ->
   holdsMass MassUnit l M (fun c => f_rho f a * f_massFrac f a c * volume) (immVolume l f a volume old)) /\
  ~ (forall l M f a volume old, (forall c, ~ M c == 0) -> energyApart l -> consistentFluid M f a -> (forall c, f_rho2 f a c == f_rho f a) ->
     holdsMass MoleUnit l M (fun c => f_rho f a * f_massFrac f a c * volume) (flashVolume l f a volume old)) /\
  ~ (forall l M f a volume old, (forall c, ~ M c == 0) -> energyApart l -> consistentFluid M f a -> (forall c, f_rho2 f a c == f_rho f a) ->
     holdsMass MoleUnit l M (fun c => f_rho f a * f_massFrac f a c * volume) (pvsVolume l f a volume old)).
Proof.
  (* pure water: molar mass 18 g, 1000 kg per cubic metre *)
  pose (f := mkFluid (fun _ => 1000) (fun _ _ => 1000) (fun _ => 0) (fun _ _ => 1000 / (18 # 1000)) (fun _ _ => 1) (fun _ _ => 1)).
  split; [|split].
  - intros l M f' a volume old E R c L. unfold immVolume. rewrite enthalpy_comp by assumption. rewrite assign_comp by exact L.
    rewrite (R c). reflexivity.
  - intros H. specialize (H (mkLayout 0 1 None) (fun _ => 18 # 1000) f 0%nat 1 (fun _ => 0)).
    assert (X : holdsMass MoleUnit (mkLayout 0 1 None) (fun _ => 18 # 1000) (fun c => f_rho f 0 * f_massFrac f 0 c * 1) (flashVolume (mkLayout 0 1 None) f 0 1 (fun _ => 0))).
    { apply H; [intros c; discriminate|intros e; discriminate|intros c; vm_compute; reflexivity|intros c; reflexivity]. }
    specialize (X 0%nat (le_n 1)). vm_compute in X. discriminate X.
  - intros H. specialize (H (mkLayout 0 1 None) (fun _ => 18 # 1000) f 0%nat 1 (fun _ => 0)).
    assert (X : holdsMass MoleUnit (mkLayout 0 1 None) (fun _ => 18 # 1000) (fun c => f_rho f 0 * f_massFrac f 0 c * 1) (pvsVolume (mkLayout 0 1 None) f 0 1 (fun _ => 0))).
    { apply H; [intros c; discriminate|intros e; discriminate|intros c; vm_compute; reflexivity|intros c; reflexivity]. }
    specialize (X 0%nat (le_n 1)). vm_compute in X. discriminate X.
Qed.

(** ** The black-oil model *)
Theorem C73_black_oil_rates_by_mass : forall b value, boEntries b ->
  (forall c, b_active b c = true ->
     boMass b value (b_index b c) == amountOf (boUnit b) 1 (b_refRho b c) (value (b_index b c))) /\
  (forall i, b_solvent b = Some i -> boMass b value i == amountOf (boUnit b) 1 (b_solventRefRho b) (value i)) /\
  (forall e, boOther b e -> boMass b value e == value e).
Proof.
  intros b value W. unfold boMass, boUnit. split; [|split].
  - intros c A. rewrite surface_comp by assumption. destruct (b_surface b); reflexivity.
  - intros i S. rewrite surface_solvent by assumption. destruct (b_surface b); reflexivity.
  - intros e O. rewrite surface_other by exact O. reflexivity.
Qed.
(** Molar rates are converted if the solvent is enabled and the components are numbered as those of the fluid system. *)
Theorem C73_black_oil_rates_by_moles_partial : forall b value i,
  boEntries b -> b_solvent b = Some i -> (b_comps b <= i)%nat -> (forall j, b_polymer b = Some j -> (b_comps b <= j)%nat) ->
  (b_comps b <= b_numEq b)%nat -> b_unsupported b = false ->
  (forall c, b_active b c = true -> b_index b c = canonical c /\ (canonical c < b_comps b)%nat) ->
  exists v, boMolar b value = Done v /\
  (forall c, b_active b c = true ->
     v (b_index b c) == amountOf (boUnit b) 1 (b_refRho b c) (value (b_index b c) * b_molarMass b (canonical c))) /\
  v i == amountOf (boUnit b) 1 (b_solventRefRho b) (value i * b_solventMolarMass b).
Proof.
  intros b value i W S LS LP LE U C. unfold boMolar.
  replace (b_numEq b <? b_comps b)%nat with false by (symmetry; apply Nat.ltb_ge; exact LE). cbv zeta. rewrite S, U.
  eexists. split; [reflexivity|]. split.
  - intros c A. destruct (C c A) as [E L]. rewrite surface_comp by assumption.
    assert (V : (match b_polymer b with
       | Some j => scaleEntry (scaleEntry (fold_left (fun v c0 => scaleEntry v c0 (b_molarMass b c0)) (seq 0 (b_comps b)) value) i (b_solventMolarMass b)) j (b_polymerMolarMass b)
       | None => scaleEntry (fold_left (fun v c0 => scaleEntry v c0 (b_molarMass b c0)) (seq 0 (b_comps b)) value) i (b_solventMolarMass b)
       end) (b_index b c) = value (b_index b c) * b_molarMass b (canonical c)).
    { assert (B : scaleEntry (fold_left (fun v c0 => scaleEntry v c0 (b_molarMass b c0)) (seq 0 (b_comps b)) value) i (b_solventMolarMass b) (b_index b c)
                  = value (b_index b c) * b_molarMass b (canonical c)).
      { unfold scaleEntry at 1. rewrite set_other by lia. rewrite (scale_range (b_molarMass b)). rewrite E.
        replace ((0 <=? canonical c) && (canonical c <? 0 + b_comps b))%nat with true; [reflexivity|].
        symmetry. apply andb_true_iff. split; [apply Nat.leb_le|apply Nat.ltb_lt]; lia. }
      destruct (b_polymer b) as [j|] eqn:P; [|exact B]. unfold scaleEntry at 1. rewrite set_other; [exact B|].
      specialize (LP j eq_refl). lia. }
    rewrite V. unfold boUnit. destruct (b_surface b); reflexivity.
  - rewrite surface_solvent by assumption.
    assert (V : (match b_polymer b with
       | Some j => scaleEntry (scaleEntry (fold_left (fun v c0 => scaleEntry v c0 (b_molarMass b c0)) (seq 0 (b_comps b)) value) i (b_solventMolarMass b)) j (b_polymerMolarMass b)
       | None => scaleEntry (fold_left (fun v c0 => scaleEntry v c0 (b_molarMass b c0)) (seq 0 (b_comps b)) value) i (b_solventMolarMass b)
       end) i = value i * b_solventMolarMass b).
    { assert (B : scaleEntry (fold_left (fun v c0 => scaleEntry v c0 (b_molarMass b c0)) (seq 0 (b_comps b)) value) i (b_solventMolarMass b) i = value i * b_solventMolarMass b).
      { unfold scaleEntry at 1. rewrite set_same, (scale_range (b_molarMass b)).
        replace ((0 <=? i) && (i <? 0 + b_comps b))%nat with false; [reflexivity|].
        symmetry. apply andb_false_iff. right. apply Nat.ltb_ge. lia. }
      destruct (b_polymer b) as [j|] eqn:P; [|exact B]. unfold scaleEntry at 1. rewrite set_other; [exact B|].
      destruct W as [_ [_ W]]. destruct (W j P) as [W1 _]. congruence. }
    rewrite V. unfold boUnit. destruct (b_surface b); reflexivity.
Qed.
(** Exactly the calls for a solvent model with another, unsupported extension are rejected. *)
Theorem C73_black_oil_rates_by_moles_rejected : forall b value,
  boMolar b value = Throws <-> (b_comps b <= b_numEq b)%nat /\ b_unsupported b = true /\ exists i, b_solvent b = Some i.
Proof.
  intros b value. unfold boMolar. cbv zeta. split.
  - intros E. destruct (b_numEq b <? b_comps b)%nat eqn:L; [discriminate|]. apply Nat.ltb_ge in L.
    destruct (b_solvent b) as [i|]; [|discriminate]. destruct (b_unsupported b); [|discriminate]. eauto.
  - intros (L & U & i & S). apply Nat.ltb_ge in L. rewrite L, S, U. reflexivity.
Qed.
(** Without the solvent extension every call writes outside of the vector. *)
Definition threePhases (solvent : option nat) (surface : bool) : boModel :=
  mkBo (match solvent with Some _ => 4 | None => 3 end) 3 (fun _ => true) canonical solvent None false surface
       (fun c => match c with Oil => 800 | Water => 1000 | Gas => 1 end) 2 (fun c => nth c [200; 18; 16] 0) 30 0.
Theorem C73_black_oil_rates_by_moles_refuted :
  ~ (forall b value, boEntries b -> b_unsupported b = false -> (b_comps b <= b_numEq b)%nat ->
     (forall c, b_active b c = true -> b_index b c = canonical c /\ (canonical c < b_comps b)%nat) ->
     boMolar b value <> OutOfRange) /\
  forall b value, b_solvent b = None -> boMolar b value = OutOfRange.
Proof.
  assert (K : forall b value, b_solvent b = None -> boMolar b value = OutOfRange).
  { intros b value S. unfold boMolar. destruct (b_numEq b <? b_comps b)%nat; [reflexivity|]. cbv zeta. rewrite S. reflexivity. }
  split; [|exact K]. intros H. apply (H (threePhases None true) (fun _ => 1)).
  - split; [|split].
    + intros c d _ _ E. destruct c, d; cbn in E; congruence.
    + intros i E. discriminate E.
    + intros j E. discriminate E.
  - reflexivity.
  - cbn. lia.
  - intros c _. split; [reflexivity|]. destruct c; cbn; lia.
  - apply K. reflexivity.
Qed.
(** With oil and gas only, gas is converted with the molar mass of water. *)
Definition oilGas : boModel :=
  mkBo 3 2 (fun c => match c with Water => false | _ => true end) (twoPhaseIndex true false) (Some 2%nat) None false false
       (fun _ => 1) 1 (fun c => nth c [200; 18; 16] 0) 30 0.
Theorem C73_two_phase_rates_by_moles_refuted :
  ~ (forall b value i, boEntries b -> b_solvent b = Some i -> (b_comps b <= i)%nat -> b_polymer b = None ->
     (b_comps b <= b_numEq b)%nat -> b_unsupported b = false ->
     (forall c, b_active b c = true -> (b_index b c < b_comps b)%nat) ->
     exists v, boMolar b value = Done v /\
     forall c, b_active b c = true ->
       v (b_index b c) == amountOf (boUnit b) 1 (b_refRho b c) (value (b_index b c) * b_molarMass b (canonical c))).
Proof.
  intros H. destruct (H oilGas (fun _ => 1) 2%nat) as [v [E V]].
  - split; [|split].
    + intros c d A B E. destruct c, d; cbn in *; congruence.
    + intros i E c A. injection E as <-. destruct c; cbn in *; try discriminate.
    + intros j E. discriminate E.
  - reflexivity.
  - cbn. lia.
  - reflexivity.
  - cbn. lia.
  - reflexivity.
  - intros c A. destruct c; cbn in *; try discriminate; lia.
  - specialize (V Gas eq_refl). assert (X : v (b_index oilGas Gas) == 18).
    { unfold boMolar in E. cbn [b_numEq b_comps oilGas Nat.ltb Nat.leb] in E. cbv zeta in E. cbn [b_solvent oilGas b_unsupported b_polymer] in E.
      injection E as <-. vm_compute. reflexivity. }
    rewrite X in V. vm_compute in V. discriminate V.
Qed.
(** Rates given by volume are stored as masses even if surface volumes are conserved. *)
Theorem C73_black_oil_rates_by_volume_refuted :
  (forall b f a volume old v, boVolume b f a volume old = Done v -> forall c, (c < b_comps b)%nat ->
     v c == f_rho f a * f_massFrac f a c * volume) /\
  ~ (forall b f a volume old v, boEntries b -> boVolume b f a volume old = Done v ->
     (forall c, b_active b c = true -> b_index b c = canonical c /\ (canonical c < b_comps b)%nat) ->
     forall c, b_active b c = true ->
     v (b_index b c) == amountOf (boUnit b) 1 (b_refRho b c) (f_rho f a * f_massFrac f a (canonical c) * volume)).
Proof.
  assert (K : forall b f a volume old v, boVolume b f a volume old = Done v -> forall c, (c < b_comps b)%nat ->
     v c == f_rho f a * f_massFrac f a c * volume).
  { intros b f a volume old v E c L. unfold boVolume in E. destruct (b_numEq b <? b_comps b)%nat; [discriminate|].
    injection E as <-. assert (A := assign_range (fun c => f_rho f a * f_massFrac f a c * volume) 0 (b_comps b) 0 old c).
    cbn [Nat.add] in A. rewrite A.
    replace ((0 <=? c) && (c <? b_comps b))%nat with true; [|symmetry; apply andb_true_iff; split; [apply Nat.leb_le|apply Nat.ltb_lt]; lia].
    rewrite Nat.sub_0_r. reflexivity. }
  split; [exact K|]. intros H.
  pose (f := mkFluid (fun _ => 1000) (fun _ _ => 1000) (fun _ => 0) (fun _ _ => 0) (fun _ _ => 1) (fun _ _ => 1)).
  destruct (boVolume (threePhases None true) f 0 1 (fun _ => 0)) as [v| |] eqn:E; [|discriminate E|discriminate E].
  assert (X := K _ _ _ _ _ _ E 1%nat ltac:(cbn; lia)).
  specialize (H (threePhases None true) f 0%nat 1 (fun _ => 0) v).
  assert (Y : v (b_index (threePhases None true) Water) == amountOf SurfaceVolumeUnit 1 1000 (f_rho f 0 * f_massFrac f 0 1 * 1)).
  { apply H.
    - split; [|split].
      + intros c d _ _ EE. destruct c, d; cbn in EE; congruence.
      + intros i EE. discriminate EE.
      + intros j EE. discriminate EE.
    - exact E.
    - intros c _. split; [reflexivity|]. destruct c; cbn; lia.
    - reflexivity. }
  cbn [b_index threePhases canonical] in Y. rewrite X in Y. vm_compute in Y. discriminate Y.
Qed.

(** ** Concrete cases *)
Definition twoComps : layout := mkLayout 0 2 (Some 4%nat).
Example mass_rates : map (fun e => Qred (flashMass twoComps (fun c => nth c [2; 5] 1) (fun e => 10) (fun _ => 99) e)) [0; 1; 2; 4]%nat = [5; 2; 10; 10].
Proof. vm_compute. reflexivity. Qed.
Example solvent_model_meets_the_hypotheses :
  boEntries (threePhases (Some 3%nat) true) /\
  match boMolar (threePhases (Some 3%nat) true) (fun _ => 1) with
  | Done v => map (fun e => Qred (v e)) [0; 1; 2; 3]%nat = [1 # 4; 9 # 500; 16; 15]
  | _ => False
  end.
Proof.
  split.
  - split; [|split].
    + intros c d _ _ E. destruct c, d; cbn in E; congruence.
    + intros i E c _. injection E as <-. destruct c; cbn; discriminate.
    + intros j E. discriminate E.
  - vm_compute. reflexivity.
Qed.
Example consistent_brine : consistentFluid (fun c => nth c [18; 58] 1) (mkFluid (fun _ => 1000) (fun _ _ => 0) (fun _ => 5) (fun _ c => nth c [900 / 18; 100 / 58] 0) (fun _ c => nth c [9 # 10; 1 # 10] 0) (fun _ _ => 0)) 0.
Proof. intros [|[|c]]; vm_compute; try reflexivity; destruct c; reflexivity. Qed.

Print Assumptions C73_rates_by_mass.
Print Assumptions C73_rates_by_moles.
Print Assumptions C73_energy_entry_partial.
Print Assumptions C73_energy_entry_refuted.
Print Assumptions C73_rates_by_volume_partial.
Print Assumptions C73_rates_by_volume_refuted.
Print Assumptions C73_black_oil_rates_by_mass.
Print Assumptions C73_black_oil_rates_by_moles_partial.
Print Assumptions C73_black_oil_rates_by_moles_rejected.
Print Assumptions C73_black_oil_rates_by_moles_refuted.
Print Assumptions C73_two_phase_rates_by_moles_refuted.
Print Assumptions C73_black_oil_rates_by_volume_refuted.
