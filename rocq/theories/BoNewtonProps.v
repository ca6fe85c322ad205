(** Property C48: the limits of the Newton update of the black-oil model. *)
From Verif Require Import BoNewtonModel BoNewtonSpec BoVarsProofs BoStableProofs BoContProofs BoVarsProps BoNewtonProofs BoNewtonEffect BoNewtonSat BoNewtonMore.

(** ** Saturations *)

(** Without solvent and salt precipitation, no phase saturation which the model evaluates
    moves by more than the configured maximum, whatever the update is, whether variables are
    switched or not, and with or without the projection to fractions. The current saturations
    are fractions; the threshold above which a cell counts as filled with water has its default
    value one (or more). *)
Theorem C48_saturations_limited_partial : forall c l cur upd f was v' b,
  layout (idx c) -> in_use c cur -> sensible c -> meanings_fit c cur -> pressure_fits c cur ->
  enableSolvent c = false -> m_solvent cur = SDisabled -> enableSaltPrecipitation c = false ->
  0 <= dsMax l -> 0 <= oscillationThreshold l ->
  1 <= waterOnlyThreshold l -> 1 <= waterSaturationMax l ->
  fraction (iq_sw c cur) -> fraction (iq_so c cur) -> fraction (iq_sg c cur) ->
  update_cell c l cur upd f was cur = (v', b) ->
  within (dsMax l) (iq_sw c v') (iq_sw c cur) /\
  within (dsMax l) (iq_so c v') (iq_so c cur) /\
  within (dsMax l) (iq_sg c v') (iq_sg c cur).
Proof.
  intros c l cur upd f was v' b L U SE MF PF NSO SD NSA DS OT T1 M1 F1 F2 F3 H.
  assert (O : forall v, iq_so c v == so_of c v).
  { intros v. unfold iq_so, so_of. rewrite (no_ss c NSO). destruct (oilEnabled c); lra. }
  assert (G : forall v, iq_sg c v == iq_sg0 c v).
  { intros v. unfold iq_sg. rewrite (no_ss c NSO). destruct (oilEnabled c), (gasEnabled c); lra. }
  unfold fraction, within in *. rewrite !O, !G. rewrite O in F2. rewrite G in F3.
  exact (saturations_limited c l cur upd f was v' b L U SE MF PF NSO SD NSA DS OT T1 M1 F1 F2 F3 H).
Qed.
Print Assumptions C48_saturations_limited_partial.

Definition usual_limits : limits :=
  mkLimits (1#100000) (3#10) (1#5) false 5 1000 0 1000000 0 1 1 35 1 10 (1#5).
Definition cell (w p g s : Q) (m : SolventMeaning) : vars :=
  mkVars (values w p g s) Sw Po Sg BDisabled m.

Lemma gas_condensate_layout : forall s, layout (idx (gas_condensate s)).
Proof.
  intros s. split; [|split; [|split]].
  - intros i j I J N P.
    do 15 (destruct i as [|i]; [do 15 (destruct j as [|j]; [destruct s; vm_compute in P |- *; solve [lia|congruence|discriminate]|]); lia|]).
    lia.
  - intros i I. do 15 (destruct i as [|i]; [destruct s; vm_compute; reflexivity|]). lia.
  - destruct s; vm_compute; discriminate.
  - destruct s; vm_compute; intros P; exfalso; apply P; reflexivity.
Qed.

(** With solvent it is different: the solvent saturation is cut off at zero after the common
    factor was applied, and the oil saturation takes the difference. *)
Theorem C48_saturations_limited_solvent_refuted : exists c l cur upd f v',
  layout (idx c) /\ in_use c cur /\ sensible c /\ meanings_fit c cur /\ pressure_fits c cur /\
  fraction (iq_sw c cur) /\ fraction (iq_so c cur) /\ fraction (iq_sg c cur) /\
  fraction (solventSaturation_ c cur) /\ 0 <= dsMax l /\
  update_cell c l cur upd f false cur = (v', false) /\ same_meanings v' cur /\
  dsMax l < iq_so c cur - iq_so c v'.
Proof.
  exists (gas_condensate true), usual_limits, (cell (3#10) 100 (3#10) (1#20) Ss),
    (values (-(1#5)) 0 (-(1#5)) (1#5)), simple_fluid.
  eexists. split; [apply gas_condensate_layout|].
  split; [repeat split; intros X; vm_compute; try discriminate; exfalso; apply X; reflexivity|].
  split; [repeat split; intros; discriminate || reflexivity|].
  split; [repeat split; intros; discriminate|].
  split; [reflexivity|].
  split; [split; vm_compute; discriminate|]. split; [split; vm_compute; discriminate|].
  split; [split; vm_compute; discriminate|]. split; [split; vm_compute; discriminate|].
  split; [vm_compute; discriminate|].
  split; [unfold update_cell; cbn -[adapt]; unfold adapt; cbn -[Qltb water_filled]; reflexivity|].
  split; [vm_compute; auto|]. vm_compute. reflexivity.
Qed.
Print Assumptions C48_saturations_limited_solvent_refuted.

(** Nor does it hold for a lower threshold for cells filled with water: gas disappears. *)
Theorem C48_saturations_limited_threshold_refuted : exists c l cur upd f v',
  layout (idx c) /\ in_use c cur /\ sensible c /\ meanings_fit c cur /\ pressure_fits c cur /\
  enableSolvent c = false /\ enableSaltPrecipitation c = false /\
  fraction (iq_sw c cur) /\ fraction (iq_so c cur) /\ fraction (iq_sg c cur) /\ 0 <= dsMax l /\
  waterOnlyThreshold l < 1 /\ update_cell c l cur upd f false cur = (v', false) /\
  dsMax l < iq_sg c cur - iq_sg c v'.
Proof.
  exists (gas_condensate false),
    (mkLimits (1#100000) (3#10) (1#100) false 5 1000 0 1000000 0 1 (9#10) 35 1 10 (1#5)),
    (cell (95#100) 100 (5#100) 0 SDisabled), (fun _ => 0), simple_fluid.
  eexists. split; [apply gas_condensate_layout|].
  split; [repeat split; intros X; vm_compute; try discriminate; exfalso; apply X; reflexivity|].
  split; [repeat split; intros; discriminate || reflexivity|].
  split; [repeat split; intros; discriminate|].
  split; [reflexivity|]. split; [reflexivity|]. split; [reflexivity|].
  split; [split; vm_compute; discriminate|]. split; [split; vm_compute; discriminate|].
  split; [split; vm_compute; discriminate|]. split; [vm_compute; discriminate|].
  split; [reflexivity|]. split; [reflexivity|]. vm_compute. reflexivity.
Qed.
Print Assumptions C48_saturations_limited_threshold_refuted.

(** ** Pressure *)

(** The pressure variable stays within the configured bounds and moves by at most the configured
    relative maximum, as long as it stands for the pressure of the same phase. *)
Theorem C48_pressure_limited_partial : forall c l cur upd f was v' b,
  layout (idx c) -> in_use c cur -> sensible c -> meanings_fit c cur -> pressure_fits c cur ->
  pressMin l <= pressMax l -> 0 <= dpMaxRel l ->
  let i := pressureSwitchIdx (idx c) in
  0 <= val cur i -> between (pressMin l) (pressMax l) (val cur i) ->
  update_cell c l cur upd f was cur = (v', b) -> m_pressure v' = m_pressure cur ->
  between (pressMin l) (pressMax l) (val v' i) /\
  within (dpMaxRel l * val cur i) (val v' i) (val cur i).
Proof.
  intros c l cur upd f was v' b L U SE MF PF B D i C0 [C1 C2] H M.
  destruct (update_split c l cur upd _ _ _ _ H) as [v1 [A ->]].
  destruct (updated_good c l cur upd MF PF) as [MFu PFu].
  pose proof (updated_in_use c l cur upd U) as Uu.
  destruct (updated_meanings c l cur upd) as [N1 [N2 [N3 [N4 N5]]]].
  pose proof (proj1 (proj2 (proj2 L))) as P0.
  destruct (entry c l cur upd L 0 ltac:(lia) P0) as [nx [V _]].
  change (name (idx c) 0) with (pressureSwitchIdx (idx c)) in V.
  rewrite (nv_pressure c l cur upd L nx P0) in V. fold i in V.
  assert (D1 : i <> waterSwitchIdx (idx c)) by (exact (differ c L 0 1 ltac:(lia) ltac:(lia) ltac:(lia) P0)).
  assert (D2 : i <> compositionSwitchIdx (idx c)) by (exact (differ c L 0 2 ltac:(lia) ltac:(lia) ltac:(lia) P0)).
  assert (D3 : i <> solventSaturationIdx (idx c)) by (exact (differ c L 0 3 ltac:(lia) ltac:(lia) ltac:(lia) P0)).
  assert (E : val (if projectSaturations l then fst (chop c v1) else v1) i = val v1 i /\
              m_pressure (if projectSaturations l then fst (chop c v1) else v1) = m_pressure v1).
  { destruct (projectSaturations l); [|auto]. split; [apply chop_frame; assumption|].
    apply (chop_meanings c v1). }
  destruct E as [E1 E2]. rewrite E1. rewrite E2, <- N2 in M.
  unfold i in *. rewrite (adapt_pressure_value c f L SE _ _ _ _ _ _ Uu MFu PFu A M), V.
  set (p := val cur (pressureSwitchIdx (idx c))) in *. set (d := upd (pressureSwitchIdx (idx c))) in *.
  set (k := dpMaxRel l * p). assert (K : 0 <= k) by (apply Qmult_le_0_compat; assumption).
  assert (X : within k (if Qltb k (qabs d) then signum d * dpMaxRel l * p else d) 0).
  { unfold within. destruct (Qltb k (qabs d)) eqn:EQ.
    - assert (Y : signum d * dpMaxRel l * p == signum d * k) by (unfold k; ring). rewrite Y.
      destruct (signum_spec d) as [[? ->]|[[? ->]|[? ->]]]; lra.
    - apply Qltb_ge in EQ. destruct (qabs_spec d) as [[? Z]|[? Z]]; rewrite Z in EQ; lra. }
  fold k. set (e := if Qltb k (qabs d) then signum d * dpMaxRel l * p else d) in *. clearbody e k p d.
  unfold within, between in *.
  destruct (clamp_spec (p - e) (pressMin l) (pressMax l)) as [[? ->]|[[? [? ->]]|[? [? ->]]]];
    repeat split; lra.
Qed.
Print Assumptions C48_pressure_limited_partial.

(** The bounds apply to the variable, which is a scaled pressure: the pressure itself can leave
    them. *)
Theorem C48_pressure_bounds_refuted : exists c l cur upd f v',
  layout (idx c) /\ in_use c cur /\ sensible c /\ meanings_fit c cur /\ pressure_fits c cur /\
  0 < f_scale f /\ between (pressMin l) (pressMax l) (pressure_ c f cur) /\
  between (pressMin l) (pressMax l) (val cur (pressureSwitchIdx (idx c))) /\
  update_cell c l cur upd f false cur = (v', false) /\ same_meanings v' cur /\
  pressMax l < pressure_ c f v'.
Proof.
  exists (gas_condensate false),
    (mkLimits (1#100000) (3#10) (1#5) false 5 1000 0 100 0 1 1 35 1 10 (1#5)),
    (cell (1#5) 49 (1#5) 0 SDisabled), (values 0 (-(10)) 0 0),
    (mkFluid 2 (1#4) (fun _ _ => 1#10) None (fun so sg sw => (- sw, 0, sg))
          (fun _ _ => 1#100) (fun _ _ => 1#100) (fun _ _ _ => 1#2) (fun _ _ => 1#10) 0 1000 1000).
  eexists. split; [apply gas_condensate_layout|].
  split; [repeat split; intros X; vm_compute; try discriminate; exfalso; apply X; reflexivity|].
  split; [repeat split; intros; discriminate || reflexivity|].
  split; [repeat split; intros; discriminate|].
  split; [reflexivity|]. split; [reflexivity|].
  split; [split; vm_compute; discriminate|]. split; [split; vm_compute; discriminate|].
  split; [reflexivity|]. split; [vm_compute; auto|]. vm_compute. reflexivity.
Qed.
Print Assumptions C48_pressure_bounds_refuted.

(** ** Dissolution factors *)

(** After the update no dissolution or vaporization factor is negative, neither one which was
    a variable before nor one which the switching introduced. *)
Theorem C48_dissolution_factors_nonnegative : forall c l cur upd f was v' b,
  layout (idx c) -> in_use c cur -> sensible c -> meanings_fit c cur -> nonneg_fluid f ->
  0 < waterOnlyThreshold l ->
  update_cell c l cur upd f was cur = (v', b) ->
  (m_gas v' = Rs \/ m_gas v' = Rv -> 0 <= val v' (compositionSwitchIdx (idx c))) /\
  (m_water v' = Rsw \/ m_water v' = Rvw -> 0 <= val v' (waterSwitchIdx (idx c))) /\
  (m_solvent v' = Rsolw -> m_solvent cur = Rsolw /\ 0 <= val v' (solventSaturationIdx (idx c))
     \/ oscillationThreshold l < 0).
Proof.
  intros c l cur upd f was v' b L U SE MF NF T H.
  destruct (update_split c l cur upd _ _ _ _ H) as [v1 [A ->]].
  pose proof (updated_in_use c l cur upd U) as Uu.
  destruct (updated_meanings c l cur upd) as [N1 [N2 [N3 [N4 N5]]]].
  assert (KF : forall a k, 0 <= a - keep_factor k a).
  { intros a k. unfold keep_factor. destruct (Qltb a k) eqn:E; [lra|apply Qltb_ge in E; lra]. }
  set (eps := if was then oscillationThreshold l else 0) in *.
  assert (G1 : m_gas v1 = Rs \/ m_gas v1 = Rv -> 0 <= val v1 (compositionSwitchIdx (idx c))).
  { apply (adapt_gas_value c f L _ _ _ _ _ _ Uu NF A). rewrite N3. intros G.
    assert (P : (0 <= name (idx c) 2)%Z) by (apply (proj1 (proj2 U)); destruct G; congruence).
    destruct (entry c l cur upd L 2 ltac:(lia) P) as [nx [V _]].
    change (name (idx c) 2) with (compositionSwitchIdx (idx c)) in *.
    rewrite V, (nv_gas c l cur upd L nx P). destruct G as [G|G]; rewrite G; apply KF. }
  assert (W1 : m_water v1 = Rsw \/ m_water v1 = Rvw -> 0 <= val v1 (waterSwitchIdx (idx c))).
  { apply (adapt_water_value c f L _ _ _ _ _ _ Uu NF A); rewrite N1.
    - intros G.
      assert (P : (0 <= name (idx c) 1)%Z) by (apply (proj1 U); destruct G; congruence).
      destruct (entry c l cur upd L 1 ltac:(lia) P) as [nx [V _]].
      change (name (idx c) 1) with (waterSwitchIdx (idx c)) in *.
      rewrite V, (nv_water c l cur upd L nx P). destruct G as [G|G]; rewrite G; apply KF.
    - intros [G|G] WE.
      + right. apply (proj1 (proj2 (proj2 MF))). exact G.
      + left. unfold read_sw. rewrite N1, G. exact T. }
  assert (S1 : m_solvent v1 = Rsolw -> m_solvent cur = Rsolw /\ 0 <= val v1 (solventSaturationIdx (idx c))
                \/ oscillationThreshold l < 0).
  { intros S. destruct (Qlt_le_dec (oscillationThreshold l) 0) as [O|O]; [auto|left].
    assert (EP : 0 <= eps) by (unfold eps; destruct was; lra).
    assert (M0 : m_solvent cur <> SDisabled).
    { intros E. rewrite <- N5 in E.
      destruct (adapt_in_use c f _ _ _ _ _ _ Uu A) as [_ X]. rewrite (X E) in S. discriminate. }
    assert (P : (0 <= name (idx c) 3)%Z) by (apply (proj2 (proj2 (proj2 U))); exact M0).
    destruct (entry c l cur upd L 3 ltac:(lia) P) as [nx [V _]].
    change (name (idx c) 3) with (solventSaturationIdx (idx c)) in *.
    rewrite (nv_solvent c l cur upd L nx P) in V.
    set (y := val cur (solventSaturationIdx (idx c)) - upd (solventSaturationIdx (idx c)) * satAlpha c l cur upd) in *.
    assert (YR : fraction (qmin (qmax y 0) 1)) by (exact (clamp01_range y)).
    destruct (adapt_solvent_value c f L _ _ _ _ _ _ EP NF P A) as [R1 [R2 R3]].
    - rewrite V. destruct (m_solvent cur); [apply YR|apply KF..].
    - rewrite N5. intros E. rewrite V, E. apply YR.
    - destruct (m_solvent cur) eqn:EC.
      + rewrite (R3 N5) in S. discriminate.
      + split; [reflexivity|exact R1].
      + exfalso. apply M0. reflexivity. }
  destruct (projectSaturations l); [|auto].
  destruct (chop_meanings c v1) as [C1 [_ [C3 [_ C5]]]]. rewrite C1, C3, C5.
  destruct (adapt_in_use c f _ _ _ _ _ _ Uu A) as [[I1 [I2 [_ I4]]] _].
  split; [|split]; intros M.
  - assert (P : (0 <= name (idx c) 2)%Z) by (apply I2; destruct M; congruence).
    rewrite chop_keeps; [auto|..].
    + intros [_ E]. exact (differ c L 2 1 ltac:(lia) ltac:(lia) ltac:(lia) P E).
    + intros [E _]. destruct M; congruence.
    + intros [_ E]. exact (differ c L 2 3 ltac:(lia) ltac:(lia) ltac:(lia) P E).
  - assert (P : (0 <= name (idx c) 1)%Z) by (apply I1; destruct M; congruence).
    rewrite chop_keeps; [auto|..].
    + intros [E _]. destruct M; congruence.
    + intros [_ E]. exact (differ c L 1 2 ltac:(lia) ltac:(lia) ltac:(lia) P E).
    + intros [_ E]. exact (differ c L 1 3 ltac:(lia) ltac:(lia) ltac:(lia) P E).
  - assert (P : (0 <= name (idx c) 3)%Z) by (apply I4; congruence).
    rewrite chop_keeps; [auto|..].
    + intros [_ E]. exact (differ c L 3 1 ltac:(lia) ltac:(lia) ltac:(lia) P E).
    + intros [_ E]. exact (differ c L 3 2 ltac:(lia) ltac:(lia) ltac:(lia) P E).
    + intros [E _]. congruence.
Qed.
Print Assumptions C48_dissolution_factors_nonnegative.

(** ** Solvent, salt and the other extensions *)

(** The solvent saturation stays a fraction. It never becomes the amount dissolved in water:
    the switch the code provides for this is not reached, because the saturation is cut off
    at zero first. *)
Theorem C48_solvent_in_range : forall c l cur upd f was v' b,
  layout (idx c) -> in_use c cur -> nonneg_fluid f -> 0 <= oscillationThreshold l ->
  m_solvent cur = Ss ->
  update_cell c l cur upd f was cur = (v', b) ->
  m_solvent v' = Ss /\ fraction (val v' (solventSaturationIdx (idx c))).
Proof.
  intros c l cur upd f was v' b L U NF OT MS H.
  destruct (update_split c l cur upd _ _ _ _ H) as [v1 [A ->]].
  pose proof (updated_in_use c l cur upd U) as Uu.
  destruct (updated_meanings c l cur upd) as [N1 [N2 [N3 [N4 N5]]]].
  set (eps := if was then oscillationThreshold l else 0) in *.
  assert (EP : 0 <= eps) by (unfold eps; destruct was; lra).
  assert (P : (0 <= name (idx c) 3)%Z) by (apply (proj2 (proj2 (proj2 U))); congruence).
  destruct (entry c l cur upd L 3 ltac:(lia) P) as [nx [V _]].
  change (name (idx c) 3) with (solventSaturationIdx (idx c)) in *.
  rewrite (nv_solvent c l cur upd L nx P), MS in V.
  set (y := val cur (solventSaturationIdx (idx c)) - upd (solventSaturationIdx (idx c)) * satAlpha c l cur upd) in *.
  assert (YR : fraction (qmin (qmax y 0) 1)) by (exact (clamp01_range y)).
  destruct (adapt_solvent_value c f L _ _ _ _ _ _ EP NF P A) as [R1 [R2 R3]].
  { rewrite V. apply YR. }
  { intros _. rewrite V. apply YR. }
  rewrite N5, MS in R3. specialize (R3 eq_refl).
  assert (F1 : fraction (val v1 (solventSaturationIdx (idx c)))) by (split; auto).
  destruct (projectSaturations l); [|auto].
  destruct (chop_meanings c v1) as [_ [_ [_ [_ C5]]]]. rewrite C5. split; [exact R3|].
  destruct (adapt_in_use c f _ _ _ _ _ _ Uu A) as [U1 _].
  assert (DEC : single_phase v1 \/ ~ single_phase v1).
  { unfold single_phase. destruct (m_water v1), (m_gas v1); (left; auto; fail) || (right; intros [? ?]; discriminate). }
  destruct DEC as [[S1 S2]|SP].
  - unfold chop. rewrite S1, S2. exact F1.
  - destruct (chop c v1) as [v2 bb] eqn:EC.
    destruct (chop_physical c v1 v2 bb (layout_separate c L v1 U1) SP EC) as [_ [_ [X _]]].
    unfold solvent_of in X. cbn [fst] in *. rewrite C5, R3 in X. exact X.
Qed.
Print Assumptions C48_solvent_in_range.

(** Salt: without precipitation the concentration is not negative. With precipitation either
    the concentration is not negative, or the saturation of solid salt is below one and it
    moves by at most a tenth before the switching. *)
Theorem C48_salt_in_range : forall c l cur upd f was v' b,
  layout (idx c) -> in_use c cur -> nonneg_fluid f ->
  let i := saltConcentrationIdx (idx c) in (0 <= i)%Z ->
  update_cell c l cur upd f was cur = (v', b) ->
  (enableSaltPrecipitation c = false -> 0 <= val v' i) /\
  (enableSaltPrecipitation c = true ->
     (m_brine v' = Cs -> 0 <= val v' i) /\
     (m_brine v' = Sp -> val v' i < 1 /\
        (m_brine cur = Sp -> val cur i < 1 -> within (1#10) (val v' i) (val cur i)))).
Proof.
  intros c l cur upd f was v' b L U NF i P H.
  destruct (update_split c l cur upd _ _ _ _ H) as [v1 [A ->]].
  destruct (updated_meanings c l cur upd) as [N1 [N2 [N3 [N4 N5]]]].
  destruct (entry c l cur upd L 13 ltac:(lia) P) as [nx [V _]].
  change (name (idx c) 13) with i in *.
  pose proof (nv_salt c l cur upd L nx P) as NV. fold i in NV. cbv zeta in NV. rewrite NV in V. clear NV.
  assert (D1 : i <> waterSwitchIdx (idx c)) by (exact (differ c L 13 1 ltac:(lia) ltac:(lia) ltac:(lia) P)).
  assert (D2 : i <> compositionSwitchIdx (idx c)) by (exact (differ c L 13 2 ltac:(lia) ltac:(lia) ltac:(lia) P)).
  assert (D3 : i <> solventSaturationIdx (idx c)) by (exact (differ c L 13 3 ltac:(lia) ltac:(lia) ltac:(lia) P)).
  assert (E : val (if projectSaturations l then fst (chop c v1) else v1) i = val v1 i /\
              m_brine (if projectSaturations l then fst (chop c v1) else v1) = m_brine v1).
  { destruct (projectSaturations l); [|auto]. split; [apply chop_frame; assumption|].
    apply (chop_meanings c v1). }
  destruct E as [E1 E2]. rewrite E1, E2. clear E1 E2.
  destruct (adapt_salt_value c f L _ _ _ _ _ _ P NF A) as [S1 S2]. fold i in S1, S2.
  rewrite N4 in S2. split; intros SP; rewrite SP in V.
  - rewrite (S1 SP), V. apply qmax_ge_r.
  - assert (X : (m_brine v1 = Sp -> val v1 i <= 1 - (1#100000000)) /\ (m_brine v1 = Cs -> 0 <= val v1 i)).
    { apply S2; intros M; rewrite M in V; rewrite V; [apply qmin_le_r|apply qmax_ge_r]. }
    split; [apply X|]. intros M. split; [apply X in M; lra|].
    intros MC CL. rewrite MC in V.
    assert (B : within (1#10) (val (updated c l cur upd cur) i) (val cur i)).
    { rewrite V. destruct (limited_amount (upd i) (1#10) ltac:(lra)) as [X1 X2].
      set (e := sign1 (upd i) * qmin (qabs (upd i)) (1#10)) in *. unfold within.
      destruct (qmin_spec (val cur i - e) (1 - (1#100000000))) as [[? ->]|[? ->]]; split; lra. }
    cut (val v1 i = val (updated c l cur upd cur) i); [intros ->; exact B|].
    destruct (adapt_cases c f _ _ _ _ _ _ A) as [[_ [_ [-> _]]]|[N [w1 [salt [EB Y]]]]]; [reflexivity|].
    assert (D0 : i <> pressureSwitchIdx (idx c)) by (exact (differ c L 13 0 ltac:(lia) ltac:(lia) ltac:(lia) P)).
    assert (K : val v1 i = val w1 i /\ m_brine v1 = m_brine w1).
    { cbv zeta in Y. rewrite <- (solvent_frame c f (if was then oscillationThreshold l else 0) salt w1 i D3).
      destruct (solvent_meanings c f (if was then oscillationThreshold l else 0) salt w1) as [_ [_ [_ S4]]]. rewrite <- S4.
      set (v2 := solvent_stage c f (if was then oscillationThreshold l else 0) salt w1) in *. clearbody v2.
      destruct Y as [[_ [_ W]]|[_ [v3 [c1 [c2 [W [G _]]]]]]].
      - split; [exact (water_filled_frame c _ _ _ _ _ _ W D1 D2)|].
        apply (water_filled_meanings c _ _ _ _ _ W).
      - split.
        + rewrite (gas_frame c f _ _ _ _ _ _ _ _ G D2 D0). exact (water_frame c f _ _ _ _ _ _ _ _ _ W D1 D0).
        + destruct (gas_meanings c f _ _ _ _ _ _ _ G) as [_ [G2 [_ _]]].
          destruct (water_meanings c f _ _ _ _ _ _ _ _ W) as [_ [M2 [_ _]]]. congruence. }
    destruct K as [-> K]. rewrite K in M. unfold brine_stage in EB. rewrite SP, N4, MC in EB.
    assert (EW : w1 = fst (w1, salt)) by reflexivity. rewrite <- EB in EW. cbn [fst] in EW. subst w1.
    destruct (Qltb _ _); [discriminate M|reflexivity].
Qed.
Print Assumptions C48_salt_in_range.

(** The other extensions: each variable in use is in its range afterwards, and those with a
    maximum change respect it. *)
Theorem C48_extension_variables_in_range : forall c l cur upd f was v' b,
  layout (idx c) -> update_cell c l cur upd f was cur = (v', b) ->
  let x := idx c in
  let value (i : Z) := val v' i in
  ((0 <= zFractionIdx x)%Z -> between 0 1 (value (zFractionIdx x))) /\
  ((0 <= polymerConcentrationIdx x)%Z -> 0 <= value (polymerConcentrationIdx x)) /\
  ((0 <= polymerMoleWeightIdx x)%Z -> 0 <= value (polymerMoleWeightIdx x) /\
     (value (polymerConcentrationIdx x) < 1#10000000000 -> value (polymerMoleWeightIdx x) == 0)) /\
  ((0 <= foamConcentrationIdx x)%Z -> 0 <= value (foamConcentrationIdx x)) /\
  ((0 <= temperatureIdx x)%Z -> tempMin l <= tempMax l ->
     between (tempMin l) (tempMax l) (value (temperatureIdx x)) /\
     (0 <= maxTempChange l -> between (tempMin l) (tempMax l) (val cur (temperatureIdx x)) ->
      within (maxTempChange l) (value (temperatureIdx x)) (val cur (temperatureIdx x)))) /\
  ((0 <= microbialConcentrationIdx x)%Z ->
     (0 <= densityBiofilm l -> between 0 (densityBiofilm l) (value (microbialConcentrationIdx x))) /\
     ((0 <= oxygenConcentrationIdx x)%Z -> 0 <= maximumOxygen l ->
        between 0 (maximumOxygen l) (value (oxygenConcentrationIdx x))) /\
     ((0 <= ureaConcentrationIdx x)%Z -> 0 <= maximumUrea l ->
        between 0 (maximumUrea l) (value (ureaConcentrationIdx x))) /\
     ((0 <= biofilmConcentrationIdx x)%Z -> 0 <= maximumSolid l ->
        between 0 (maximumSolid l) (value (biofilmConcentrationIdx x))) /\
     ((0 <= calciteConcentrationIdx x)%Z -> 0 <= maximumSolid l ->
        between 0 (maximumSolid l) (value (calciteConcentrationIdx x)))).
Proof.
  intros c l cur upd f was v' b L H x value.
  assert (K : forall k, (k < 15)%nat -> (0 <= name x k)%Z -> k <> 0%nat -> k <> 1%nat -> k <> 2%nat ->
              k <> 3%nat -> k <> 13%nat ->
              value (name x k) = val (updated c l cur upd cur) (name x k)).
  { intros k. exact (kept c l cur upd L f was v' b k H). }
  assert (E : forall k, (k < 15)%nat -> (0 <= name x k)%Z -> k <> 0%nat -> k <> 1%nat -> k <> 2%nat ->
              k <> 3%nat -> k <> 13%nat ->
              exists nx, value (name x k) = new_value c l cur upd (name x k) nx /\
                forall j, (0 <= j < name x k)%Z -> val nx j = val (updated c l cur upd cur) j).
  { intros k A B C1 C2 C3 C4 C5. rewrite (K k A B C1 C2 C3 C4 C5). exact (entry c l cur upd L k A B). }
  assert (CL : forall y lo hi, lo <= hi -> between lo hi (clamp y lo hi)).
  { intros y lo hi B. unfold between. destruct (clamp_spec y lo hi) as [[? ->]|[[? [? ->]]|[? [? ->]]]]; lra. }
  split; [|split; [|split; [|split; [|split]]]].
  - intros P. destruct (E 4%nat ltac:(lia) P) as [nx [V _]]; try lia.
    change (name x 4) with (zFractionIdx x) in V. rewrite V. unfold x. rewrite (nv_z c l cur upd L nx P).
    exact (clamp01_range _).
  - intros P. destruct (E 5%nat ltac:(lia) P) as [nx [V _]]; try lia.
    change (name x 5) with (polymerConcentrationIdx x) in V. rewrite V. unfold x. rewrite (nv_polymer c l cur upd L nx P).
    apply qmax_ge_r.
  - intros P. destruct (E 6%nat ltac:(lia) P) as [nx [V N]]; try lia.
    change (name x 6) with (polymerMoleWeightIdx x) in V, N. rewrite V. unfold x in *.
    pose proof (nv_weight c l cur upd L nx P) as NV. cbv zeta in NV. rewrite NV. clear NV.
    destruct (proj2 (proj2 (proj2 L)) P) as [P1 P2].
    pose proof (K 5%nat ltac:(lia) P1 ltac:(lia) ltac:(lia) ltac:(lia) ltac:(lia) ltac:(lia)) as K5.
    change (name (idx c) 5) with (polymerConcentrationIdx (idx c)) in K5.
    rewrite K5, <- (N _ (conj P1 P2)).
    destruct (Qltb (val nx (polymerConcentrationIdx (idx c))) (1#10000000000)) eqn:Q0.
    + split; [apply Qle_refl|intros _; reflexivity].
    + split; [apply qmax_ge_r|]. intros C. apply Qltb_ge in Q0. lra.
  - intros P. destruct (E 12%nat ltac:(lia) P) as [nx [V _]]; try lia.
    change (name x 12) with (foamConcentrationIdx x) in V. rewrite V. unfold x. rewrite (nv_foam c l cur upd L nx P).
    apply qmax_ge_r.
  - intros P B. destruct (E 14%nat ltac:(lia) P) as [nx [V _]]; try lia.
    change (name x 14) with (temperatureIdx x) in V. rewrite V. unfold x in *.
    pose proof (nv_temperature c l cur upd L nx P) as NV. cbv zeta in NV. rewrite NV. clear NV.
    split; [apply CL; exact B|]. intros M [C1 C2].
    destruct (limited_amount (upd (temperatureIdx (idx c))) (maxTempChange l) M) as [X1 X2].
    set (e := sign1 (upd (temperatureIdx (idx c))) * qmin (qabs (upd (temperatureIdx (idx c)))) (maxTempChange l)) in *.
    unfold within.
    destruct (clamp_spec (val cur (temperatureIdx (idx c)) - e) (tempMin l) (tempMax l)) as [[? ->]|[[? [? ->]]|[? [? ->]]]];
      split; lra.
  - intros P. split; [|split; [|split; [|split]]].
    + intros B. destruct (E 7%nat ltac:(lia) P) as [nx [V _]]; try lia.
      change (name x 7) with (microbialConcentrationIdx x) in V. rewrite V. unfold x. rewrite (nv_microbial c l cur upd L nx P).
      apply CL, B.
    + intros P1 B. destruct (E 8%nat ltac:(lia) P1) as [nx [V _]]; try lia.
      change (name x 8) with (oxygenConcentrationIdx x) in V. rewrite V. unfold x.
      rewrite (proj1 (nv_micp c l cur upd L nx P) P1). apply CL, B.
    + intros P1 B. destruct (E 9%nat ltac:(lia) P1) as [nx [V _]]; try lia.
      change (name x 9) with (ureaConcentrationIdx x) in V. rewrite V. unfold x.
      rewrite (proj1 (proj2 (nv_micp c l cur upd L nx P)) P1). apply CL, B.
    + intros P1 B. destruct (E 10%nat ltac:(lia) P1) as [nx [V _]]; try lia.
      change (name x 10) with (biofilmConcentrationIdx x) in V. rewrite V. unfold x.
      rewrite (proj1 (proj2 (proj2 (nv_micp c l cur upd L nx P))) P1). apply CL, B.
    + intros P1 B. destruct (E 11%nat ltac:(lia) P1) as [nx [V _]]; try lia.
      change (name x 11) with (calciteConcentrationIdx x) in V. rewrite V. unfold x.
      rewrite (proj2 (proj2 (proj2 (nv_micp c l cur upd L nx P))) P1). apply CL, B.
Qed.
Print Assumptions C48_extension_variables_in_range.

(** ** All cells *)

(** The number of switched cells which the Newton method reports is the number of cells whose
    update switched. *)
Theorem C48_switched_cells_counted : forall c l cells results n,
  update_cells c l cells = (results, n) ->
  length results = length cells /\
  n = length (filter (fun r => snd r) results) /\
  (forall k f was v upd, nth_error cells k = Some (f, was, v, upd) ->
     nth_error results k = Some (update_cell c l v upd f was v)).
Proof.
  intros c l cells. induction cells as [|[[[f was] v] upd] cells IH]; intros results n H; cbn [update_cells] in H.
  - injection H as <- <-. cbn. repeat split. intros k f was v upd K. destruct k; discriminate.
  - destruct (update_cells c l cells) as [rest m] eqn:E. destruct (IH rest m eq_refl) as [I1 [I2 I3]].
    assert (R : results = update_cell c l v upd f was v :: rest) by congruence.
    assert (Q0 : n = if snd (update_cell c l v upd f was v) then S m else m) by congruence. clear H. subst results.
    split; [cbn; congruence|]. split.
    + rewrite Q0. cbn [filter]. destruct (snd (update_cell c l v upd f was v)); cbn [length]; congruence.
    + intros k f' was' v' upd' K. destruct k as [|k]; cbn in K |- *; [congruence|]. exact (I3 k f' was' v' upd' K).
Qed.
Print Assumptions C48_switched_cells_counted.

(** ** Examples *)

(** A cell in which a huge update removes the gas: the gas saturation becomes a dissolution
    factor, and the saturations move by less than the maximum. *)
Example gas_disappears :
  let c := gas_condensate false in
  let cur := cell (1#5) 100 (1#10) 0 SDisabled in
  let r := update_cell c usual_limits cur (values (-(1#10)) 90 7 0) simple_fluid false cur in
  layout (idx c) /\ in_use c cur /\ sensible c /\ meanings_fit c cur /\ pressure_fits c cur /\
  nonneg_fluid simple_fluid /\
  fraction (iq_sw c cur) /\ fraction (iq_so c cur) /\ fraction (iq_sg c cur) /\
  snd r = true /\ m_gas (fst r) = Rs /\ val (fst r) 2 == 1#2 /\
  val (fst r) 1 == 70 /\ iq_sg c (fst r) == 0.
Proof.
  cbv zeta. split; [apply gas_condensate_layout|].
  split; [repeat split; intros X; vm_compute; try discriminate; exfalso; apply X; reflexivity|].
  split; [repeat split; intros; discriminate || reflexivity|].
  split; [repeat split; intros; discriminate|].
  split; [reflexivity|].
  split; [repeat split; intros; vm_compute; discriminate|].
  repeat split; vm_compute; try discriminate; reflexivity.
Qed.

(** Solvent: the update asks for more than there is. *)
Example solvent_used_up :
  let c := gas_condensate true in
  let cur := cell (3#10) 100 (3#10) (1#20) Ss in
  let r := update_cell c usual_limits cur (values 0 0 0 (1#5)) simple_fluid false cur in
  in_use c cur /\ m_solvent (fst r) = Ss /\ val (fst r) 3 == 0.
Proof. cbv zeta. split; [repeat split; intros X; vm_compute; try discriminate; exfalso; apply X; reflexivity|]. vm_compute. auto. Qed.

(** Polymer and temperature in one model. *)
Example polymer_and_temperature :
  let c := mkConfig (three_phase (mkParams 0 0 2 1 false false 0 0)) true true true false false true true false false false in
  let cur := mkVars (fun _ => 1) Sw Po Sg BDisabled SDisabled in
  let r := update_cell c usual_limits cur (fun _ => 3) simple_fluid false cur in
  (0 <= polymerMoleWeightIdx (idx c))%Z /\ (0 <= temperatureIdx (idx c))%Z /\
  val (fst r) (polymerConcentrationIdx (idx c)) == 0 /\
  val (fst r) (polymerMoleWeightIdx (idx c)) == 0 /\ val (fst r) (temperatureIdx (idx c)) == 0.
Proof. cbv zeta. repeat split; vm_compute; discriminate || reflexivity. Qed.
