(** Properties C49, C50 and C66: normalisation, switching and assignment of the black-oil
    primary variables. *)
From Verif Require Import BoVarsModel BoVarsSpec BoVarsProofs BoStableProofs BoContProofs.

(** * Concrete models for the counterexamples and the examples *)

(** Water, oil and gas, with dissolved gas and vaporized oil, optionally with solvent. *)
Definition gas_condensate (solvent : bool) : config :=
  mkConfig (three_phase (mkParams (if solvent then 1 else 0) 0 0 0 false false 0 0))
           true true true solvent false true true false false false.
(** Water, oil and gas with brine and salt precipitation. *)
Definition salty : config :=
  mkConfig (three_phase (mkParams 0 0 0 0 false true 0 0))
           true true true false true true true false false false.
(** Water and oil. *)
Definition water_oil : config :=
  mkConfig (two_phase 2 (mkParams 0 0 0 0 false false 0 0))
           true true false false false false false false false false.

(** Constant fluid properties; linear capillary pressures. *)
Definition simple_fluid : fluid :=
  mkFluid 1 (1#4) (fun _ _ => 1#10) None (fun so sg sw => (- sw, 0, sg))
          (fun _ _ => 1#100) (fun _ _ => 1#100) (fun _ _ _ => 1#2) (fun _ _ => 1#10)
          0 1000 1000.

Definition values (w p g x : Q) : Z -> Q := fun i =>
  if (i =? 0)%Z then w else if (i =? 1)%Z then p else if (i =? 2)%Z then g else x.

Lemma simple_pc : proper_pc simple_fluid.
Proof. intros so sg sw so' sg' sw' H1 H2 H3. cbn. rewrite H2, H3. repeat split; reflexivity. Qed.

(** * C49 *)

(** After the normalisation all saturations are fractions and add up to one: the saturation
    which is no variable is the rest. The other variables and all interpretations stay. *)
Theorem C49_saturations_physical : forall c v v' b,
  separate c v -> ~ single_phase v -> chop c v = (v', b) ->
  fraction (water_of c v') /\ fraction (gas_of c v') /\ fraction (solvent_of c v') /\
  fraction (rest_of c v') /\
  water_of c v' + gas_of c v' + solvent_of c v' + rest_of c v' == 1 /\
  same_meanings v' v /\
  (forall i, ~ (m_water v = Sw /\ i = waterSwitchIdx (idx c)) ->
             ~ (m_gas v = Sg /\ i = compositionSwitchIdx (idx c)) ->
             ~ (m_solvent v = Ss /\ i = solventSaturationIdx (idx c)) -> val v' i = val v i).
Proof.
  intros c v v' b S N H. destruct (chop_physical c v v' b S N H) as [P1 [P2 [P3 P4]]].
  destruct (chop_effect c v v' b S N H) as [M [_ [_ [_ [O _]]]]].
  repeat (split; [assumption|]). split; [unfold rest_of; ring|]. split; assumption.
Qed.
Print Assumptions C49_saturations_physical.

(** Each saturation is the cut one divided by the sum of the cut ones. *)
Theorem C49_saturations_scaled : forall c v v' b,
  separate c v -> ~ single_phase v -> chop c v = (v', b) ->
  exists k, 0 < k /\ k <= 1 /\
    (forall x x', In (x, x') [(water_of c v, water_of c v'); (gas_of c v, gas_of c v');
                              (solvent_of c v, solvent_of c v'); (rest_of c v, rest_of c v')] ->
      (x <= 0 -> x' == 0) /\ (0 <= x <= 1 -> x' == k * x) /\ (1 <= x -> x' == k)).
Proof.
  intros c v v' b S N H. destruct (chop_values c v v' b S N H) as [W [G [V R]]].
  pose proof (total_ge c v) as T. set (t := total c v) in *. clearbody t.
  assert (K : forall x x', x' == clamp01 x / t ->
    (x <= 0 -> x' == 0) /\ (0 <= x <= 1 -> x' == (1 / t) * x) /\ (1 <= x -> x' == 1 / t)).
  { intros x x' ->. assert (Z0 : ~ t == 0) by lra.
    assert (D0 : 0 / t == 0) by (field; exact Z0).
    destruct (clamp01_spec x) as [[A ->]|[[A [B ->]]|[A ->]]].
    - split; [intros; exact D0|]. split; intros; lra.
    - split; [intros; assert (X : x == 0) by lra; rewrite X; exact D0|].
      split; [intros; field; exact Z0|intros; assert (X : x == 1) by lra; rewrite X; reflexivity].
    - split; [intros; lra|]. split; [intros; lra|reflexivity]. }
  exists (1 / t). split; [apply Qlt_shift_div_l; lra|]. split; [apply Qle_shift_div_r; lra|].
  intros x x' I. cbn in I.
  destruct I as [E|[E|[E|[E|[]]]]]; injection E as <- <-; apply K; assumption.
Qed.
Print Assumptions C49_saturations_scaled.

(** Saturations which are all right are left alone, and repeating the operation changes
    nothing. *)
Theorem C49_repeating_changes_nothing : forall c v,
  separate c v -> ~ single_phase v ->
  (physical c v -> same (fst (chop c v)) v /\ snd (chop c v) = false) /\
  (let v' := fst (chop c v) in same (fst (chop c v')) v' /\ snd (chop c v') = false).
Proof.
  intros c v S N. split.
  - intros P. destruct (chop c v) as [v' b] eqn:H. exact (chop_fixed c v v' b S N P H).
  - cbv zeta. destruct (chop c v) as [v' b] eqn:H. cbn [fst].
    destruct (chop c v') as [v'' b'] eqn:H'. exact (chop_twice c v v' b v'' b' S N H H').
Qed.
Print Assumptions C49_repeating_changes_nothing.

(** The function is documented to return whether it changed something. It does not: it may
    return false although it cut off negative saturations. *)
Theorem C49_report_refuted : exists c v v',
  separate c v /\ ~ single_phase v /\ chop c v = (v', false) /\ ~ physical c v /\ ~ same v' v.
Proof.
  exists (gas_condensate false),
    (mkVars (values (-(1#2)) 100 (3#2) 0) Sw Po Sg BDisabled SDisabled).
  eexists. split; [repeat constructor; cbn; intuition discriminate|].
  split; [intros [? _]; discriminate|].
  split; [unfold chop; cbn -[clamp01]; vm_compute; reflexivity|].
  split.
  - intros [[P _] _]. vm_compute in P. apply P. reflexivity.
  - intros [P _]. specialize (P 0%Z). vm_compute in P. discriminate.
Qed.
Print Assumptions C49_report_refuted.

(** The saturations which the model computes from normalised variables. *)
Theorem C49_evaluated_saturations_partial : forall c v,
  physical c v -> meanings_fit c v ->
  (enableSolvent c = true <-> m_solvent v <> SDisabled) ->
  (m_gas v = Rv \/ m_water v = Rsw -> m_solvent v <> Ss) ->
  (m_water v = Rsw -> oilEnabled c = false) ->
  (oilEnabled c = false -> gasEnabled c = false -> m_solvent v <> Ss) ->
  fraction (iq_sw c v) /\ fraction (iq_so c v) /\ fraction (iq_sg c v) /\
  iq_sw c v + iq_so c v + iq_sg c v + solventSaturation_ c v == 1.
Proof. intros c v P MF HS X1 X2 X3. apply physical_evaluated; assumption. Qed.
Print Assumptions C49_evaluated_saturations_partial.

(** With solvent and without oil the oil saturation is minus the solvent saturation, also
    after normalisation; such a cell is reached by adapting the variables. *)
Theorem C49_evaluated_saturations_refuted : exists c f v v1 v2 b1 b2,
  separate c v /\ meanings_fit c v /\ (enableSolvent c = true <-> m_solvent v <> SDisabled) /\
  adapt c f 1 (99#100) 0 v = (v1, b1) /\ chop c v1 = (v2, b2) /\
  physical c v2 /\ iq_so c v2 < 0.
Proof.
  exists (gas_condensate true), simple_fluid,
    (mkVars (values 0 100 (9#10) (3#10)) Sw Po Sg BDisabled Ss).
  eexists. eexists. eexists. eexists.
  split; [repeat constructor; cbn; intuition discriminate|].
  split; [split; [|split; [|split]]; split || idtac; cbn; discriminate|].
  split; [cbn; split; [discriminate|reflexivity]|].
  split; [vm_compute; reflexivity|]. split; [vm_compute; reflexivity|].
  split; [unfold physical, fraction; vm_compute; repeat split; discriminate|].
  vm_compute. reflexivity.
Qed.
Print Assumptions C49_evaluated_saturations_refuted.

(** * C50 *)

(** The result says exactly whether the interpretation of the pressure, water or gas variable
    changed, if the model has both oil and gas or the cell is not full of water. *)
Theorem C50_changes_reported_partial : forall c f swMax thr eps v v' b,
  (compositionSwitchEnabled c = true \/ read_sw c v < thr \/ disgasw c = true) ->
  adapt c f swMax thr eps v = (v', b) ->
  (b = true <->
   m_water v' <> m_water v \/ m_pressure v' <> m_pressure v \/ m_gas v' <> m_gas v).
Proof.
  intros c f swMax thr eps v v' b HC H.
  assert (HC' : compositionSwitchEnabled c = true \/ m_gas v = Sg \/ read_sw c v < thr \/ disgasw c = true)
    by tauto.
  pose proof (adapt_reports c f _ _ _ _ _ _ HC' H) as R. unfold three in R.
  assert (D1 : m_water v' = m_water v \/ m_water v' <> m_water v) by
    (destruct (m_water v'), (m_water v); auto; right; discriminate).
  assert (D2 : m_pressure v' = m_pressure v \/ m_pressure v' <> m_pressure v) by
    (destruct (m_pressure v'), (m_pressure v); auto; right; discriminate).
  assert (D3 : m_gas v' = m_gas v \/ m_gas v' <> m_gas v) by
    (destruct (m_gas v'), (m_gas v); auto; right; discriminate).
  split.
  - intros ->. destruct R as [_ R].
    destruct D1 as [D1|D1]; [|auto]. destruct D2 as [D2|D2]; [|auto]. destruct D3 as [D3|D3]; [|auto].
    discriminate (R (conj D1 (conj D2 D3))).
  - intros X. destruct b; [reflexivity|]. destruct R as [R _]. destruct (R eq_refl) as [E1 [E2 E3]].
    destruct X as [X|[X|X]]; congruence.
Qed.
Print Assumptions C50_changes_reported_partial.

(** Precipitating salt is a change of interpretation which is not reported, and in a
    water-oil model a cell full of water is reported although nothing changed. *)
Theorem C50_changes_reported_refuted :
  (exists c f swMax thr eps v v', separate c v /\ meanings_fit c v /\ pressure_fits c v /\
     adapt c f swMax thr eps v = (v', false) /\ m_brine v = Cs /\ m_brine v' = Sp) /\
  (exists c f swMax thr eps v v', separate c v /\ meanings_fit c v /\ pressure_fits c v /\
     adapt c f swMax thr eps v = (v', true) /\ same v' v).
Proof.
  split.
  - exists salty, simple_fluid, 1, (99#100), 0.
    exists (mkVars (values (1#2) 100 (1#5) (1#2)) Sw Po Sg Cs SDisabled).
    eexists. split; [repeat constructor; cbn; intuition discriminate|].
    split; [split; [|split; [|split]]; split || idtac; cbn; discriminate|].
    split; [reflexivity|]. split; [vm_compute; reflexivity|]. split; reflexivity.
  - exists water_oil, simple_fluid, 1, (99#100), 0.
    exists (mkVars (values 1 100 0 0) Sw Po GDisabled BDisabled SDisabled).
    exists (set 0%Z (qmin 1 1) (mkVars (values 1 100 0 0) Sw Po GDisabled BDisabled SDisabled)).
    split; [repeat constructor; cbn; intuition discriminate|].
    split; [split; [|split; [|split]]; try split; cbn; try discriminate; try reflexivity|].
    split; [reflexivity|]. split; [reflexivity|].
    split; [|repeat split]. intros i. unfold set. cbn [val]. unfold values.
    destruct (i =? 0)%Z; reflexivity.
Qed.
Print Assumptions C50_changes_reported_refuted.

(** The pressure variable belongs to a phase which the other interpretations call present,
    for all states reached from an assignment by value changes and adaptations, as long as no
    cell without an oil phase is treated as full of water. *)
Theorem C50_pressure_interpretation_partial : forall c,
  sensible c -> (waterEnabled c = true \/ oilEnabled c = true \/ gasEnabled c = true) ->
  forall v, reachable c (not_water_filled_gas c) v -> pressure_fits c v /\ meanings_fit c v.
Proof. intros c S A v R. exact (reachable_good c S A v R). Qed.
Print Assumptions C50_pressure_interpretation_partial.

(** Otherwise the gas saturation can be a variable together with the gas pressure, and then
    the gas dissolution factor together with the gas pressure. *)
Theorem C50_pressure_interpretation_refuted : exists c v w,
  sensible c /\ reachable c (fun _ _ => True) v /\ reachable c (fun _ _ => True) w /\
  m_gas v = Sg /\ m_pressure v = Pg /\ ~ pressure_fits c v /\
  m_gas w = Rs /\ m_pressure w = Pg.
Proof.
  set (c := gas_condensate false).
  set (s := mkState (1#2, 0, 1#2) (100, 100, 100) 0 0 0 (1#20) 0).
  set (v0 := assign c simple_fluid s (mkVars (values 0 0 0 0) Sw Po Sg BDisabled SDisabled)).
  set (v1 := mkVars (values 1 100 (1#20) 0) (m_water v0) (m_pressure v0) (m_gas v0)
                    (m_brine v0) (m_solvent v0)).
  set (v2 := fst (adapt c simple_fluid 1 (99#100) 0 v1)).
  set (v3 := mkVars (values (1#2) 100 (-(1#10)) 0) (m_water v2) (m_pressure v2) (m_gas v2)
                    (m_brine v2) (m_solvent v2)).
  set (v4 := fst (adapt c simple_fluid 1 (99#100) 0 v3)).
  exists c, v2, v4.
  assert (R0 : reachable c (fun _ _ => True) v0) by apply r_assign.
  assert (R1 : reachable c (fun _ _ => True) v1)
    by (apply (r_values c _ v0 v1 R0); repeat split).
  assert (R2 : reachable c (fun _ _ => True) v2) by (apply r_adapt; auto).
  assert (R3 : reachable c (fun _ _ => True) v3)
    by (apply (r_values c _ v2 v3 R2); repeat split).
  assert (R4 : reachable c (fun _ _ => True) v4) by (apply r_adapt; auto).
  split; [unfold sensible; cbn; repeat split; try discriminate; auto|].
  split; [exact R2|]. split; [exact R4|].
  split; [vm_compute; reflexivity|]. split; [vm_compute; reflexivity|].
  split; [vm_compute; discriminate|]. split; vm_compute; reflexivity.
Qed.
Print Assumptions C50_pressure_interpretation_refuted.

(** Adapting twice in a row changes nothing the second time, unless the tolerance gets
    smaller; so switching does not alternate between two interpretations without new values.
    For models with oil and gas, without salt precipitation, soluble solvent, vaporized
    water and gas dissolved in water. *)
Theorem C50_second_call_changes_nothing_partial : forall c f swMax thr eps eps' v,
  enableSaltPrecipitation c = false -> enableSolvent c && soluble c = false ->
  vapwat c = false -> disgasw c = false ->
  ~ f_scale f == 0 -> (forall p s m, 0 <= f_rsSat f p s m) -> (forall p m, 0 <= f_rvSat f p m) ->
  (forall p q m, p == q -> f_rvSat f p m == f_rvSat f q m) ->
  0 <= eps -> 0 <= eps' -> (eps <= eps' \/ snd (adapt c f swMax thr eps v) = true) ->
  separate c v -> meanings_fit c v -> oilEnabled c && gasEnabled c = true ->
  compositionSwitchEnabled c = true ->
  let v' := fst (adapt c f swMax thr eps v) in
  same (fst (adapt c f swMax thr eps' v')) v' /\ snd (adapt c f swMax thr eps' v') = false.
Proof.
  intros c f swMax thr eps eps' v H1 H2 H3 H4 H5 H6 H7 H8 P P' EB S MF OG CE.
  destruct (adapt c f swMax thr eps v) as [v' b] eqn:H. cbn [fst snd] in *. cbv zeta.
  destruct (adapt c f swMax thr eps' v') as [v'' b'] eqn:H'. cbn [fst snd].
  assert (G : m_gas v <> GDisabled).
  { intros E. destruct MF as [MF _]. apply MF in E. congruence. }
  exact (adapt_twice c f H1 H2 H3 H4 H5 H6 H7 H8 swMax thr eps eps' v v' b v'' b' P P' EB S MF G CE H H').
Qed.
Print Assumptions C50_second_call_changes_nothing_partial.

(** A phase appears without a jump: if no saturation stops being a variable, the adapted
    variables describe the same saturations and phase pressures. Without solvent and salt
    precipitation, and outside of the special treatment of cells full of water. *)
Theorem C50_phase_appears_without_jump_partial : forall c f swMax thr eps v,
  enableSolvent c = false -> enableSaltPrecipitation c = false ->
  ~ f_scale f == 0 -> proper_pc f -> sensible c ->
  separate c v -> meanings_fit c v -> pressure_fits c v -> m_brine v <> Sp ->
  (read_sw c v < thr \/ disgasw c = true) ->
  let v' := fst (adapt c f swMax thr eps v) in
  nothing_vanishes v v' -> same_fluid c f v' v.
Proof.
  intros c f swMax thr eps v H1 H2 H3 H4 SE S MF PF NB NW v' NV.
  subst v'. destruct (adapt c f swMax thr eps v) as [v' b] eqn:H. cbn [fst] in *.
  exact (adapt_appear c f H1 H3 H4 H2 SE swMax thr eps v v' b S MF PF NB NW H NV).
Qed.
Print Assumptions C50_phase_appears_without_jump_partial.

(** * C66 *)

(** A fluid state in equilibrium which is stored as primary variables is recovered by the
    model: same saturations and same phase pressures, also if phases are absent. *)
Theorem C66_stored_state_recovered : forall c f,
  enableSolvent c = false -> enableSaltPrecipitation c = false ->
  ~ f_scale f == 0 -> proper_pc f -> sensible c ->
  (waterEnabled c = true \/ oilEnabled c = true \/ gasEnabled c = true) ->
  forall s v, let v' := assign c f s v in
  separate c v' -> equilibrium c f s ->
  iq_sw c v' == pcw (s_sat s) /\ iq_so c v' == pco (s_sat s) /\ iq_sg c v' == pcg (s_sat s) /\
  pcw (iq_pressures c f v') == pcw (s_p s) /\
  pco (iq_pressures c f v') == pco (s_p s) /\
  pcg (iq_pressures c f v') == pcg (s_p s).
Proof.
  intros c f H1 H2 H3 H4 SE A s v v' S E.
  exact (assign_round_trip c f H1 H3 H4 H2 SE A s v S E).
Qed.
Print Assumptions C66_stored_state_recovered.

(** Without the restriction that gas dissolves in water only in models without oil, water and
    oil turn into water. *)
Theorem C66_gas_in_water_with_oil_refuted : exists c f s v,
  let v' := assign c f s v in
  disgasw c = true /\ oilEnabled c = true /\ separate c v' /\ equilibrium c f s /\
  pco (s_sat s) == 1#2 /\ iq_so c v' == 0 /\ iq_sw c v' == 1.
Proof.
  exists (mkConfig (three_phase (mkParams 0 0 0 0 false false 0 0))
                   true true true false false true true false true false).
  exists simple_fluid, (mkState (1#2, 1#2, 0) (100 - (1#2), 100, 100) 0 (1#100) 0 0 0).
  exists (mkVars (values 0 0 0 0) Sw Po Sg BDisabled SDisabled).
  cbv zeta. split; [reflexivity|]. split; [reflexivity|].
  split; [vm_compute; repeat constructor; cbn; intuition discriminate|].
  split; [unfold equilibrium; vm_compute; repeat split; intros; discriminate|].
  vm_compute. repeat split; reflexivity.
Qed.
Print Assumptions C66_gas_in_water_with_oil_refuted.

(** * Examples *)

(** Oil evaporates completely, and condenses again. *)
Example oil_vanishes_and_appears :
  let c := gas_condensate false in
  let v := mkVars (values (1#10) 100 (19#20) 0) Sw Po Sg BDisabled SDisabled in
  let v1 := fst (adapt c simple_fluid 1 (99#100) 0 v) in
  m_gas v1 = Rv /\ m_pressure v1 = Pg /\
  let v2 := mkVars (values (1#10) 100 (1#5) 0) Sw Pg Rv BDisabled SDisabled in
  let v3 := fst (adapt c simple_fluid 1 (99#100) 0 v2) in
  m_gas v3 = Sg /\ m_pressure v3 = Po /\ same_fluid c simple_fluid v3 v2 /\
  val v3 2%Z == 9#10 /\ val v3 1%Z == 100 - (9#10).
Proof.
  cbv zeta. split; [vm_compute; reflexivity|]. split; [vm_compute; reflexivity|].
  split; [vm_compute; reflexivity|]. split; [vm_compute; reflexivity|].
  split; [|split; vm_compute; reflexivity].
  apply C50_phase_appears_without_jump_partial; try reflexivity.
  - discriminate.
  - exact simple_pc.
  - unfold sensible; cbn; repeat split; try discriminate; auto.
  - repeat constructor; cbn; intuition discriminate.
  - split; [|split; [|split]]; split || idtac; cbn; discriminate.
  - discriminate.
  - left. vm_compute. reflexivity.
  - split; [intros _; vm_compute; reflexivity|discriminate].
Qed.

(** Initial state of a cell with water, oil and gas. *)
Example initial_cell :
  let c := gas_condensate false in
  let s := mkState (1#5, 1#2, 3#10) (100 - (1#5), 100, 100 + (3#10)) 0 0 0 0 0 in
  let v := assign c simple_fluid s (mkVars (values 0 0 0 0) Sw Po Sg BDisabled SDisabled) in
  m_gas v = Sg /\ m_water v = Sw /\ iq_so c v == 1#2 /\
  pcg (iq_pressures c simple_fluid v) == 100 + (3#10).
Proof.
  cbv zeta. split; [reflexivity|]. split; [reflexivity|].
  match goal with |- context [assign ?c ?f ?st ?vv] =>
    destruct (C66_stored_state_recovered c f) with (s := st) (v := vv)
      as [_ [E1 [_ [_ [_ E2]]]]] end; try reflexivity.
  - discriminate.
  - exact simple_pc.
  - unfold sensible; cbn; repeat split; try discriminate; auto.
  - left; reflexivity.
  - repeat constructor; cbn; intuition discriminate.
  - unfold equilibrium; vm_compute; repeat split; intros; discriminate.
  - split; [exact E1|exact E2].
Qed.

(** The tolerance case: a slightly negative gas saturation is kept, a clear one is not. *)
Example tolerance :
  let c := gas_condensate false in
  let v := mkVars (values (1#2) 100 (-(1#1000)) 0) Sw Po Sg BDisabled SDisabled in
  snd (adapt c simple_fluid 1 (99#100) (1#100) v) = false /\
  snd (adapt c simple_fluid 1 (99#100) 0 v) = true /\
  let v' := fst (adapt c simple_fluid 1 (99#100) 0 v) in
  snd (adapt c simple_fluid 1 (99#100) (1#100) v') = false.
Proof.
  cbv zeta. split; [vm_compute; reflexivity|]. split; [vm_compute; reflexivity|].
  apply C50_second_call_changes_nothing_partial; try reflexivity;
    try (cbn; intros; vm_compute; discriminate); try (left; vm_compute; discriminate).
  - repeat constructor; cbn; intuition discriminate.
  - split; [|split; [|split]]; split || idtac; cbn; discriminate.
Qed.
