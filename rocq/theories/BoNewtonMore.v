From Verif Require Import BoNewtonModel BoNewtonSpec BoVarsProofs BoStableProofs BoContProofs BoNewtonProofs BoNewtonEffect BoNewtonSat.

Local Arguments Qplus : simpl never.
Local Arguments Qminus : simpl never.
Local Arguments Qmult : simpl never.
Local Arguments Qdiv : simpl never.
Local Arguments Qopp : simpl never.

Section More.
Variable c : config.
Variable f : fluid.
Local Notation x := (idx c).
Hypothesis L : layout x.

(** * The pressure while switching *)
Lemma water_pressure_value : forall eps salt pcf sw sg v v1 b,
  water_stage c f eps salt pcf sw sg v = (v1, b) ->
  waterSwitchIdx x <> pressureSwitchIdx x \/ m_water v = WDisabled ->
  val v1 (pressureSwitchIdx x) = val v (pressureSwitchIdx x) \/
  (m_water v = Sw /\ m_water v1 = Rsw) \/ (m_water v = Rsw /\ m_water v1 = Sw).
Proof.
  intros eps salt pcf sw sg v v1 b H N. unfold water_stage in H.
  assert (E : v1 = fst (v1, b)) by reflexivity. rewrite <- H in E. clear H.
  destruct N as [N|N]; [|rewrite N in E; left; rewrite E; reflexivity].
  destruct (m_water v) eqn:EW;
    repeat match type of E with context [if ?b then _ else _] => destruct b end;
    cbn [fst] in E; rewrite E; auto; left; rewrite set_away by auto; reflexivity.
Qed.

Lemma gas_pressure_value : forall eps pcf sw sg v v1 b,
  gas_stage c f eps pcf sw sg v = (v1, b) ->
  compositionSwitchIdx x <> pressureSwitchIdx x \/ m_gas v = GDisabled ->
  val v1 (pressureSwitchIdx x) = val v (pressureSwitchIdx x) \/
  (m_gas v = Sg /\ m_gas v1 = Rv) \/ (m_gas v = Rv /\ m_gas v1 = Sg).
Proof.
  intros eps pcf sw sg v v1 b H N. unfold gas_stage, sg_to_rs, sg_to_rv in H.
  assert (E : v1 = fst (v1, b)) by reflexivity. rewrite <- H in E. clear H.
  destruct N as [N|N]; [|rewrite N in E; left; rewrite E; reflexivity].
  destruct (m_gas v) eqn:EW;
    repeat match type of E with context [if ?b then _ else _] => destruct b end;
    cbn [fst] in E; rewrite E; auto; left; rewrite set_away by auto; reflexivity.
Qed.

Lemma adapt_pressure_value : sensible c -> forall swMax thr eps v v' b,
  in_use c v -> meanings_fit c v -> pressure_fits c v ->
  adapt c f swMax thr eps v = (v', b) -> m_pressure v' = m_pressure v ->
  val v' (pressureSwitchIdx x) = val v (pressureSwitchIdx x).
Proof.
  intros SE swMax thr eps v v' b U MF PF H M.
  destruct (adapt_cases c f _ _ _ _ _ _ H) as [[_ [_ [-> _]]]|[N [v1 [salt [EB X]]]]]; [reflexivity|].
  cbv zeta in X.
  pose proof (proj1 (proj2 (proj2 L))) as U0.
  assert (D1 : pressureSwitchIdx x <> waterSwitchIdx x) by (exact (differ c L 0 1 ltac:(lia) ltac:(lia) ltac:(lia) U0)).
  assert (D2 : pressureSwitchIdx x <> compositionSwitchIdx x) by (exact (differ c L 0 2 ltac:(lia) ltac:(lia) ltac:(lia) U0)).
  assert (D3 : pressureSwitchIdx x <> solventSaturationIdx x) by (exact (differ c L 0 3 ltac:(lia) ltac:(lia) ltac:(lia) U0)).
  assert (D4 : pressureSwitchIdx x <> saltConcentrationIdx x) by (exact (differ c L 0 13 ltac:(lia) ltac:(lia) ltac:(lia) U0)).
  destruct (brine_meanings c f _ _ _ _ EB) as [B1 [B2 [B3 B4]]].
  destruct (solvent_meanings c f eps salt v1) as [S1 [S2 [S3 S4]]].
  pose proof (solvent_frame c f eps salt v1 _ D3) as FS.
  pose proof (brine_frame c f eps v v1 salt _ EB D4) as FB.
  rewrite <- FB, <- FS. clear FB FS.
  set (v2 := solvent_stage c f eps salt v1) in *. clearbody v2.
  rewrite B1 in S1. rewrite B2 in S2. rewrite B3 in S3.
  assert (G2 : pressure_fits c v2 /\ meanings_fit c v2).
  { unfold pressure_fits, meanings_fit. rewrite S1, S2, S3. split; assumption. }
  rewrite <- S3 in M. clear EB B1 B2 B3 B4 S4 v1 MF PF U N.
  clear S1 S2 S3 H.
  destruct X as [[_ [_ W]]|[_ [v3 [c1 [c2 [W [G _]]]]]]].
  - exact (water_filled_frame c _ _ _ _ _ _ W D1 D2).
  - destruct (water_good c f SE _ _ _ _ _ v2 v3 c1 G2 W) as [PF3 MF3].
    destruct G2 as [PF2 MF2].
    destruct (water_meanings c f _ _ _ _ _ _ _ _ W) as [M1 _].
    destruct SE as [_ [_ [SE3 [SE4 _]]]].
    assert (P3 : val v3 (pressureSwitchIdx x) = val v2 (pressureSwitchIdx x) \/
                 (m_gas v2 = GDisabled /\ m_pressure v3 <> m_pressure v2)).
    { destruct (water_pressure_value _ _ _ _ _ _ _ _ W (or_introl (not_eq_sym D1))) as [E|[[E1 E2]|[E1 E2]]]; [auto| |].
      - assert (DW : disgasw c = true) by (apply (proj1 (proj2 (proj2 MF3))); exact E2).
        destruct (SE4 DW) as [O [WE GE]]. right.
        assert (GD : m_gas v2 = GDisabled) by (apply (proj1 MF2); rewrite O; reflexivity).
        split; [exact GD|]. unfold pressure_fits in PF2, PF3.
        rewrite M1, GD, O, GE, E2 in PF3. rewrite GD, O, GE, E1 in PF2. congruence.
      - assert (DW : disgasw c = true) by (apply (proj1 (proj2 (proj2 MF2))); exact E1).
        destruct (SE4 DW) as [O [WE GE]]. right.
        assert (GD : m_gas v2 = GDisabled) by (apply (proj1 MF2); rewrite O; reflexivity).
        split; [exact GD|]. unfold pressure_fits in PF2, PF3.
        rewrite M1, GD, O, GE, E2 in PF3. rewrite GD, O, GE, E1 in PF2. congruence. }
    destruct (gas_good c f _ _ _ _ _ _ _ (conj PF3 MF3) G) as [PF4 MF4].
    destruct (gas_pressure_value _ _ _ _ _ _ _ G (or_introl (not_eq_sym D2))) as [E|[[E1 E2]|[E1 E2]]].
    + destruct P3 as [P3|[P3 P4]]; [congruence|].
      exfalso. destruct (gas_meanings c f _ _ _ _ _ _ _ G) as [_ [_ [_ [G4 [_ G6]]]]].
      rewrite <- M1 in P3. rewrite (G4 (G6 P3)) in M. congruence.
    + exfalso. unfold pressure_fits in PF4, PF3, PF2. rewrite E2 in PF4. rewrite E1 in PF3.
      rewrite <- M1, E1 in PF2. congruence.
    + exfalso. unfold pressure_fits in PF4, PF3, PF2. rewrite E2 in PF4. rewrite E1 in PF3.
      rewrite <- M1, E1 in PF2. congruence.
Qed.

(** * The solvent while switching *)
Lemma adapt_solvent_value : forall swMax thr eps v v' b, 0 <= eps ->
  nonneg_fluid f -> (0 <= solventSaturationIdx x)%Z ->
  adapt c f swMax thr eps v = (v', b) ->
  0 <= val v (solventSaturationIdx x) ->
  (m_solvent v = Ss -> val v (solventSaturationIdx x) <= 1) ->
  0 <= val v' (solventSaturationIdx x) /\
  (m_solvent v' = Ss -> val v' (solventSaturationIdx x) <= 1) /\
  (m_solvent v = Ss -> m_solvent v' = Ss).
Proof.
  intros swMax thr eps v v' b P NF U H V0 V1.
  destruct (adapt_cases c f _ _ _ _ _ _ H) as [[_ [_ [-> _]]]|[N [v1 [salt [EB X]]]]]; [auto|].
  cbv zeta in X.
  assert (D0 : solventSaturationIdx x <> pressureSwitchIdx x) by (exact (differ c L 3 0 ltac:(lia) ltac:(lia) ltac:(lia) U)).
  assert (D1 : solventSaturationIdx x <> waterSwitchIdx x) by (exact (differ c L 3 1 ltac:(lia) ltac:(lia) ltac:(lia) U)).
  assert (D2 : solventSaturationIdx x <> compositionSwitchIdx x) by (exact (differ c L 3 2 ltac:(lia) ltac:(lia) ltac:(lia) U)).
  assert (D4 : solventSaturationIdx x <> saltConcentrationIdx x) by (exact (differ c L 3 13 ltac:(lia) ltac:(lia) ltac:(lia) U)).
  destruct (brine_meanings c f _ _ _ _ EB) as [B1 [B2 [B3 B4]]].
  pose proof (brine_frame c f eps v v1 salt _ EB D4) as FB.
  rewrite <- FB in V0, V1. rewrite <- B4 in V1 |- *.
  assert (X2 : 0 <= val (solvent_stage c f eps salt v1) (solventSaturationIdx x) /\
    (m_solvent (solvent_stage c f eps salt v1) = Ss -> val (solvent_stage c f eps salt v1) (solventSaturationIdx x) <= 1) /\
    (m_solvent v1 = Ss -> m_solvent (solvent_stage c f eps salt v1) = Ss)).
  { unfold solvent_stage. destruct (enableSolvent c && soluble c); [|auto].
    destruct (m_solvent v1) eqn:E.
    - replace (Qltb (val v1 (solventSaturationIdx x)) (- eps)) with false by (symmetry; apply Qltb_ge; lra).
      rewrite E. auto.
    - destruct (Qltb _ _); [|rewrite E; split; [assumption|split; discriminate]].
      rewrite set_same. cbn [m_solvent set set_solvent]. split; [lra|]. split; [intros _; lra|auto].
    - rewrite E. split; [assumption|split; discriminate]. }
  set (v2 := solvent_stage c f eps salt v1) in *. clearbody v2.
  assert (K : val v' (solventSaturationIdx x) = val v2 (solventSaturationIdx x) /\ m_solvent v' = m_solvent v2).
  { destruct X as [[_ [_ W]]|[_ [v3 [c1 [c2 [W [G _]]]]]]].
    - split; [exact (water_filled_frame c _ _ _ _ _ _ W D1 D2)|].
      apply (water_filled_meanings c _ _ _ _ _ W).
    - split.
      + rewrite (gas_frame c f _ _ _ _ _ _ _ _ G D2 D0). exact (water_frame c f _ _ _ _ _ _ _ _ _ W D1 D0).
      + destruct (gas_meanings c f _ _ _ _ _ _ _ G) as [_ [_ [G3 _]]].
        destruct (water_meanings c f _ _ _ _ _ _ _ _ W) as [_ [_ [M3 _]]]. congruence. }
  destruct K as [-> ->]. exact X2.
Qed.

(** * Brine while switching *)
Lemma adapt_salt_value : forall swMax thr eps v v' b,
  (0 <= saltConcentrationIdx x)%Z -> nonneg_fluid f ->
  adapt c f swMax thr eps v = (v', b) ->
  (enableSaltPrecipitation c = false -> val v' (saltConcentrationIdx x) = val v (saltConcentrationIdx x)) /\
  ((m_brine v = Sp -> val v (saltConcentrationIdx x) <= 1 - (1#100000000)) ->
   (m_brine v = Cs -> 0 <= val v (saltConcentrationIdx x)) ->
   (m_brine v' = Sp -> val v' (saltConcentrationIdx x) <= 1 - (1#100000000)) /\
   (m_brine v' = Cs -> 0 <= val v' (saltConcentrationIdx x))).
Proof.
  intros swMax thr eps v v' b U NF H.
  destruct (adapt_cases c f _ _ _ _ _ _ H) as [[_ [_ [-> _]]]|[N [v1 [salt [EB X]]]]]; [auto|].
  cbv zeta in X.
  assert (D0 : saltConcentrationIdx x <> pressureSwitchIdx x) by (exact (differ c L 13 0 ltac:(lia) ltac:(lia) ltac:(lia) U)).
  assert (D1 : saltConcentrationIdx x <> waterSwitchIdx x) by (exact (differ c L 13 1 ltac:(lia) ltac:(lia) ltac:(lia) U)).
  assert (D2 : saltConcentrationIdx x <> compositionSwitchIdx x) by (exact (differ c L 13 2 ltac:(lia) ltac:(lia) ltac:(lia) U)).
  assert (D4 : saltConcentrationIdx x <> solventSaturationIdx x) by (exact (differ c L 13 3 ltac:(lia) ltac:(lia) ltac:(lia) U)).
  assert (K : val v' (saltConcentrationIdx x) = val v1 (saltConcentrationIdx x) /\ m_brine v' = m_brine v1).
  { rewrite <- (solvent_frame c f eps salt v1 _ D4).
    destruct (solvent_meanings c f eps salt v1) as [_ [_ [_ S4]]]. rewrite <- S4.
    set (v2 := solvent_stage c f eps salt v1) in *. clearbody v2.
    destruct X as [[_ [_ W]]|[_ [v3 [c1 [c2 [W [G _]]]]]]].
    - split; [exact (water_filled_frame c _ _ _ _ _ _ W D1 D2)|].
      apply (water_filled_meanings c _ _ _ _ _ W).
    - split.
      + rewrite (gas_frame c f _ _ _ _ _ _ _ _ G D2 D0). exact (water_frame c f _ _ _ _ _ _ _ _ _ W D1 D0).
      + destruct (gas_meanings c f _ _ _ _ _ _ _ G) as [_ [G2 [_ _]]].
        destruct (water_meanings c f _ _ _ _ _ _ _ _ W) as [_ [M2 [_ _]]]. congruence. }
  destruct K as [-> ->]. unfold brine_stage in EB.
  destruct (enableSaltPrecipitation c).
  - split; [discriminate|]. intros A B.
    assert (E : v1 = fst (v1, salt)) by reflexivity. rewrite <- EB in E. clear EB X H N.
    destruct NF as [_ [_ [_ [_ [_ [F _]]]]]].
    destruct (m_brine v) eqn:EBR; try destruct (Qltb _ _); cbn [fst] in E; subst v1;
      rewrite ?set_same; cbn [m_brine set set_brine]; rewrite ?EBR;
      (split; [intros Y|intros Y]); try discriminate; auto; lra.
  - injection EB as <- <-. auto.
Qed.
End More.

(** * Normalising the saturations *)
Lemma normal_one : forall d si sj sk ni nj nk t xi, 0 <= d ->
  0 <= si -> 0 <= sj -> 0 <= sk -> si + sj + sk == 1 -> ni + nj + nk == 1 ->
  within d ni si -> within d nj sj -> within d nk sk ->
  t == clamp01 ni + clamp01 nj + clamp01 nk -> xi == clamp01 ni / t ->
  within d xi si.
Proof.
  intros d si sj sk ni nj nk t xi D P1 P2 P3 E1 E2 [A1 A2] [B1 B2] [C1 C2] T X.
  assert (T1 : 1 <= t).
  { rewrite T. destruct (clamp01_spec ni) as [[? ->]|[[? [? ->]]|[? ->]]];
    destruct (clamp01_spec nj) as [[? ->]|[[? [? ->]]|[? ->]]];
    destruct (clamp01_spec nk) as [[? ->]|[[? [? ->]]|[? ->]]]; lra. }
  assert (Y : xi * t == clamp01 ni) by (rewrite X; field; lra).
  destruct (clamp01_range ni) as [R1 R2].
  assert (X0 : 0 <= xi) by (rewrite X; apply Qle_shift_div_l; lra).
  assert (XC : xi <= clamp01 ni) by (rewrite X; apply Qle_shift_div_r; nra).
  assert (U : xi - si <= d).
  { destruct (clamp01_spec ni) as [[? E]|[[? [? E]]|[? E]]]; rewrite E in XC; lra. }
  split; [|exact U].
  destruct (Qlt_le_dec d si) as [S|S]; [|lra].
  set (m := si - d). assert (M0 : 0 < m) by (unfold m; lra). assert (M1 : m <= 1 - d) by (unfold m; lra).
  assert (N : m * t <= clamp01 ni).
  { rewrite T. unfold m in *.
    destruct (clamp01_spec ni) as [[? ->]|[[? [? ->]]|[? ->]]];
    destruct (clamp01_spec nj) as [[? ->]|[[? [? ->]]|[? ->]]];
    destruct (clamp01_spec nk) as [[? ->]|[[? [? ->]]|[? ->]]]; try (exfalso; lra); nra. }
  assert (Z : m * t <= xi * t) by lra.
  apply Qmult_le_r in Z; [|lra]. unfold m in Z. lra.
Qed.

Lemma clamp01_proper : forall a b, a == b -> clamp01 a == clamp01 b.
Proof.
  intros a b E. destruct (clamp01_spec a) as [[? ->]|[[? [? ->]]|[? ->]]];
    destruct (clamp01_spec b) as [[? ->]|[[? [? ->]]|[? ->]]]; lra.
Qed.

Section Chop.
Variable c : config.

Definition role_a (v : vars) : Prop :=
  iq_sw c v == water_of c v /\ iq_sg0 c v == gas_of c v /\ so_of c v == rest_of c v /\ solvent_of c v == 0.
Definition role_b (v : vars) : Prop :=
  iq_sw c v == water_of c v /\ iq_sg0 c v == rest_of c v /\ so_of c v == gas_of c v /\ solvent_of c v == 0.
Definition role_c (v : vars) : Prop :=
  iq_sw c v == rest_of c v /\ iq_sg0 c v == gas_of c v /\ so_of c v == water_of c v /\ solvent_of c v == 0.

Lemma roles : sensible c -> forall v v', same_meanings v' v -> meanings_fit c v -> ~ single_phase v ->
  m_solvent v <> Ss ->
  (role_a v /\ role_a v') \/ (role_b v /\ role_b v') \/ (role_c v /\ role_c v').
Proof.
  intros [_ [_ [SE3 [SE4 _]]]] v v' [M1 [_ [M3 [_ M5]]]] [MG [MW [MR MV]]] NS SS.
  assert (R1 : m_water v = Rsw -> oilEnabled c = false) by (intros E; apply SE4, MR, E).
  clear SE3 SE4. unfold single_phase in NS.
  unfold role_a, role_b, role_c, so_of, rest_of, iq_sg0, iq_sw, water_of, gas_of, solvent_of.
  rewrite M1, M3, M5. unfold numActivePhases in MW.
  destruct v as [vv mw mp mg mb ms], v' as [vv' mw' mp' mg' mb' ms']; cbn in *. subst mw' mg' ms'.
  destruct c as [ix we oe ge es esp dg vo vw dw so]; cbn in *.
  destruct MG as [MG1 MG2]. destruct MW as [MW1 MW2].
  destruct mw, mg, we, oe, ge; cbn in *;
    try (discriminate (MG1 eq_refl)); try (discriminate (MG2 eq_refl));
    try (discriminate (MW1 eq_refl)); try (discriminate (MW2 eq_refl));
    try (discriminate (R1 eq_refl)); try (exfalso; apply NS; auto; fail);
    destruct ms; try (exfalso; apply SS; reflexivity);
    first [left; repeat split; lra | right; left; repeat split; lra | right; right; repeat split; lra].
Qed.

Lemma chop_saturations : sensible c -> forall v v' b, separate c v -> meanings_fit c v -> ~ single_phase v ->
  m_solvent v <> Ss -> chop c v = (v', b) ->
  exists t, t == clamp01 (iq_sw c v) + clamp01 (so_of c v) + clamp01 (iq_sg0 c v) /\
  iq_sw c v' == clamp01 (iq_sw c v) / t /\ so_of c v' == clamp01 (so_of c v) / t /\
  iq_sg0 c v' == clamp01 (iq_sg0 c v) / t.
Proof.
  intros SE v v' b S MF NS SS H.
  destruct (chop_values c v v' b S NS H) as [W [G [V R]]].
  destruct (chop_effect c v v' b S NS H) as [M _].
  exists (total c v).
  assert (K : total c v == clamp01 (water_of c v) + clamp01 (rest_of c v) + clamp01 (gas_of c v) + clamp01 (solvent_of c v))
    by reflexivity.
  set (t := total c v) in *. clearbody t.
  destruct (roles SE v v' M MF NS SS) as [[[A1 [A2 [A3 A4]]] [B1 [B2 [B3 B4]]]]|[[[A1 [A2 [A3 A4]]] [B1 [B2 [B3 B4]]]]|[[A1 [A2 [A3 A4]]] [B1 [B2 [B3 B4]]]]]];
    rewrite B1, B2, B3, W, G, R, K,
      (clamp01_proper _ _ A1), (clamp01_proper _ _ A2), (clamp01_proper _ _ A3), (clamp01_proper _ _ A4);
    (split; [change (clamp01 0) with 0; ring|]);
    repeat split; reflexivity.
Qed.
End Chop.

(** * The whole update *)
Section Whole.
Variable c : config.
Variable l : limits.
Variable cur : vars.
Variable upd : Z -> Q.
Local Notation x := (idx c).
Hypothesis L : layout x.

Lemma update_split : forall f was v' b, update_cell c l cur upd f was cur = (v', b) ->
  exists v1, adapt c f (waterSaturationMax l) (waterOnlyThreshold l)
                   (if was then oscillationThreshold l else 0) (updated c l cur upd cur) = (v1, b) /\
             v' = if projectSaturations l then fst (chop c v1) else v1.
Proof.
  intros f was v' b H. unfold update_cell in H.
  destruct (adapt _ _ _ _ _ _) as [v1 s] eqn:E. exists v1. split; congruence.
Qed.

Lemma entry : forall k, (k < 15)%nat -> (0 <= name x k)%Z ->
  exists nx, val (updated c l cur upd cur) (name x k) = new_value c l cur upd (name x k) nx /\
             forall j, (0 <= j < name x k)%Z -> val nx j = val (updated c l cur upd cur) j.
Proof.
  intros k K P. destruct (updated_spec c l cur upd cur) as [_ [_ V]].
  apply V. split; [exact P|]. apply (proj1 (proj2 L)). exact K.
Qed.

(** Entries which neither the switching nor the projection touch. *)
Lemma kept : forall f was v' b k, update_cell c l cur upd f was cur = (v', b) ->
  (k < 15)%nat -> (0 <= name x k)%Z -> k <> 0%nat -> k <> 1%nat -> k <> 2%nat -> k <> 3%nat -> k <> 13%nat ->
  val v' (name x k) = val (updated c l cur upd cur) (name x k).
Proof.
  intros f was v' b k H K P N0 N1 N2 N3 N4.
  destruct (update_split _ _ _ _ H) as [v1 [A ->]].
  assert (D : forall j, (j < 15)%nat -> k <> j -> name x k <> name x j)
    by (intros j J N; exact (proj1 L k j K J N P)).
  pose proof (D 0%nat ltac:(lia) N0) as D0. pose proof (D 1%nat ltac:(lia) N1) as D1.
  pose proof (D 2%nat ltac:(lia) N2) as D2. pose proof (D 3%nat ltac:(lia) N3) as D3.
  pose proof (D 13%nat ltac:(lia) N4) as D4.
  rewrite <- (adapt_frame c f _ _ _ _ _ _ _ A D0 D1 D2 D4 D3).
  destruct (projectSaturations l); [|reflexivity].
  apply chop_frame; assumption.
Qed.

Lemma updated_meanings : same_meanings (updated c l cur upd cur) cur.
Proof. exact (proj1 (updated_spec c l cur upd cur)). Qed.

Lemma updated_in_use : in_use c cur -> in_use c (updated c l cur upd cur).
Proof.
  destruct updated_meanings as [M1 [M2 [M3 [M4 M5]]]]. unfold in_use. rewrite M1, M3, M4, M5. auto.
Qed.
Lemma updated_good : meanings_fit c cur -> pressure_fits c cur ->
  meanings_fit c (updated c l cur upd cur) /\ pressure_fits c (updated c l cur upd cur).
Proof.
  destruct updated_meanings as [M1 [M2 [M3 [M4 M5]]]]. unfold meanings_fit, pressure_fits.
  rewrite M1, M2, M3. auto.
Qed.

(** Saturations before the switching. *)
Lemma updated_saturations : in_use c cur -> meanings_fit c cur -> enableSolvent c = false ->
  m_solvent cur = SDisabled -> 0 <= dsMax l ->
  within (dsMax l) (iq_sw c (updated c l cur upd cur)) (iq_sw c cur) /\
  within (dsMax l) (so_of c (updated c l cur upd cur)) (so_of c cur) /\
  within (dsMax l) (iq_sg0 c (updated c l cur upd cur)) (iq_sg0 c cur).
Proof.
  intros [U1 [U2 _]] MF NS SD DS.
  destruct updated_meanings as [M1 [_ [M3 _]]].
  destruct (scaled_all c l cur upd DS) as [SW [SG [_ SO]]].
  set (a := satAlpha c l cur upd) in *.
  assert (SO' : within (dsMax l) ((deltaSw c cur upd + deltaSg c cur upd) * a) 0).
  { unfold deltaSo, deltaSs in SO. rewrite SD in SO. unfold within in *.
    assert (X : (0 - deltaSw c cur upd - deltaSg c cur upd - 0) * a == - ((deltaSw c cur upd + deltaSg c cur upd) * a)) by ring.
    rewrite X in SO. lra. }
  assert (WV : m_water cur = Sw -> val (updated c l cur upd cur) (waterSwitchIdx x) == val cur (waterSwitchIdx x) - deltaSw c cur upd * a).
  { intros E. assert (P : (0 <= name x 1)%Z) by (apply U1; congruence).
    destruct (entry 1 ltac:(lia) P) as [nx [V _]]. change (name x 1) with (waterSwitchIdx x) in *.
    rewrite V, (nv_water c l cur upd L nx P). unfold deltaSw. rewrite E. reflexivity. }
  assert (GV : m_gas cur = Sg -> val (updated c l cur upd cur) (compositionSwitchIdx x) == val cur (compositionSwitchIdx x) - deltaSg c cur upd * a).
  { intros E. assert (P : (0 <= name x 2)%Z) by (apply U2; congruence).
    destruct (entry 2 ltac:(lia) P) as [nx [V _]]. change (name x 2) with (compositionSwitchIdx x) in *.
    rewrite V, (nv_gas c l cur upd L nx P). unfold deltaSg. rewrite E. reflexivity. }
  set (u := updated c l cur upd cur) in *. clearbody u. clear SO.
  assert (SW0 : m_water cur <> Sw -> deltaSw c cur upd * a == 0).
  { intros E. unfold deltaSw. destruct (m_water cur); try congruence; ring. }
  assert (SG0 : m_gas cur <> Sg -> deltaSg c cur upd * a == 0).
  { intros E. unfold deltaSg. destruct (m_gas cur); try congruence; ring. }
  assert (DD : (deltaSw c cur upd + deltaSg c cur upd) * a == deltaSw c cur upd * a + deltaSg c cur upd * a) by ring.
  unfold within in *. rewrite DD in SO'. clear DD.
  set (dw := deltaSw c cur upd * a) in *. set (dg := deltaSg c cur upd * a) in *. clearbody dw dg.
  assert (WI : iq_sw c u == iq_sw c cur \/ iq_sw c u == iq_sw c cur - dw).
  { unfold iq_sw. rewrite M1. destruct (waterEnabled c); [|left; reflexivity].
    destruct (m_water cur); try (left; reflexivity). right. apply WV. reflexivity. }
  assert (GI : m_gas cur = Sg -> iq_sg0 c u == iq_sg0 c cur - dg).
  { intros E. destruct MF as [F _].
    assert (OG : oilEnabled c && gasEnabled c = true).
    { destruct (oilEnabled c && gasEnabled c); [reflexivity|]. exfalso. rewrite E in F. discriminate (proj2 F eq_refl). }
    apply andb_true_iff in OG as [_ OG]. unfold iq_sg0. rewrite OG, M3, E. apply GV, E. }
  unfold so_of.
  destruct (m_gas cur) eqn:EG.
  - specialize (GI eq_refl). destruct WI as [WI|WI]; rewrite ?WI, ?GI; repeat split; lra.
  - assert (D0 : dg == 0) by (apply SG0; discriminate).
    assert (Y : iq_sg0 c u == iq_sg0 c cur) by (unfold iq_sg0; rewrite M3, EG; reflexivity).
    destruct WI as [WI|WI]; rewrite ?WI, ?Y; repeat split; lra.
  - assert (D0 : dg == 0) by (apply SG0; discriminate).
    assert (Y : iq_sg0 c u == iq_sg0 c cur \/ iq_sg0 c u - iq_sg0 c cur == iq_sw c cur - iq_sw c u).
    { unfold iq_sg0. rewrite M3, EG. destruct (gasEnabled c); [right; ring|left; reflexivity]. }
    destruct WI as [WI|WI], Y as [Y|Y]; repeat split; lra.
  - assert (D0 : dg == 0) by (apply SG0; discriminate).
    assert (Y : iq_sg0 c u == iq_sg0 c cur \/ iq_sg0 c u - iq_sg0 c cur == iq_sw c cur - iq_sw c u).
    { unfold iq_sg0. rewrite M3, EG. destruct (gasEnabled c); [|left; reflexivity].
      destruct (waterEnabled c); [right; ring|left; reflexivity]. }
    destruct WI as [WI|WI], Y as [Y|Y]; repeat split; lra.
Qed.
End Whole.

(** Cells which contain water only. *)
Lemma filled_bound : forall c f, layout (idx c) -> sensible c -> enableSolvent c = false ->
  enableSaltPrecipitation c = false ->
  forall swMax thr eps v v' b, in_use c v -> meanings_fit c v -> 1 <= thr -> 1 <= swMax ->
  adapt c f swMax thr eps v = (v', b) -> thr <= read_sw c v -> disgasw c = false ->
  iq_sw c v' == qmin swMax (iq_sw c v) /\
  ((iq_sg0 c v' == 0 /\ so_of c v' == 1 - iq_sw c v') \/
   (oilEnabled c = false /\ iq_sg0 c v' == 1 - iq_sw c v' /\ so_of c v' == 0)).
Proof.
  intros c f L SE NSO NSA swMax thr eps v v' b U MF T1 M1 H T D.
  assert (W : m_water v = Sw).
  { destruct (m_water v) eqn:E; [reflexivity|exfalso..].
    - unfold read_sw in T. rewrite E in T. lra.
    - rewrite (proj1 (proj2 (proj2 MF)) E) in D. discriminate.
    - unfold read_sw in T. rewrite E in T. lra. }
  assert (WE : waterEnabled c = true).
  { destruct (waterEnabled c) eqn:E; [reflexivity|]. destruct MF as [_ [F _]].
    rewrite E in F. rewrite (proj2 F eq_refl) in W. discriminate. }
  assert (WI : (0 <= waterSwitchIdx (idx c))%Z) by (apply (proj1 U); congruence).
  destruct (adapt_cases c f _ _ _ _ _ _ H) as [[A _]|[N [v1 [salt [EB X]]]]]; [congruence|].
  unfold brine_stage in EB. rewrite NSA in EB. injection EB as <- <-.
  unfold solvent_stage in X. rewrite NSO in X. cbn [andb] in X. cbv zeta in X.
  destruct X as [[_ [_ F]]|[[X|X] _]]; [|lra|congruence].
  pose proof (differ c L 1 2 ltac:(lia) ltac:(lia) ltac:(lia) WI) as D12.
  unfold name in D12. cbn [nth names] in D12.
  destruct SE as [_ [_ [_ [_ SE5]]]].
  assert (RW : read_sw c v = iq_sw c v) by (unfold read_sw, iq_sw; rewrite W, WE; reflexivity).
  unfold water_filled in F. rewrite WE, SE5 in F.
  assert (E : v' = fst (v', b)) by reflexivity. rewrite <- F in E. clear F. cbn [fst] in E.
  assert (MW : m_water v' = Sw).
  { rewrite E. destruct (oilEnabled c && gasEnabled c);
      destruct (match m_gas v with Sg => false | _ => true end); cbn; exact W. }
  assert (VW : val v' (waterSwitchIdx (idx c)) = qmin swMax (iq_sw c v)).
  { rewrite E, <- RW. destruct (oilEnabled c && gasEnabled c);
      destruct (match m_gas v with Sg => false | _ => true end); cbn [andb val set_gas];
      rewrite ?(set_away (waterSwitchIdx (idx c)) (compositionSwitchIdx (idx c))) by exact D12; apply set_same. }
  assert (I : iq_sw c v' = qmin swMax (iq_sw c v)) by (unfold iq_sw at 1; rewrite WE, MW; exact VW).
  split; [rewrite I; reflexivity|]. unfold so_of.
  destruct (oilEnabled c && gasEnabled c) eqn:OG.
  - left. apply andb_true_iff in OG as [_ G].
    assert (MG : m_gas v' = Sg).
    { rewrite E. rewrite andb_true_r. destruct (m_gas v) eqn:EG; cbn; auto. }
    assert (Z0 : iq_sg0 c v' == 0).
    { unfold iq_sg0. rewrite G, MG, E. rewrite andb_true_r.
      destruct (match m_gas v with Sg => false | _ => true end); cbn [val set_gas]; rewrite set_same; reflexivity. }
    split; [exact Z0|]. rewrite Z0. ring.
  - assert (MG : m_gas v' = GDisabled).
    { rewrite E. rewrite andb_false_r. cbn. apply (proj1 MF). exact OG. }
    destruct (gasEnabled c) eqn:G.
    + rewrite andb_true_r in OG. right. split; [exact OG|].
      assert (Z0 : iq_sg0 c v' == 1 - iq_sw c v') by (unfold iq_sg0; rewrite G, MG, WE; reflexivity).
      split; [exact Z0|]. rewrite Z0. ring.
    + left. assert (Z0 : iq_sg0 c v' == 0) by (unfold iq_sg0; rewrite G; reflexivity).
      split; [exact Z0|]. rewrite Z0. ring.
Qed.

Lemma adapt_fit : forall c f, sensible c -> enableSolvent c = false -> enableSaltPrecipitation c = false ->
  forall swMax thr eps v v' b, pressure_fits c v -> meanings_fit c v -> in_use c v ->
  adapt c f swMax thr eps v = (v', b) ->
  meanings_fit c v' /\ in_use c v' /\ m_solvent v' = m_solvent v /\ (single_phase v' <-> single_phase v).
Proof.
  intros c f SE NSO NSA swMax thr eps v v' b PF MF U H.
  assert (FIT : meanings_fit c v' -> m_brine v' = m_brine v -> m_solvent v' = m_solvent v ->
    meanings_fit c v' /\ in_use c v' /\ m_solvent v' = m_solvent v /\ (single_phase v' <-> single_phase v)).
  { intros M EB ES. split; [exact M|].
    destruct M as [M1 [M2 _]]. destruct MF as [F1 [F2 _]]. destruct U as [U1 [U2 [U3 U4]]].
    assert (G : m_gas v' = GDisabled <-> m_gas v = GDisabled) by (rewrite M1, F1; reflexivity).
    assert (W : m_water v' = WDisabled <-> m_water v = WDisabled) by (rewrite M2, F2; reflexivity).
    split; [|split; [exact ES|unfold single_phase; rewrite G, W; reflexivity]].
    unfold in_use. rewrite EB, ES, W, G. auto. }
  destruct (adapt_cases c f _ _ _ _ _ _ H) as [[_ [_ [-> _]]]|[N [v1 [salt [EB X]]]]]; [auto|].
  unfold brine_stage in EB. rewrite NSA in EB. injection EB as <- <-.
  unfold solvent_stage in X. rewrite NSO in X. cbn [andb] in X. cbv zeta in X.
  destruct X as [[_ [_ W]]|[_ [v3 [c1 [c2 [W [G _]]]]]]].
  - destruct (water_filled_meanings c _ _ _ _ _ W) as [E1 [E2 [E3 [E4 [E5 _]]]]].
    apply FIT; [|congruence|congruence].
    destruct MF as [F1 [F2 [F3 F4]]]. unfold meanings_fit. rewrite E1. split; [|auto].
    destruct SE as [_ [_ [_ [_ SE5]]]]. rewrite SE5 in E5.
    destruct (oilEnabled c && gasEnabled c) eqn:OG; rewrite E5.
    + split; discriminate.
    + exact F1.
  - destruct (water_good c f SE _ _ _ _ _ v v3 c1 (conj PF MF) W) as [PF3 MF3].
    destruct (gas_good c f _ _ _ _ _ _ _ (conj PF3 MF3) G) as [_ MF4].
    destruct (gas_meanings c f _ _ _ _ _ _ _ G) as [_ [G2 [G3 _]]].
    destruct (water_meanings c f _ _ _ _ _ _ _ _ W) as [_ [M2 [M3 _]]].
    apply FIT; [exact MF4|congruence|congruence].
Qed.

Lemma saturations_limited : forall c l cur upd f was v' b,
  layout (idx c) -> in_use c cur -> sensible c -> meanings_fit c cur -> pressure_fits c cur ->
  enableSolvent c = false -> m_solvent cur = SDisabled -> enableSaltPrecipitation c = false ->
  0 <= dsMax l -> 0 <= oscillationThreshold l ->
  1 <= waterOnlyThreshold l -> 1 <= waterSaturationMax l ->
  fraction (iq_sw c cur) -> fraction (so_of c cur) -> fraction (iq_sg0 c cur) ->
  update_cell c l cur upd f was cur = (v', b) ->
  within (dsMax l) (iq_sw c v') (iq_sw c cur) /\ within (dsMax l) (so_of c v') (so_of c cur) /\
  within (dsMax l) (iq_sg0 c v') (iq_sg0 c cur).
Proof.
  intros c l cur upd f was v' b L U SE MF PF NSO SD NSA DS OT T1 M1 [F1 F1'] [F2 F2'] [F3 F3'] H.
  destruct (update_split c l cur upd _ _ _ _ H) as [v1 [A ->]].
  destruct (updated_saturations c l cur upd L U MF NSO SD DS) as [W [O G]].
  destruct (updated_good c l cur upd MF PF) as [MFu PFu].
  pose proof (updated_in_use c l cur upd U) as Uu.
  destruct (updated_meanings c l cur upd) as [N1 [N2 [N3 [N4 N5]]]].
  set (u := updated c l cur upd cur) in *. clearbody u.
  set (eps := if was then oscillationThreshold l else 0) in *.
  assert (EP : 0 <= eps) by (unfold eps; destruct was; lra). clearbody eps.
  assert (SC : iq_sw c cur + so_of c cur + iq_sg0 c cur == 1) by (unfold so_of; ring).
  assert (SU : iq_sw c u + so_of c u + iq_sg0 c u == 1) by (unfold so_of; ring).
  assert (B : within (dsMax l) (iq_sw c v1) (iq_sw c cur) /\ within (dsMax l) (so_of c v1) (so_of c cur) /\
              within (dsMax l) (iq_sg0 c v1) (iq_sg0 c cur)).
  { assert (DEC : (read_sw c u < waterOnlyThreshold l \/ disgasw c = true) \/
                  (waterOnlyThreshold l <= read_sw c u /\ disgasw c = false)).
    { destruct (Qlt_le_dec (read_sw c u) (waterOnlyThreshold l)); [auto|].
      destruct (disgasw c); auto. }
    destruct DEC as [DEC|[D1 D2]].
    - assert (PR : projected (iq_sw c u) (so_of c u) (iq_sg0 c u) (iq_sw c v1) (so_of c v1) (iq_sg0 c v1)).
      { exact (adapt_projects c f NSO NSA SE _ _ _ _ _ _ EP (layout_separate c L u Uu) MFu PFu DEC A). }
      exact (projected_bound _ _ _ _ _ _ _ _ _ _ F1 F2 F3 SC SU W O G PR).
    - destruct (filled_bound c f L SE NSO NSA _ _ _ _ _ _ Uu MFu T1 M1 A D1 D2) as [Q1 Q2].
      assert (RW : read_sw c u = iq_sw c u).
      { apply read_sw_iq; [exact MFu|]. intros [S1 _]. unfold read_sw in D1. rewrite S1 in D1. lra. }
      rewrite RW in D1.
      assert (Q3 : 1 <= iq_sw c v1 /\ iq_sw c v1 <= iq_sw c u).
      { rewrite Q1. destruct (qmin_spec (waterSaturationMax l) (iq_sw c u)) as [[? ->]|[? ->]]; lra. }
      clear Q1. unfold within in *.
      destruct Q2 as [[X Y]|[O0 [X Y]]].
      + repeat split; lra.
      + assert (OC : so_of c cur == 0).
        { unfold so_of, iq_sg0. rewrite (proj2 (proj1 MF)) by (rewrite O0; reflexivity).
          destruct (gasEnabled c) eqn:GE; [|].
          - destruct (waterEnabled c) eqn:WE; [ring|].
            unfold iq_sw in RW, D1. rewrite WE in D1. lra.
          - unfold iq_sg0 in X. rewrite GE in X.
            unfold so_of, iq_sg0 in F2, Y. rewrite GE in F2, Y. unfold iq_sw in *.
            destruct (waterEnabled c) eqn:WE; [|lra].
            destruct MF as [_ [MF2 _]].
            assert (WD : m_water cur = WDisabled).
            { apply MF2. unfold numActivePhases. rewrite O0, GE, WE. reflexivity. }
            rewrite WD. ring. }
        repeat split; lra. }
  clear W O G.
  destruct (projectSaturations l); [|exact B].
  destruct B as [W [O G]].
  destruct (chop c v1) as [v2 bb] eqn:EC. cbn [fst].
  destruct (adapt_fit c f SE NSO NSA _ _ _ _ _ _ PFu MFu Uu A) as [MF1 [U1 [S1 SP1]]].
  assert (DEC : single_phase v1 \/ ~ single_phase v1).
  { unfold single_phase. destruct (m_water v1), (m_gas v1); (left; auto; fail) || (right; intros [? ?]; discriminate). }
  destruct DEC as [SP|SP].
  { unfold chop in EC. destruct SP as [P1 P2]. rewrite P1, P2 in EC. injection EC as <- <-.
    split; [exact W|split; [exact O|exact G]]. }
  assert (SS : m_solvent v1 <> Ss) by congruence.
  assert (S1' : iq_sw c v1 + so_of c v1 + iq_sg0 c v1 == 1) by (unfold so_of; ring).
  destruct (chop_saturations c SE v1 v2 bb (layout_separate c L v1 U1) MF1 SP SS EC) as [t [T [X1 [X2 X3]]]].
  split; [|split].
  - apply (normal_one _ _ _ _ _ _ _ _ _ DS F1 F2 F3 SC S1' W O G T X1).
  - refine (normal_one _ _ _ _ _ _ _ t _ DS F2 F1 F3 _ _ O W G _ X2); [lra|lra|rewrite T; ring].
  - refine (normal_one _ _ _ _ _ _ _ t _ DS F3 F1 F2 _ _ G W O _ X3); [lra|lra|rewrite T; ring].
Qed.

Lemma adapt_in_use : forall c f swMax thr eps v v' b, in_use c v ->
  adapt c f swMax thr eps v = (v', b) -> in_use c v' /\ (m_solvent v = SDisabled -> m_solvent v' = SDisabled).
Proof.
  intros c f swMax thr eps v v' b [U1 [U2 [U3 U4]]] A.
  destruct (adapt_cases c f _ _ _ _ _ _ A) as [[_ [_ [-> _]]]|[N [w1 [salt [EB X]]]]];
    [split; [split; [exact U1|split; [exact U2|split; [exact U3|exact U4]]]|auto]|].
  destruct (brine_meanings c f _ _ _ _ EB) as [B1 [B2 [_ B4]]]. cbv zeta in X.
  destruct (solvent_meanings c f eps salt w1) as [S1 [S2 [_ S4]]].
  assert (Y : m_solvent v = SDisabled -> m_solvent (solvent_stage c f eps salt w1) = SDisabled).
  { intros E. unfold solvent_stage. rewrite B4, E. destruct (_ && _); congruence. }
  assert (Z : m_brine v = BDisabled -> m_brine w1 = BDisabled).
  { intros E. unfold brine_stage in EB. rewrite E in EB. destruct (enableSaltPrecipitation c); congruence. }
  set (v2 := solvent_stage c f eps salt w1) in *. clearbody v2.
  assert (K : m_solvent v' = m_solvent v2 /\ m_brine v' = m_brine v2 /\
    (m_water v2 = WDisabled -> m_water v' = WDisabled) /\
    (m_gas v2 = GDisabled -> m_gas v' = GDisabled \/ compositionSwitchEnabled c = true)).
  { destruct X as [[_ [_ W]]|[_ [v3 [c1 [c2 [W [G _]]]]]]].
    - destruct (water_filled_meanings c _ _ _ _ _ W) as [E1 [_ [E3 [E4 [E5 _]]]]].
      split; [exact E4|]. split; [exact E3|]. split; [congruence|]. intros E.
      destruct (compositionSwitchEnabled c); [auto|left; congruence].
    - destruct (gas_meanings c f _ _ _ _ _ _ _ G) as [G1 [G2 [G3 [G4 [_ G6]]]]].
      destruct (water_meanings c f _ _ _ _ _ _ _ _ W) as [M1 [M2 [M3 [M4 [_ [_ M7]]]]]].
      split; [congruence|]. split; [congruence|]. split.
      + intros E. rewrite G1, (M4 (M7 E)). exact E.
      + intros E. rewrite <- M1 in E. left. rewrite (G4 (G6 E)). exact E. }
  destruct K as [K1 [K2 [K3 K4]]]. split; [|intros E; rewrite K1; auto].
  split; [|split; [|split]]; intros E.
  - apply U1. intros E'. apply E, K3. congruence.
  - destruct (compositionSwitchEnabled c) eqn:CS.
    + unfold compositionSwitchEnabled in CS. apply Z.leb_le in CS. exact CS.
    + apply U2. intros E'. rewrite <- B2, <- S2 in E'. destruct (K4 E'); [auto|discriminate].
  - apply U3. intros E'. apply E. rewrite K2, S4. auto.
  - apply U4. intros E'. apply E. rewrite K1. auto.
Qed.

Lemma chop_keeps : forall c v i, ~ (m_water v = Sw /\ i = waterSwitchIdx (idx c)) ->
   ~ (m_gas v = Sg /\ i = compositionSwitchIdx (idx c)) ->
   ~ (m_solvent v = Ss /\ i = solventSaturationIdx (idx c)) -> val (fst (chop c v)) i = val v i.
Proof.
  intros c v i K1 K2 K3. unfold chop.
  destruct (m_water v) eqn:E1, (m_gas v) eqn:E2; cbv zeta; cbn [fst m_gas m_solvent set];
    rewrite ?E2; cbn [m_gas m_solvent set]; destruct (m_solvent v) eqn:E3; try reflexivity;
    rewrite ?set_away; auto.
Qed.
