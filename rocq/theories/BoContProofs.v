From Verif Require Import BoVarsModel BoVarsSpec BoVarsProofs BoStableProofs.

Local Arguments Qplus : simpl never.
Local Arguments Qminus : simpl never.
Local Arguments Qmult : simpl never.
Local Arguments Qdiv : simpl never.
Local Arguments Qopp : simpl never.

Section Cont.
Variable c : config.
Variable f : fluid.
Hypothesis no_solvent : enableSolvent c = false.
Hypothesis scale : ~ f_scale f == 0.
Hypothesis pc_proper : proper_pc f.

Lemma no_ss : forall v, solventSaturation_ c v = 0.
Proof. intros v. unfold solventSaturation_. rewrite no_solvent. reflexivity. Qed.

Lemma factor_one : forall v, m_brine v <> Sp -> pcFactor c f v = 1.
Proof.
  intros v H. unfold pcFactor. destruct (f_pcfact f); [|reflexivity].
  destruct (m_brine v); congruence.
Qed.

(** Pressures at the same saturations: only the reference phase may have changed. *)
Definition ref_pressure (m : PressureMeaning) (pc : Q * Q * Q) : Q :=
  match m with Pg => pcg pc | Pw => pcw pc | Po => pco pc end.

Lemma pressures_shift : forall v w,
  m_brine v <> Sp -> m_brine w <> Sp ->
  iq_sw c v == iq_sw c w -> iq_so c v == iq_so c w -> iq_sg c v == iq_sg c w ->
  (let pc := f_pc f (iq_so c w) (iq_sg c w) (iq_sw c w) in
   pressure_ c f v - ref_pressure (m_pressure v) pc ==
   pressure_ c f w - ref_pressure (m_pressure w) pc) ->
  same_fluid c f v w.
Proof.
  intros v w B1 B2 E1 E2 E3 P. cbv zeta in P.
  unfold same_fluid. split; [exact E1|]. split; [exact E2|]. split; [exact E3|].
  unfold iq_pressures. rewrite (factor_one v B1), (factor_one w B2).
  destruct (pc_proper _ _ _ _ _ _ E2 E3 E1) as [Q1 [Q2 Q3]].
  set (pv := f_pc f (iq_so c v) (iq_sg c v) (iq_sw c v)) in *.
  set (pw := f_pc f (iq_so c w) (iq_sg c w) (iq_sw c w)) in *.
  assert (R : ref_pressure (m_pressure v) pv == ref_pressure (m_pressure v) pw)
    by (unfold ref_pressure; destruct (m_pressure v); assumption).
  change (match m_pressure v with Po => pco pv | Pg => pcg pv | Pw => pcw pv end)
    with (ref_pressure (m_pressure v) pv).
  change (match m_pressure w with Po => pco pw | Pg => pcg pw | Pw => pcw pw end)
    with (ref_pressure (m_pressure w) pw).
  clearbody pv pw. destruct pv as [[a1 a2] a3], pw as [[b1 b2] b3].
  set (rv := ref_pressure (m_pressure v) (a1, a2, a3)) in *.
  set (rv' := ref_pressure (m_pressure v) (b1, b2, b3)) in *.
  set (rw := ref_pressure (m_pressure w) (b1, b2, b3)) in *.
  clearbody rv rv' rw. unfold pcw, pco, pcg in *. cbn [fst snd] in *.
  repeat split; lra.
Qed.

(** The saturations of the two sets of variables, given what the switching looked at. *)
Lemma read_sw_iq : forall v, meanings_fit c v -> ~ single_phase v -> read_sw c v = iq_sw c v.
Proof.
  intros v [M1 [M2 _]] N. unfold read_sw, iq_sw, single_phase in *.
  destruct (m_water v) eqn:E, (waterEnabled c) eqn:W; try reflexivity;
    try (destruct M2 as [_ M2]; specialize (M2 eq_refl); discriminate).
  exfalso. apply N. split; [reflexivity|]. apply M1.
  destruct M2 as [M2 _]. specialize (M2 eq_refl). cbn in M2. apply negb_false_iff, Nat.eqb_eq in M2.
  unfold numActivePhases in M2. rewrite W in M2.
  destruct (oilEnabled c), (gasEnabled c); try reflexivity; cbn in M2; lia.
Qed.

Lemma same_fluid_refl : forall v, same_fluid c f v v.
Proof. intros v. unfold same_fluid. repeat split; reflexivity. Qed.
Lemma same_fluid_trans : forall u v w,
  same_fluid c f u v -> same_fluid c f v w -> same_fluid c f u w.
Proof.
  intros u v w [A1 [A2 [A3 [A4 [A5 A6]]]]] [B1 [B2 [B3 [B4 [B5 B6]]]]]. unfold same_fluid.
  repeat split; etransitivity; eassumption.
Qed.

Lemma water_gas_apart : forall v, separate c v -> m_water v <> WDisabled -> m_gas v <> GDisabled ->
  waterSwitchIdx (idx c) <> compositionSwitchIdx (idx c).
Proof.
  intros v S W G. destruct (entries_apart c v S G) as [_ [D _]]. exact (proj2 (D W)).
Qed.
Lemma water_pressure_apart : forall v, separate c v -> m_water v <> WDisabled ->
  waterSwitchIdx (idx c) <> pressureSwitchIdx (idx c).
Proof.
  intros v S W E. unfold separate, entries in S. apply NoDup_cons_iff in S as [S _]. apply S.
  apply in_or_app. left. rewrite E. destruct (m_water v); cbn; auto; congruence.
Qed.

Lemma water_appear : sensible c -> forall eps salt v v3 b,
  separate c v -> meanings_fit c v -> pressure_fits c v -> m_brine v <> Sp ->
  water_stage c f eps salt 1 (read_sw c v) (read_sg c v) v = (v3, b) ->
  (m_water v = Sw -> m_water v3 = Sw) ->
  same_fluid c f v3 v /\ read_sw c v3 = read_sw c v /\ read_sg c v3 = read_sg c v.
Proof.
  intros [_ [_ [_ [C4 _]]]] eps salt v v3 b S MF PF NB H NV.
  destruct (water_meanings c f _ _ _ _ _ _ _ _ H) as [M1 [M2 [M3 [M4 _]]]].
  set (iw := waterSwitchIdx (idx c)) in *.
  assert (W : waterEnabled c = true \/ m_water v = WDisabled).
  { destruct (waterEnabled c) eqn:E; [auto|]. right. destruct MF as [_ [MF _]]. apply MF.
    rewrite E. reflexivity. }
  unfold water_stage in H. fold iw in H. destruct (m_water v) eqn:EW.
  - destruct (_ && _ && _) in H; [injection H as <- <-; specialize (NV eq_refl); discriminate|].
    destruct (_ && _ && _) in H; [injection H as <- <-; specialize (NV eq_refl); discriminate|].
    injection H as <- <-. split; [apply same_fluid_refl|auto].
  - destruct (Qltb _ _) in H; [|injection H as <- <-; split; [apply same_fluid_refl|auto]].
    destruct W as [W|W]; [|discriminate].
    assert (E3 : v3 = set iw 0 (set_water Sw v)) by congruence. clear H.
    assert (G0 : m_gas v <> GDisabled ->
              val v3 (compositionSwitchIdx (idx c)) = val v (compositionSwitchIdx (idx c))).
    { intros G. rewrite E3, set_other; [reflexivity|].
      apply not_eq_sym. apply (water_gas_apart v S); congruence. }
    assert (MW3 : m_water v3 = Sw) by (subst v3; reflexivity).
    assert (VW : val v3 iw = 0) by (subst v3; apply set_same).
    assert (PW : pressure_ c f v3 = pressure_ c f v).
    { unfold pressure_. rewrite E3, set_other; [reflexivity|]. apply not_eq_sym.
      apply (water_pressure_apart v S). congruence. }
    assert (MP : m_pressure v3 = m_pressure v) by (subst v3; reflexivity).
    clear E3.
    assert (R1 : iq_sw c v3 = iq_sw c v).
    { unfold iq_sw. rewrite W, MW3, EW. exact VW. }
    assert (R2 : iq_sg0 c v3 = iq_sg0 c v).
    { unfold iq_sg0. rewrite M1, R1. destruct (m_gas v) eqn:E; try reflexivity.
      rewrite G0 by congruence. reflexivity. }
    assert (R3 : read_sw c v3 = read_sw c v).
    { unfold read_sw. rewrite MW3, EW. exact VW. }
    split; [|split; [exact R3|]].
    + assert (R4 : iq_so c v3 = iq_so c v) by (unfold iq_so; rewrite R1, R2, !no_ss; reflexivity).
      assert (R5 : iq_sg c v3 = iq_sg c v) by (unfold iq_sg; rewrite R2, !no_ss; reflexivity).
      apply pressures_shift; [congruence|congruence|rewrite ?R1, ?R4, ?R5; reflexivity..|].
      cbv zeta. rewrite PW, MP. reflexivity.
    + unfold read_sg. rewrite M1, R3. destruct (m_gas v) eqn:E; try reflexivity.
      apply G0. congruence.
  - destruct (Qltb _ _) in H; [|injection H as <- <-; split; [apply same_fluid_refl|auto]].
    destruct W as [W|W]; [|discriminate].
    assert (GD : m_gas v = GDisabled /\ m_pressure v = Pw /\ oilEnabled c = false /\ gasEnabled c = true).
    { destruct MF as [F1 [_ [F3 _]]]. destruct (C4 (F3 EW)) as [O [_ G]].
      assert (GD : m_gas v = GDisabled) by (apply F1; rewrite O; reflexivity).
      unfold pressure_fits in PF. rewrite GD, O, G, EW in PF. auto. }
    destruct GD as [GD [MP [O G]]].
    set (pc := f_pc f 0 0 1) in *.
    set (pg := pressure_ c f v + 1 * (pcg pc - pcw pc)) in *.
    assert (E3 : v3 = setScaledPressure_ c f pg (set_pressure Pg (set iw 1 (set_water Sw v)))) by congruence.
    clear H.
    assert (MW3 : m_water v3 = Sw) by (subst v3; reflexivity).
    assert (NE : iw <> pressureSwitchIdx (idx c))
      by (apply (water_pressure_apart v S); congruence).
    assert (VW : val v3 iw = 1).
    { subst v3. unfold setScaledPressure_. rewrite set_other by exact NE. apply set_same. }
    assert (PW : pressure_ c f v3 == pg).
    { subst v3. unfold pressure_, setScaledPressure_. rewrite set_same. field. exact scale. }
    assert (MP3 : m_pressure v3 = Pg) by (subst v3; reflexivity).
    clear E3.
    assert (R1 : iq_sw c v3 = iq_sw c v).
    { unfold iq_sw. rewrite W, MW3, EW. exact VW. }
    assert (R2 : iq_sg0 c v3 = iq_sg0 c v).
    { unfold iq_sg0. rewrite M1, R1. rewrite GD. reflexivity. }
    assert (R3 : read_sw c v3 = read_sw c v).
    { unfold read_sw. rewrite MW3, EW. exact VW. }
    assert (R4 : iq_so c v3 = iq_so c v) by (unfold iq_so; rewrite R1, R2, !no_ss; reflexivity).
    assert (R5 : iq_sg c v3 = iq_sg c v) by (unfold iq_sg; rewrite R2, !no_ss; reflexivity).
    split; [|split; [exact R3|]].
    + apply pressures_shift; [congruence|congruence|rewrite ?R1, ?R4, ?R5; reflexivity..|].
      cbv zeta. rewrite PW, MP, MP3. cbn [ref_pressure].
      assert (S1 : iq_sw c v == 1) by (unfold iq_sw; rewrite W, EW; reflexivity).
      assert (S2 : iq_sg0 c v == 0) by (unfold iq_sg0; rewrite GD, G, W; lra).
      assert (S3 : iq_so c v == 0) by (unfold iq_so; rewrite O; lra).
      assert (S4 : iq_sg c v == 0) by (unfold iq_sg; rewrite O, G, no_ss; lra).
      destruct (pc_proper _ _ _ _ _ _ S3 S4 S1) as [P1 [P2 P3]]. fold pc in P1, P2, P3.
      unfold pg. rewrite P1, P3. ring.
    + unfold read_sg. rewrite M1, GD, R3. reflexivity.
  - injection H as <- <-. split; [apply same_fluid_refl|auto].
Qed.

Lemma gas_appear : forall eps v v3 b,
  separate c v -> meanings_fit c v -> pressure_fits c v -> m_brine v <> Sp ->
  gas_stage c f eps 1 (read_sw c v) (read_sg c v) v = (v3, b) ->
  (m_gas v = Sg -> m_gas v3 = Sg) -> same_fluid c f v3 v.
Proof.
  intros eps v v3 b S MF PF NB H NV.
  destruct (gas_meanings c f _ _ _ _ _ _ _ H) as [M1 [M2 [M3 [M4 [M5 M6]]]]].
  destruct b; [|rewrite (M4 eq_refl); apply same_fluid_refl].
  specialize (M5 eq_refl).
  assert (GN : m_gas v <> GDisabled) by (intros E; specialize (M6 E); discriminate).
  assert (GN2 : m_gas v <> Sg) by (intros E; specialize (NV E); congruence).
  assert (NS : ~ single_phase v) by (intros [_ E]; auto).
  pose proof (read_sw_iq v MF NS) as RI.
  destruct (entries_apart c v S GN) as [D1 [D2 _]].
  assert (OG : oilEnabled c = true /\ gasEnabled c = true).
  { destruct MF as [F1 _]. destruct (oilEnabled c), (gasEnabled c); auto; exfalso; apply GN, F1; reflexivity. }
  destruct OG as [O G].
  set (ig := compositionSwitchIdx (idx c)) in *. set (ip := pressureSwitchIdx (idx c)) in *.
  unfold gas_stage in H. fold ig in H. destruct (m_gas v) eqn:EG; try congruence.
  - destruct (Qltb _ _) in H; [|discriminate].
    assert (E3 : v3 = set ig 0 (set_gas Sg v)) by congruence. clear H.
    assert (VG : val v3 ig = 0) by (subst v3; apply set_same).
    assert (VO : forall i, i <> ig -> val v3 i = val v i).
    { intros i N. subst v3. rewrite set_other by exact N. reflexivity. }
    assert (MG : m_gas v3 = Sg) by (subst v3; reflexivity).
    assert (MP : m_pressure v3 = m_pressure v) by (subst v3; reflexivity). clear E3.
    assert (R1 : iq_sw c v3 = iq_sw c v).
    { unfold iq_sw. rewrite M1. destruct (waterEnabled c); [|reflexivity].
      destruct (m_water v) eqn:E; try reflexivity. apply VO. apply D2. congruence. }
    assert (R2 : iq_sg0 c v3 = iq_sg0 c v) by (unfold iq_sg0; rewrite G, MG, EG; exact VG).
    assert (R4 : iq_so c v3 = iq_so c v) by (unfold iq_so; rewrite R1, R2, !no_ss; reflexivity).
    assert (R5 : iq_sg c v3 = iq_sg c v) by (unfold iq_sg; rewrite R2, !no_ss; reflexivity).
    apply pressures_shift; [congruence|congruence|rewrite ?R1, ?R4, ?R5; reflexivity..|].
    cbv zeta. unfold pressure_. rewrite MP. fold ip. rewrite VO by auto. reflexivity.
  - destruct (Qltb _ _) in H; [|discriminate].
    rewrite no_ss in H.
    set (sg2 := 1 - read_sw c v - 0) in *.
    set (pc := f_pc f 0 (sg2 + 0) (read_sw c v)) in *.
    set (po := pressure_ c f v + 1 * (pco pc - pcg pc)) in *.
    assert (E3 : v3 = set ig sg2 (setScaledPressure_ c f po (set_pressure Po (set_gas Sg v)))) by congruence.
    clear H.
    assert (VG : val v3 ig = sg2) by (subst v3; apply set_same).
    assert (VP : val v3 ip = po / f_scale f).
    { subst v3. rewrite set_other by auto. unfold setScaledPressure_. apply set_same. }
    assert (VO : forall i, i <> ig -> i <> ip -> val v3 i = val v i).
    { intros i N1 N2. subst v3. rewrite set_other by exact N1. unfold setScaledPressure_.
      rewrite set_other by exact N2. reflexivity. }
    assert (MG : m_gas v3 = Sg) by (subst v3; reflexivity).
    assert (MP : m_pressure v3 = Po) by (subst v3; reflexivity). clear E3.
    assert (MPv : m_pressure v = Pg) by (unfold pressure_fits in PF; rewrite EG in PF; exact PF).
    assert (R1 : iq_sw c v3 = iq_sw c v).
    { unfold iq_sw. rewrite M1. destruct (waterEnabled c); [|reflexivity].
      destruct (m_water v) eqn:E; try reflexivity. apply VO; apply D2; congruence. }
    assert (R2 : iq_sg0 c v3 == iq_sg0 c v).
    { unfold iq_sg0. rewrite G, MG, EG. fold ig. rewrite VG. unfold sg2. rewrite RI. ring. }
    assert (R4 : iq_so c v3 == iq_so c v) by (unfold iq_so; rewrite O, R1, R2, !no_ss; reflexivity).
    assert (R5 : iq_sg c v3 == iq_sg c v) by (unfold iq_sg; rewrite O, R2; reflexivity).
    apply pressures_shift; [congruence|congruence|rewrite R1; reflexivity|exact R4|exact R5|].
    cbv zeta. unfold pressure_ at 1. fold ip. rewrite MP, MPv, VP. cbn [ref_pressure].
    assert (S1 : iq_sw c v == read_sw c v) by (rewrite RI; reflexivity).
    assert (S2 : iq_sg c v == sg2 + 0) by (unfold iq_sg, iq_sg0; rewrite O, G, EG; unfold sg2; rewrite RI; ring).
    assert (S3 : iq_so c v == 0) by (unfold iq_so, iq_sg0; rewrite O, G, EG, no_ss; ring).
    destruct (pc_proper _ _ _ _ _ _ S3 S2 S1) as [P1 [P2 P3]]. fold pc in P1, P2, P3.
    rewrite P2, P3. unfold po. field. exact scale.
Qed.

Hypothesis no_salt : enableSaltPrecipitation c = false.

(** A phase which appears does so without a jump. *)
Lemma adapt_appear : sensible c -> forall swMax thr eps v v' b,
  separate c v -> meanings_fit c v -> pressure_fits c v -> m_brine v <> Sp ->
  (read_sw c v < thr \/ disgasw c = true) ->
  adapt c f swMax thr eps v = (v', b) -> nothing_vanishes v v' -> same_fluid c f v' v.
Proof.
  intros SE swMax thr eps v v' b S MF PF NB NW H [NV1 NV2].
  destruct (adapt_cases c f _ _ _ _ _ _ H) as [[_ [_ [-> _]]]|[N [v1 [salt [EB X]]]]];
    [apply same_fluid_refl|].
  unfold brine_stage in EB. rewrite no_salt in EB. injection EB as <- <-.
  unfold solvent_stage in X. rewrite no_solvent in X. cbn [andb] in X. cbv zeta in X.
  destruct X as [[T [DG _]]|[T [v3 [c1 [c2 [W [GS _]]]]]]].
  { destruct NW as [NW|NW]; [lra|congruence]. }
  rewrite (factor_one v NB) in W, GS.
  destruct (water_meanings c f _ _ _ _ _ _ _ _ W) as [M1 [M2 [M3 [M4 [M5 [M6 M7]]]]]].
  destruct (gas_meanings c f _ _ _ _ _ _ _ GS) as [G1 _].
  assert (A1 : m_water v = Sw -> m_water v3 = Sw) by (intros E; rewrite <- G1; auto).
  destruct (water_appear SE _ _ _ _ _ S MF PF NB W A1) as [F1 [R1 R2]].
  rewrite <- R1, <- R2 in GS.
  apply same_fluid_trans with v3; [|exact F1].
  destruct (water_good c f SE _ _ _ _ _ v v3 c1 (conj PF MF) W) as [PF3 MF3].
  assert (S3 : separate c v3).
  { unfold separate, entries in *. rewrite M1, M2, M3.
    destruct (water_pressure_meaning c f _ _ _ _ _ _ _ _ W) as [[E _]|[[E1 [E2 _]]|[[E1 [E2 _]]|[[E1 [E2 _]]|[E1 [E2 _]]]]]].
    - rewrite E. exact S.
    - rewrite E2. rewrite E1 in S. exact S.
    - rewrite E2. rewrite E1 in S. exact S.
    - rewrite E2. rewrite E1 in S. exact S.
    - rewrite E2. rewrite E1 in S. exact S. }
  refine (gas_appear eps v3 v' c2 S3 MF3 PF3 _ GS _); [congruence|].
  intros E. rewrite M1 in E. auto.
Qed.

(** What assigning a fluid state stores. *)
Lemma assign_round_trip : sensible c ->
  (waterEnabled c = true \/ oilEnabled c = true \/ gasEnabled c = true) ->
  forall s v, let v' := assign c f s v in
  separate c v' -> equilibrium c f s ->
  iq_sw c v' == pcw (s_sat s) /\ iq_so c v' == pco (s_sat s) /\ iq_sg c v' == pcg (s_sat s) /\
  pcw (iq_pressures c f v') == pcw (s_p s) /\
  pco (iq_pressures c f v') == pco (s_p s) /\
  pcg (iq_pressures c f v') == pcg (s_p s).
Proof.
  intros SE A s v v' S [N1 [N2 [N3 [SUM [Z1 [Z2 [Z3 [C1 C2]]]]]]]].
  assert (B : m_brine v' = BDisabled).
  { unfold v', assign. rewrite no_salt.
    repeat match goal with |- context [match ?x with _ => _ end] => destruct x end; reflexivity. }
  destruct (assign_good c f SE s v A) as [PF MF]. fold v' in PF, MF.
  destruct SE as [SE1 [SE2 [SE3 [SE4 SE5]]]].
  set (gasP := present (gasEnabled c) (pcg (s_sat s))).
  set (oilP := present (oilEnabled c) (pco (s_sat s))).
  set (watP := present (waterEnabled c) (pcw (s_sat s))).
  assert (XG : gasP = false -> pcg (s_sat s) == 0).
  { unfold gasP, present. destruct (gasEnabled c); [|auto]. intros E. apply Qltb_ge in E. lra. }
  assert (XO : oilP = false -> pco (s_sat s) == 0).
  { unfold oilP, present. destruct (oilEnabled c); [|auto]. intros E. apply Qltb_ge in E. lra. }
  assert (XW : watP = false -> pcw (s_sat s) == 0).
  { unfold watP, present. destruct (waterEnabled c); [|auto]. intros E. apply Qltb_ge in E. lra. }
  assert (V : m_water v' =
    (if watP && gasP then Sw
    else if gasP && vapwat c then Rvw
    else if watP && disgasw c then Rsw
    else if waterEnabled c && negb (numActivePhases c =? 1)%nat then Sw
    else WDisabled) /\ m_gas v' =
    (if gasP && oilP then Sg
    else if oilP && disgas c then Rs
    else if gasP && vapoil c then Rv
    else if gasEnabled c && oilEnabled c then Sg
    else GDisabled) /\
    pressure_ c f v' ==
    match m_pressure v' with Po => pco (s_p s) | Pg => pcg (s_p s) | Pw => pcw (s_p s) end /\
    (m_water v' = Sw -> val v' (waterSwitchIdx (idx c)) = pcw (s_sat s)) /\
    (m_gas v' = Sg -> val v' (compositionSwitchIdx (idx c)) = pcg (s_sat s))).
  { assert (WP : m_water v' <> WDisabled -> waterSwitchIdx (idx c) <> pressureSwitchIdx (idx c))
      by (intros E; exact (water_pressure_apart v' S E)).
    assert (GP : m_gas v' <> GDisabled ->
       compositionSwitchIdx (idx c) <> pressureSwitchIdx (idx c) /\
       (m_water v' <> WDisabled -> waterSwitchIdx (idx c) <> compositionSwitchIdx (idx c))).
    { intros E. destruct (entries_apart c v' S E) as [D1 [D2 _]]. split; [exact D1|].
      intros E2. exact (proj2 (D2 E2)). }
    revert WP GP. clear - scale. unfold v', assign. fold gasP oilP watP.
    match goal with |- context [mkVars (val v) ?mw ?mp ?mg ?mb _] =>
      generalize mb; generalize mp; generalize mg; generalize mw end.
    clear v'. intros mw mg mp mb.
    set (p := match mp with Po => pco (s_p s) | Pg => pcg (s_p s) | Pw => pcw (s_p s) end).
    unfold pressure_, setScaledPressure_.
    generalize (waterSwitchIdx (idx c)). generalize (compositionSwitchIdx (idx c)).
    generalize (pressureSwitchIdx (idx c)). intros ip ig iw WP GP.
    assert (R : forall w, m_water w = mw -> m_pressure w = mp -> m_gas w = mg ->
       val w ip = p / f_scale f ->
       (mw = Sw -> val w iw = pcw (s_sat s)) ->
       (mg = Sg -> val w ig = pcg (s_sat s)) ->
       m_water w = mw /\ m_gas w = mg /\ val w ip * f_scale f ==
         match m_pressure w with Po => pco (s_p s) | Pg => pcg (s_p s) | Pw => pcw (s_p s) end /\
       (m_water w = Sw -> val w iw = pcw (s_sat s)) /\ (m_gas w = Sg -> val w ig = pcg (s_sat s))).
    { intros w E1 E2 E3 EP EW EG. rewrite E1, E2, E3, EP. repeat split; auto. fold p. field. exact scale. }
    destruct mw, mg; cbn in WP, GP;
      try (assert (N1 : iw <> ip) by (apply WP; discriminate));
      try (assert (N2 : ig <> ip) by (apply GP; discriminate));
      try (assert (N3 : iw <> ig) by (apply GP; discriminate)); clear WP GP;
      apply R; try reflexivity; try discriminate; intros;
      repeat first [rewrite set_same | rewrite set_other by congruence]; reflexivity. }
  destruct V as [MW [MG [VP [VW VG]]]].
  clearbody v'.
  assert (YG : gasP = true -> gasEnabled c = true)
    by (unfold gasP, present; destruct (gasEnabled c); auto).
  assert (YO : oilP = true -> oilEnabled c = true)
    by (unfold oilP, present; destruct (oilEnabled c); auto).
  assert (YW : watP = true -> waterEnabled c = true)
    by (unfold watP, present; destruct (waterEnabled c); auto).
  clearbody gasP oilP watP.
  assert (E1 : iq_sw c v' == pcw (s_sat s)).
  { unfold iq_sw. destruct (waterEnabled c) eqn:W; [|symmetry; auto].
    destruct (m_water v') eqn:E.
    - rewrite VW by reflexivity. reflexivity.
    - destruct watP, gasP; cbn in MW; try discriminate.
      + destruct (disgasw c), (numActivePhases c =? 1)%nat; discriminate.
      + symmetry. auto.
      + destruct (negb (numActivePhases c =? 1)%nat); discriminate.
    - assert (X : watP = true /\ gasP = false /\ disgasw c = true).
      { destruct watP, gasP, (vapwat c), (disgasw c); cbn in MW; try discriminate; auto;
          destruct (negb (numActivePhases c =? 1)%nat); discriminate. }
      destruct X as [X1 [X2 X3]]. destruct (SE4 X3) as [O _].
      specialize (XG X2). specialize (Z2 O). lra.
    - assert (X : (numActivePhases c =? 1)%nat = true).
      { destruct (numActivePhases c =? 1)%nat; [reflexivity|].
        destruct watP, gasP, (vapwat c), (disgasw c); discriminate. }
      apply Nat.eqb_eq in X. unfold numActivePhases in X. rewrite W in X.
      destruct (oilEnabled c), (gasEnabled c); cbn in X; try lia.
      specialize (Z2 eq_refl). specialize (Z3 eq_refl). lra. }
  assert (E2 : iq_sg0 c v' == pcg (s_sat s)).
  { unfold iq_sg0. destruct (gasEnabled c) eqn:G; [|symmetry; auto].
    destruct (m_gas v') eqn:E.
    - rewrite VG by reflexivity. reflexivity.
    - destruct gasP, oilP; cbn in MG; try discriminate.
      + destruct (vapoil c), (oilEnabled c); discriminate.
      + symmetry. auto.
      + destruct (oilEnabled c); discriminate.
    - assert (X : oilP = false).
      { destruct gasP, oilP, (disgas c); cbn in MG; try discriminate; try reflexivity.
        destruct (oilEnabled c); discriminate. }
      specialize (XO X). rewrite E1. lra.
    - assert (X : oilEnabled c = false).
      { destruct (oilEnabled c); [|reflexivity].
        destruct gasP, oilP, (disgas c), (vapoil c); discriminate. }
      specialize (Z2 X). destruct (waterEnabled c); [rewrite E1; lra|].
      specialize (Z1 eq_refl). lra. }
  assert (E3 : iq_so c v' == pco (s_sat s)).
  { unfold iq_so. rewrite no_ss. destruct (oilEnabled c); rewrite E1, E2; lra. }
  assert (E4 : iq_sg c v' == pcg (s_sat s)).
  { unfold iq_sg. rewrite no_ss. destruct (oilEnabled c), (gasEnabled c); rewrite E2; lra. }
  split; [exact E1|]. split; [exact E3|]. split; [exact E4|].
  destruct (pc_proper _ _ _ _ _ _ E3 E4 E1) as [P1 [P2 P3]].
  unfold iq_pressures. rewrite factor_one by congruence.
  set (pv := f_pc f (iq_so c v') (iq_sg c v') (iq_sw c v')) in *.
  set (pw := f_pc f (pco (s_sat s)) (pcg (s_sat s)) (pcw (s_sat s))) in *.
  cbv zeta in C1, C2.
  clearbody pv pw. destruct pv as [[a1 a2] a3], pw as [[b1 b2] b3].
  destruct (s_p s) as [[q1 q2] q3].
  unfold pcw, pco, pcg in *. cbn [fst snd] in *. rewrite VP.
  destruct (m_pressure v'); repeat split; lra.
Qed.
End Cont.
