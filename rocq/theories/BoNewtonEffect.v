From Verif Require Import BoNewtonModel BoNewtonSpec BoVarsProofs BoStableProofs BoContProofs BoNewtonProofs.

Local Arguments Qplus : simpl never.
Local Arguments Qminus : simpl never.
Local Arguments Qmult : simpl never.
Local Arguments Qdiv : simpl never.
Local Arguments Qopp : simpl never.

Section Effect.
Variable c : config.
Variable f : fluid.
Local Notation x := (idx c).

(** * Which entries the switching can touch *)
Lemma set_away : forall i j y v, i <> j -> val (set j y v) i = val v i.
Proof. intros. apply set_other. assumption. Qed.

Lemma brine_frame : forall eps v v1 salt i, brine_stage c f eps v = (v1, salt) ->
  i <> saltConcentrationIdx x -> val v1 i = val v i.
Proof.
  intros eps v v1 salt i H N. unfold brine_stage in H.
  destruct (enableSaltPrecipitation c); [|injection H as <- <-; reflexivity].
  destruct (m_brine v); injection H as <- <-; try reflexivity;
    match goal with |- context [if ?b then _ else _] => destruct b end; try reflexivity;
    rewrite set_away by exact N; reflexivity.
Qed.

Lemma solvent_frame : forall eps salt v i, i <> solventSaturationIdx x ->
  val (solvent_stage c f eps salt v) i = val v i.
Proof.
  intros eps salt v i N. unfold solvent_stage. destruct (enableSolvent c && soluble c); [|reflexivity].
  destruct (m_solvent v); try reflexivity;
    match goal with |- context [if ?b then _ else _] => destruct b end; try reflexivity;
    rewrite set_away by exact N; reflexivity.
Qed.

Lemma water_filled_frame : forall swMax sw v v1 b i, water_filled c swMax sw v = (v1, b) ->
  i <> waterSwitchIdx x -> i <> compositionSwitchIdx x -> val v1 i = val v i.
Proof.
  intros swMax sw v v1 b i H N1 N2. unfold water_filled in H.
  assert (E : v1 = fst (v1, b)) by reflexivity. rewrite E, <- H. cbn [fst]. clear H E.
  destruct (match m_gas v with Sg => false | _ => true end), (compositionSwitchEnabled c), (waterEnabled c);
    cbn [andb set_gas val]; rewrite ?set_away by assumption; reflexivity.
Qed.

Lemma water_frame : forall eps salt pcf sw sg v v1 b i,
  water_stage c f eps salt pcf sw sg v = (v1, b) ->
  i <> waterSwitchIdx x -> i <> pressureSwitchIdx x -> val v1 i = val v i.
Proof.
  intros eps salt pcf sw sg v v1 b i H N1 N2. unfold water_stage in H.
  assert (E : v1 = fst (v1, b)) by reflexivity. rewrite E, <- H. clear H E.
  destruct (m_water v);
    repeat match goal with |- context [if ?b then _ else _] => destruct b end;
    cbn [fst]; unfold setScaledPressure_; rewrite ?set_away by assumption;
    cbn [val set_pressure]; rewrite ?set_away by assumption; reflexivity.
Qed.

Lemma gas_frame : forall eps pcf sw sg v v1 b i,
  gas_stage c f eps pcf sw sg v = (v1, b) ->
  i <> compositionSwitchIdx x -> i <> pressureSwitchIdx x -> val v1 i = val v i.
Proof.
  intros eps pcf sw sg v v1 b i H N1 N2. unfold gas_stage, sg_to_rs, sg_to_rv in H.
  assert (E : v1 = fst (v1, b)) by reflexivity. rewrite E, <- H. clear H E.
  destruct (m_gas v);
    repeat match goal with |- context [if ?b then _ else _] => destruct b end;
    cbn [fst]; unfold setScaledPressure_; rewrite ?set_away by assumption;
    cbn [val set_pressure set_gas]; rewrite ?set_away by assumption;
    cbn [val set_pressure set_gas]; rewrite ?set_away by assumption; reflexivity.
Qed.

Lemma adapt_frame : forall swMax thr eps v v' b i, adapt c f swMax thr eps v = (v', b) ->
  i <> pressureSwitchIdx x -> i <> waterSwitchIdx x -> i <> compositionSwitchIdx x ->
  i <> saltConcentrationIdx x -> i <> solventSaturationIdx x -> val v' i = val v i.
Proof.
  intros swMax thr eps v v' b i H N1 N2 N3 N4 N5.
  destruct (adapt_cases c f _ _ _ _ _ _ H) as [[_ [_ [-> _]]]|[_ [v1 [salt [EB X]]]]]; [reflexivity|].
  cbv zeta in X. rewrite <- (brine_frame _ _ _ _ i EB N4).
  rewrite <- (solvent_frame eps salt v1 i N5).
  destruct X as [[_ [_ W]]|[_ [v3 [c1 [c2 [W [G _]]]]]]].
  - exact (water_filled_frame _ _ _ _ _ i W N2 N3).
  - rewrite (gas_frame _ _ _ _ _ _ _ i G N3 N1). exact (water_frame _ _ _ _ _ _ _ _ i W N2 N1).
Qed.

Lemma chop_frame : forall v i, i <> waterSwitchIdx x -> i <> compositionSwitchIdx x ->
  i <> solventSaturationIdx x -> val (fst (chop c v)) i = val v i.
Proof.
  intros v i N1 N2 N3. unfold chop.
  destruct (m_water v) eqn:E1, (m_gas v) eqn:E2; cbv zeta; cbn [fst m_gas m_solvent set];
    rewrite ?E2; cbn [m_gas m_solvent set]; destruct (m_solvent v);
    rewrite ?set_away by assumption; reflexivity.
Qed.

Lemma chop_meanings : forall v, same_meanings (fst (chop c v)) v.
Proof.
  intros v. unfold chop, same_meanings.
  destruct (m_water v) eqn:E1, (m_gas v) eqn:E2; cbv zeta; cbn [fst m_gas m_solvent set];
    rewrite ?E2; cbn [m_gas m_solvent set]; destruct (m_solvent v) eqn:E3;
    cbn; rewrite ?E1, ?E2, ?E3; auto.
Qed.

(** * Distinct entries *)
Hypothesis L : layout x.

Lemma differ : forall i j, (i < 15)%nat -> (j < 15)%nat -> i <> j -> (0 <= name x i)%Z ->
  name x i <> name x j.
Proof. exact (proj1 L). Qed.

Lemma layout_separate : forall v, in_use c v -> separate c v.
Proof.
  intros v [U1 [U2 [U3 U4]]]. unfold separate, entries.
  pose proof (proj1 (proj2 (proj2 L))) as U0.
  assert (D01 := fun H => differ 0 1 ltac:(lia) ltac:(lia) ltac:(lia) H).
  assert (D02 := fun H => differ 0 2 ltac:(lia) ltac:(lia) ltac:(lia) H).
  assert (D03 := fun H => differ 0 3 ltac:(lia) ltac:(lia) ltac:(lia) H).
  assert (D0S := fun H => differ 0 13 ltac:(lia) ltac:(lia) ltac:(lia) H).
  assert (D12 := fun H => differ 1 2 ltac:(lia) ltac:(lia) ltac:(lia) H).
  assert (D13 := fun H => differ 1 3 ltac:(lia) ltac:(lia) ltac:(lia) H).
  assert (D1S := fun H => differ 1 13 ltac:(lia) ltac:(lia) ltac:(lia) H).
  assert (D23 := fun H => differ 2 3 ltac:(lia) ltac:(lia) ltac:(lia) H).
  assert (D2S := fun H => differ 2 13 ltac:(lia) ltac:(lia) ltac:(lia) H).
  assert (D3S := fun H => differ 3 13 ltac:(lia) ltac:(lia) ltac:(lia) H).
  unfold name in *. cbn [nth names] in *. clear L.
  specialize (D01 U0). specialize (D02 U0). specialize (D03 U0). specialize (D0S U0).
  set (ip := pressureSwitchIdx x) in *. clearbody ip.
  set (iw := waterSwitchIdx x) in *. clearbody iw.
  set (ig := compositionSwitchIdx x) in *. clearbody ig.
  set (is := solventSaturationIdx x) in *. clearbody is.
  set (ib := saltConcentrationIdx x) in *. clearbody ib.
  assert (W : m_water v <> WDisabled -> iw <> ig /\ iw <> is /\ iw <> ib) by (intros E; specialize (U1 E); auto).
  assert (G : m_gas v <> GDisabled -> ig <> is /\ ig <> ib) by (intros E; specialize (U2 E); auto).
  assert (B : m_solvent v <> SDisabled -> is <> ib) by (intros E; specialize (U4 E); auto).
  clear U1 U2 U3 U4 D12 D13 D1S D23 D2S D3S.
  assert (W' : exists b, (match m_water v with WDisabled => [] | _ => [iw] end) = (if b : bool then [iw] else [])
                         /\ (b = true -> m_water v <> WDisabled)).
  { destruct (m_water v); [exists true|exists true|exists true|exists false]; split; auto; discriminate. }
  assert (G' : exists b, (match m_gas v with GDisabled => [] | _ => [ig] end) = (if b : bool then [ig] else [])
                         /\ (b = true -> m_gas v <> GDisabled)).
  { destruct (m_gas v); [exists true|exists true|exists true|exists false]; split; auto; discriminate. }
  assert (B' : exists b, (match m_brine v with BDisabled => [] | _ => [ib] end) = (if b : bool then [ib] else [])).
  { destruct (m_brine v); [exists true|exists true|exists false]; auto. }
  assert (S' : exists b, (match m_solvent v with SDisabled => [] | _ => [is] end) = (if b : bool then [is] else [])
                         /\ (b = true -> m_solvent v <> SDisabled)).
  { destruct (m_solvent v); [exists true|exists true|exists false]; split; auto; discriminate. }
  destruct W' as [bw [-> Xw]], G' as [bg [-> Xg]], B' as [bb ->], S' as [bs [-> Xs]].
  destruct bw; [specialize (W (Xw eq_refl))|clear W]; clear Xw;
  (destruct bg; [specialize (G (Xg eq_refl))|clear G]; clear Xg);
  (destruct bs; [specialize (B (Xs eq_refl))|clear B]; clear Xs);
  destruct bb; cbn [app]; repeat constructor; cbn [In]; intuition congruence.
Qed.

(** * The values of factors after switching *)
Lemma adapt_gas_value : forall swMax thr eps v v' b, in_use c v -> nonneg_fluid f ->
  adapt c f swMax thr eps v = (v', b) ->
  (m_gas v = Rs \/ m_gas v = Rv -> 0 <= val v (compositionSwitchIdx x)) ->
  m_gas v' = Rs \/ m_gas v' = Rv -> 0 <= val v' (compositionSwitchIdx x).
Proof.
  intros swMax thr eps v v' b [U1 [U2 [U3 U4]]] NF H P M.
  destruct NF as [F1 [F2 [F3 [F4 [F5 [F6 [F7 F8]]]]]]].
  destruct (adapt_cases c f _ _ _ _ _ _ H) as [[_ [_ [-> _]]]|[N [v1 [salt [EB X]]]]]; [auto|].
  cbv zeta in X.
  destruct (brine_meanings c f _ _ _ _ EB) as [B1 [B2 [B3 B4]]].
  destruct (solvent_meanings c f eps salt v1) as [S1 [S2 [S3 S4]]].
  assert (CE : m_gas v <> GDisabled -> (0 <= compositionSwitchIdx x)%Z) by exact U2.
  pose proof (fun H => solvent_frame eps salt v1 (compositionSwitchIdx x) H) as FS.
  pose proof (fun H => brine_frame eps v v1 salt (compositionSwitchIdx x) EB H) as FB.
  set (v2 := solvent_stage c f eps salt v1) in *. clearbody v2.
  rewrite B2 in S2.
  destruct X as [[_ [_ W]]|[_ [v3 [c1 [c2 [W [G _]]]]]]].
  { exfalso. destruct (water_filled_meanings c _ _ _ _ _ W) as [_ [_ [_ [_ [E _]]]]].
    destruct (compositionSwitchEnabled c) eqn:CS; [destruct M; congruence|].
    assert (GV : m_gas v <> GDisabled).
    { rewrite E in M. intros X. rewrite S2, X in M. destruct M; discriminate. }
    specialize (CE GV). unfold compositionSwitchEnabled in CS. apply Z.leb_gt in CS. lia. }
  destruct (water_meanings c f _ _ _ _ _ _ _ _ W) as [M1 _].
  assert (GV : m_gas v <> GDisabled).
  { intros E. destruct (gas_meanings c f _ _ _ _ _ _ _ G) as [_ [_ [_ [G4 [_ G6]]]]].
    rewrite <- S2, <- M1 in E. specialize (G6 E). subst c2. rewrite (G4 eq_refl) in M. destruct M; congruence. }
  specialize (CE GV).
  assert (N0 : compositionSwitchIdx x <> pressureSwitchIdx x) by (exact (differ 2 0 ltac:(lia) ltac:(lia) ltac:(lia) CE)).
  assert (N1 : compositionSwitchIdx x <> waterSwitchIdx x) by (exact (differ 2 1 ltac:(lia) ltac:(lia) ltac:(lia) CE)).
  assert (N3 : compositionSwitchIdx x <> solventSaturationIdx x) by (exact (differ 2 3 ltac:(lia) ltac:(lia) ltac:(lia) CE)).
  assert (N4 : compositionSwitchIdx x <> saltConcentrationIdx x) by (exact (differ 2 13 ltac:(lia) ltac:(lia) ltac:(lia) CE)).
  assert (V3 : val v3 (compositionSwitchIdx x) = val v (compositionSwitchIdx x)).
  { rewrite (water_frame _ _ _ _ _ _ _ _ _ W N1 N0). rewrite (FS N3). exact (FB N4). }
  rewrite S2 in M1.
  unfold gas_stage, sg_to_rs, sg_to_rv in G.
  assert (Q1 : forall a b, 0 <= a -> 0 <= b -> 0 <= qmin a b).
  { intros a d A B. destruct (qmin_spec a d) as [[_ ->]|[_ ->]]; assumption. }
  assert (E : v' = fst (v', c2)) by reflexivity. rewrite <- G in E. clear G.
  destruct (m_gas v3) eqn:EG.
  - match type of E with context [if ?b then _ else _] => destruct b end;
    match type of E with context [if ?b then _ else _] => destruct b end; cbn [fst] in E; subst v';
      [rewrite set_same; apply Q1; auto..|].
    exfalso. destruct M; congruence.
  - match type of E with context [if ?b then _ else _] => destruct b end; cbn [fst] in E; subst v';
      [cbn in M; destruct M; discriminate|].
    rewrite V3. apply P. rewrite <- M1. auto.
  - match type of E with context [if ?b then _ else _] => destruct b end; cbn [fst] in E; subst v';
      [cbn in M; destruct M; discriminate|].
    rewrite V3. apply P. rewrite <- M1. auto.
  - cbn [fst] in E. subst v'. destruct M; congruence.
Qed.

Lemma adapt_water_value : forall swMax thr eps v v' b, in_use c v -> nonneg_fluid f ->
  adapt c f swMax thr eps v = (v', b) ->
  (m_water v = Rsw \/ m_water v = Rvw -> 0 <= val v (waterSwitchIdx x)) ->
  (m_water v = Rsw \/ m_water v = Rvw -> waterEnabled c = true -> read_sw c v < thr \/ disgasw c = true) ->
  m_water v' = Rsw \/ m_water v' = Rvw -> 0 <= val v' (waterSwitchIdx x).
Proof.
  intros swMax thr eps v v' b [U1 [U2 [U3 U4]]] NF H P NW M.
  destruct NF as [F1 [F2 [F3 [F4 [F5 [F6 [F7 F8]]]]]]].
  destruct (adapt_cases c f _ _ _ _ _ _ H) as [[_ [_ [-> _]]]|[N [v1 [salt [EB X]]]]]; [auto|].
  cbv zeta in X.
  destruct (brine_meanings c f _ _ _ _ EB) as [B1 [B2 [B3 B4]]].
  destruct (solvent_meanings c f eps salt v1) as [S1 [S2 [S3 S4]]].
  pose proof (fun H => solvent_frame eps salt v1 (waterSwitchIdx x) H) as FS.
  pose proof (fun H => brine_frame eps v v1 salt (waterSwitchIdx x) EB H) as FB.
  set (v2 := solvent_stage c f eps salt v1) in *. clearbody v2.
  rewrite B1 in S1.
  assert (WD : m_water v <> WDisabled).
  { intros E. destruct X as [[_ [_ W]]|[_ [v3 [c1 [c2 [W [G _]]]]]]].
    - destruct (water_filled_meanings c _ _ _ _ _ W) as [E1 _]. rewrite E1, S1, E in M. destruct M; discriminate.
    - destruct (gas_meanings c f _ _ _ _ _ _ _ G) as [G1 _].
      destruct (water_meanings c f _ _ _ _ _ _ _ _ W) as [_ [_ [_ [M4 [_ [_ M7]]]]]].
      rewrite <- S1 in E. specialize (M4 (M7 E)). rewrite G1, M4, E in M. destruct M; discriminate. }
  specialize (U1 WD).
  assert (N0 : waterSwitchIdx x <> pressureSwitchIdx x) by (exact (differ 1 0 ltac:(lia) ltac:(lia) ltac:(lia) U1)).
  assert (N2 : waterSwitchIdx x <> compositionSwitchIdx x) by (exact (differ 1 2 ltac:(lia) ltac:(lia) ltac:(lia) U1)).
  assert (N3 : waterSwitchIdx x <> solventSaturationIdx x) by (exact (differ 1 3 ltac:(lia) ltac:(lia) ltac:(lia) U1)).
  assert (N4 : waterSwitchIdx x <> saltConcentrationIdx x) by (exact (differ 1 13 ltac:(lia) ltac:(lia) ltac:(lia) U1)).
  assert (V2 : val v2 (waterSwitchIdx x) = val v (waterSwitchIdx x)).
  { rewrite (FS N3). exact (FB N4). }
  assert (Q1 : forall a b, 0 <= a -> 0 <= b -> 0 <= qmin a b).
  { intros a d A B. destruct (qmin_spec a d) as [[_ ->]|[_ ->]]; assumption. }
  destruct X as [[T [DG W]]|[_ [v3 [c1 [c2 [W [G _]]]]]]].
  { destruct (water_filled_meanings c _ _ _ _ _ W) as [E1 _]. rewrite E1, S1 in M.
    destruct (waterEnabled c) eqn:WE.
    - destruct (NW M eq_refl) as [X|X]; [lra|congruence].
    - unfold water_filled in W. rewrite WE in W.
      assert (E : v' = fst (v', b)) by reflexivity. rewrite <- W in E. clear W. cbn [fst] in E.
      assert (E' : val v' (waterSwitchIdx x) = val v2 (waterSwitchIdx x)).
      { rewrite E. destruct (compositionSwitchEnabled c); rewrite ?andb_true_r, ?andb_false_r;
          [|reflexivity].
        destruct (match m_gas v2 with Sg => false | _ => true end); cbn [val set_gas];
          rewrite set_away by exact N2; reflexivity. }
      rewrite E', V2. apply P, M. }
  destruct (gas_meanings c f _ _ _ _ _ _ _ G) as [G1 _].
  rewrite (gas_frame _ _ _ _ _ _ _ _ G N2 N0). rewrite G1 in M. clear G.
  assert (E : v3 = fst (v3, c1)) by reflexivity. unfold water_stage in W. rewrite <- W in E. clear W.
  rewrite S1 in E. destruct (m_water v) eqn:EW.
  - repeat match type of E with context [if ?b then _ else _] => destruct b end; cbn [fst] in E; subst v3.
    + rewrite set_same. auto.
    + unfold setScaledPressure_. rewrite set_away by exact N0. cbn [val set_pressure].
      rewrite set_same. auto.
    + rewrite S1 in M. destruct M; discriminate.
  - match type of E with context [if ?b then _ else _] => destruct b end; cbn [fst] in E; subst v3.
    + cbn in M. destruct M; discriminate.
    + rewrite V2. apply P. auto.
  - match type of E with context [if ?b then _ else _] => destruct b end; cbn [fst] in E; subst v3.
    + cbn in M. destruct M; discriminate.
    + rewrite V2. apply P. auto.
  - congruence.
Qed.
End Effect.
