From Verif Require Import BoVarsModel BoVarsSpec BoVarsProofs.

Section Stable.
Variable c : config.
Variable f : fluid.

Hypothesis no_salt : enableSaltPrecipitation c = false.
Hypothesis no_soluble : enableSolvent c && soluble c = false.
Hypothesis no_vapwat : vapwat c = false.
Hypothesis no_disgasw : disgasw c = false.

(** Without those options the function is much shorter. *)
Lemma adapt_plain : forall swMax thr eps v,
  m_water v = Sw \/ m_water v = WDisabled -> m_gas v <> GDisabled ->
  adapt c f swMax thr eps v =
    if Qle_bool thr (read_sw c v) then water_filled c swMax (read_sw c v) v
    else gas_stage c f eps (pcFactor c f v) (read_sw c v) (read_sg c v) v.
Proof.
  intros swMax thr eps v W G.
  assert (E1 : brine_stage c f eps v = (v, 0)) by (unfold brine_stage; rewrite no_salt; reflexivity).
  assert (E2 : solvent_stage c f eps 0 v = v)
    by (unfold solvent_stage; rewrite no_soluble; reflexivity).
  assert (E3 : forall pcf sw sg, water_stage c f eps 0 pcf sw sg v = (v, false)).
  { intros. unfold water_stage. rewrite no_vapwat, no_disgasw, !andb_false_r.
    destruct W as [-> | ->]; reflexivity. }
  unfold adapt. rewrite E1. cbv zeta. rewrite E2, no_disgasw, E3. cbn [negb]. rewrite andb_true_r.
  destruct (gas_stage c f eps (pcFactor c f v) (read_sw c v) (read_sg c v) v) as [v4 c2].
  cbn [orb]. destruct W as [W|W]; rewrite W; destruct (m_gas v); try reflexivity; congruence.
Qed.

Lemma read_sw_other : forall v w, m_water v = m_water w ->
  (m_water v = Sw -> val v (waterSwitchIdx (idx c)) = val w (waterSwitchIdx (idx c))) ->
  read_sw c v = read_sw c w.
Proof.
  intros v w E H. unfold read_sw. rewrite <- E. destruct (m_water v); auto.
Qed.

Lemma entries_apart : forall v, separate c v -> m_gas v <> GDisabled ->
  compositionSwitchIdx (idx c) <> pressureSwitchIdx (idx c) /\
  (m_water v <> WDisabled -> waterSwitchIdx (idx c) <> pressureSwitchIdx (idx c) /\
                            waterSwitchIdx (idx c) <> compositionSwitchIdx (idx c)) /\
  (m_solvent v <> SDisabled -> solventSaturationIdx (idx c) <> pressureSwitchIdx (idx c) /\
                               solventSaturationIdx (idx c) <> compositionSwitchIdx (idx c)) /\
  (m_brine v <> BDisabled -> saltConcentrationIdx (idx c) <> pressureSwitchIdx (idx c) /\
                               saltConcentrationIdx (idx c) <> compositionSwitchIdx (idx c)) /\
  (m_water v <> WDisabled -> m_solvent v <> SDisabled ->
     waterSwitchIdx (idx c) <> solventSaturationIdx (idx c)).
Proof.
  intros v S G. unfold separate, entries in S.
  generalize dependent (compositionSwitchIdx (idx c)).
  generalize dependent (waterSwitchIdx (idx c)).
  generalize dependent (saltConcentrationIdx (idx c)).
  generalize dependent (solventSaturationIdx (idx c)).
  generalize dependent (pressureSwitchIdx (idx c)).
  intros ip is ib iw ig S.
  assert (S' : NoDup (ip :: (match m_water v with WDisabled => [] | _ => [iw] end) ++ [ig] ++
      (match m_brine v with BDisabled => [] | _ => [ib] end) ++
      (match m_solvent v with SDisabled => [] | _ => [is] end)))
    by (destruct (m_gas v); try exact S; congruence).
  clear S. set (W := match m_water v with WDisabled => [] | _ => [iw] end) in *.
  set (B := match m_brine v with BDisabled => [] | _ => [ib] end) in *.
  set (L := match m_solvent v with SDisabled => [] | _ => [is] end) in *.
  assert (IW : m_water v <> WDisabled -> In iw W)
    by (unfold W; destruct (m_water v); cbn; auto; congruence).
  assert (IL : m_solvent v <> SDisabled -> In is L)
    by (unfold L; destruct (m_solvent v); cbn; auto; congruence).
  assert (IB : m_brine v <> BDisabled -> In ib B)
    by (unfold B; destruct (m_brine v); cbn; auto; congruence).
  clearbody W B L. inversion S' as [|? ? N1 N2]; subst.
  pose proof (NoDup_remove_2 _ _ _ N2) as N3.
  assert (N4 : forall x, In x W -> In x (B ++ L) -> False).
  { intros x. apply NoDup_remove_1 in N2. clear - N2. induction W as [|y r IH]; [intros []|].
    cbn in N2. inversion N2; subst. intros [->|I] J; [|auto]. apply H1, in_or_app; auto. }
  split; [intros ->; apply N1, in_or_app; right; left; reflexivity|].
  split; [|split; [|split]].
  - intros H. specialize (IW H). split; intros ->.
    + apply N1, in_or_app; auto.
    + apply N3, in_or_app; auto.
  - intros H. specialize (IL H). split; intros ->.
    + apply N1. apply in_or_app; right. right. apply in_or_app; auto.
    + apply N3. apply in_or_app; right. apply in_or_app; auto.
  - intros H. specialize (IB H). split; intros ->.
    + apply N1. apply in_or_app; right. right. apply in_or_app; auto.
    + apply N3. apply in_or_app; right. apply in_or_app; auto.
  - intros H1 H2 ->. apply (N4 is); [auto|]. apply in_or_app; right; auto.
Qed.

Lemma qmin_le_l a b : qmin a b <= a.
Proof. destruct (qmin_spec a b) as [[H ->]|[H ->]]; lra. Qed.
Lemma qmin_le_r a b : qmin a b <= b.
Proof. destruct (qmin_spec a b) as [[H ->]|[H ->]]; lra. Qed.
Lemma qmin_mono a b d : b <= d -> qmin a b <= qmin a d.
Proof.
  intros. destruct (qmin_spec a b) as [[H1 ->]|[H1 ->]]; destruct (qmin_spec a d) as [[H2 ->]|[H2 ->]]; lra.
Qed.

Hypothesis scale : ~ f_scale f == 0.
Hypothesis rs_pos : forall p s m, 0 <= f_rsSat f p s m.
Hypothesis rv_pos : forall p m, 0 <= f_rvSat f p m.
Hypothesis rv_proper : forall p q m, p == q -> f_rvSat f p m == f_rvSat f q m.

Lemma same_refl : forall v, same v v.
Proof. intros v. split; [intros; reflexivity|]. repeat split. Qed.

Lemma Qltb_false_intro : forall a b, b <= a -> Qltb a b = false.
Proof. intros. apply Qltb_ge. assumption. Qed.

Lemma gas_stage_twice : forall eps eps' v v' b,
  0 <= eps -> 0 <= eps' -> separate c v -> m_gas v <> GDisabled ->
  m_water v = Sw \/ m_water v = WDisabled ->
  gas_stage c f eps (pcFactor c f v) (read_sw c v) (read_sg c v) v = (v', b) ->
  (eps' >= eps \/ b = true) ->
  read_sw c v' = read_sw c v /\ m_water v' = m_water v /\ m_gas v' <> GDisabled /\
  gas_stage c f eps' (pcFactor c f v') (read_sw c v') (read_sg c v') v' = (v', false).
Proof.
  intros eps eps' v v' b P P' S G W H EB.
  destruct (entries_apart v S G) as [D1 [D2 [D3 [D4 D5]]]].
  destruct (gas_meanings c f _ _ _ _ _ _ _ H) as [K1 [K2 [K3 [K4 [K5 K6]]]]].
  set (ig := compositionSwitchIdx (idx c)) in *.
  set (ip := pressureSwitchIdx (idx c)) in *.
  (* only the pressure and the composition entry change *)
  assert (O : forall i, i <> ig -> i <> ip -> val v' i = val v i).
  { intros i N1 N2. apply Z.eqb_neq in N1, N2.
    unfold gas_stage, sg_to_rs, sg_to_rv, setScaledPressure_ in H. fold ip ig in H.
    destruct (m_gas v); repeat match type of H with
      | context [if ?b then _ else _] => destruct b end;
      injection H as <- <-; cbn; rewrite ?N1, ?N2; reflexivity. }
  assert (RW : read_sw c v' = read_sw c v).
  { apply read_sw_other; [exact K1|]. intros E. rewrite K1 in E.
    destruct D2 as [D2 D2']; [congruence|]. apply O; auto. }
  assert (RS : solventSaturation_ c v' = solventSaturation_ c v).
  { unfold solventSaturation_. rewrite K3. destruct (enableSolvent c); [|reflexivity].
    destruct (m_solvent v) eqn:E; try reflexivity.
    destruct D3 as [D3 D3']; [congruence|]. apply O; auto. }
  split; [exact RW|]. split; [exact K1|].
  assert (GD : m_gas v' <> GDisabled).
  { destruct (gas_pressure_meaning c f _ _ _ _ _ _ _ H) as [[A _]|[[_ [A _]]|[[_ [A _]]|[[_ [A _]]|[_ [A _]]]]]];
      congruence. }
  split; [exact GD|]. rewrite RW.
  destruct b.
  2:{ rewrite (K4 eq_refl) in *. destruct EB as [EB|EB]; [|discriminate].
      unfold gas_stage, sg_to_rs, sg_to_rv in H |- *. fold ip ig in H |- *.
      destruct (m_gas v) eqn:E.
      - destruct (Qltb (read_sg c v) (- eps) && _ && _) eqn:C1;
          [match type of H with context [if ?b then _ else _] => destruct b end; discriminate H|].
        destruct (Qltb (1 - read_sw c v - solventSaturation_ c v - read_sg c v) (- eps) && _ && _) eqn:C2;
          [discriminate H|].
        assert (C1' : Qltb (read_sg c v) (- eps') && Qltb 0 (1 - read_sw c v - solventSaturation_ c v) && disgas c = false).
        { apply andb_false_iff in C1 as [C1|C1]; [|rewrite C1, andb_false_r; reflexivity].
          apply andb_false_iff in C1 as [C1|C1]; [|rewrite C1, andb_false_r; reflexivity].
          apply Qltb_ge in C1. rewrite (Qltb_false_intro (read_sg c v) (- eps')) by lra. reflexivity. }
        rewrite C1'.
        assert (C2' : Qltb (1 - read_sw c v - solventSaturation_ c v - read_sg c v) (- eps') && Qltb 0 (read_sg c v) && vapoil c = false).
        { apply andb_false_iff in C2 as [C2|C2]; [|rewrite C2, andb_false_r; reflexivity].
          apply andb_false_iff in C2 as [C2|C2]; [|rewrite C2, andb_false_r; reflexivity].
          apply Qltb_ge in C2.
          rewrite (Qltb_false_intro (1 - read_sw c v - solventSaturation_ c v - read_sg c v) (- eps')) by lra. reflexivity. }
        rewrite C2'. reflexivity.
      - match type of H with context [if ?b then _ else _] => destruct b eqn:C1 end; [discriminate H|].
        apply Qltb_ge in C1. rewrite Qltb_false_intro; [reflexivity|].
        eapply Qle_trans; [exact C1|]. apply qmin_mono.
        rewrite !(Qmult_comm _ (1 + _)). apply Qmult_le_compat_r; [lra|apply rs_pos].
      - match type of H with context [if ?b then _ else _] => destruct b eqn:C1 end; [discriminate H|].
        apply Qltb_ge in C1. rewrite Qltb_false_intro; [reflexivity|].
        eapply Qle_trans; [exact C1|]. apply qmin_mono.
        rewrite !(Qmult_comm _ (1 + _)). apply Qmult_le_compat_r; [lra|apply rv_pos].
      - reflexivity. }
  clear EB.
  unfold gas_stage in H |- *. fold ip ig in H |- *.
  destruct (m_gas v) eqn:E; [| | |congruence].
  - unfold sg_to_rs in H. fold ip ig in H.
    destruct (Qltb (read_sg c v) (- eps) && Qltb 0 (1 - read_sw c v - solventSaturation_ c v) && disgas c) eqn:C1.
    + (* Rs *)
      apply andb_true_iff in C1 as [C1 _]. apply andb_true_iff in C1 as [C1 _]. apply Qltb_lt in C1.
      unfold sg_to_rv in H. fold ip ig in H.
      rewrite (Qltb_false_intro 0 (read_sg c v)) in H by lra.
      rewrite andb_false_r, andb_false_l in H.
      injection H as E1. subst v'. cbn [m_gas set_gas set].
      rewrite RS.
      match goal with |- context [Qltb ?a ?b] => assert (C : Qltb a b = false) end.
      { apply Qltb_ge. rewrite set_same. apply qmin_mono.
        assert (PR : pressure_ c f (set ig (qmin (f_rsMax f)
           (f_rsSat f (pressure_ c f v) (1 - read_sw c v - solventSaturation_ c v)
              (qmax (1 - read_sw c v - solventSaturation_ c v) (f_maxSo f)))) (set_gas Rs v)) = pressure_ c f v).
        { unfold pressure_. fold ip. rewrite set_other by auto. reflexivity. }
        rewrite PR.
        set (r := f_rsSat f _ _ _). assert (0 <= r) by apply rs_pos. clearbody r.
        assert (0 <= r * eps') by (apply Qmult_le_0_compat; assumption).
        rewrite Qmult_plus_distr_r, Qmult_1_r. lra. }
      rewrite C. reflexivity.
    + unfold sg_to_rv in H. fold ip ig in H.
      destruct (Qltb (1 - read_sw c v - solventSaturation_ c v - read_sg c v) (- eps) && Qltb 0 (read_sg c v) && vapoil c) eqn:C2;
        [|discriminate H].
      set (pg := pressure_ c f v + _) in H. clearbody pg.
      injection H as E1. subst v'. cbn [m_gas set_gas set setScaledPressure_ set_pressure].
      match goal with |- context [Qltb ?a ?b] => assert (C : Qltb a b = false) end.
      { apply Qltb_ge. rewrite set_same. apply qmin_mono.
        unfold pressure_. fold ip. rewrite set_other by auto.
        change (val (set_gas Rv (setScaledPressure_ c f pg (set_pressure Pg v))) ip)
          with (val (setScaledPressure_ c f pg (set_pressure Pg v)) ip).
        unfold setScaledPressure_. fold ip. rewrite set_same.
        rewrite (rv_proper (pg / f_scale f * f_scale f) pg (f_maxSo f)) by (field; exact scale).
        set (r := f_rvSat f _ _). assert (0 <= r) by apply rv_pos. clearbody r.
        assert (0 <= r * eps') by (apply Qmult_le_0_compat; assumption).
        rewrite Qmult_plus_distr_r, Qmult_1_r. lra. }
      rewrite C. reflexivity.
  - match type of H with context [if ?b then _ else _] => destruct b eqn:C1 end; [|discriminate H].
    injection H as E1. subst v'. cbn [m_gas set_gas set].
    unfold sg_to_rs, sg_to_rv.
    assert (Z0 : read_sg c (set ig 0 (set_gas Sg v)) = 0).
    { unfold read_sg. cbn [m_gas set set_gas]. apply set_same. }
    rewrite Z0. rewrite (Qltb_false_intro 0 (- eps')) by lra. cbn [andb].
    rewrite (Qltb_false_intro 0 0) by lra. rewrite andb_false_r. cbn [andb]. reflexivity.
  - match type of H with context [if ?b then _ else _] => destruct b eqn:C1 end; [|discriminate H].
    set (po := pressure_ c f v + _) in H. clearbody po.
    injection H as E1. subst v'. cbn [m_gas set_gas set setScaledPressure_ set_pressure].
    unfold sg_to_rs.
    match goal with |- context [read_sg c ?w] => assert (Z0 : read_sg c w = 1 - read_sw c v - solventSaturation_ c v) end.
    { unfold read_sg. cbn [m_gas set set_gas setScaledPressure_ set_pressure]. apply set_same. }
    rewrite Z0, RS.
    set (s2 := 1 - read_sw c v - solventSaturation_ c v) in *.
    assert (ES : s2 == 1 - read_sw c v - solventSaturation_ c v) by reflexivity. clearbody s2.
    assert (C : Qltb s2 (- eps') && Qltb 0 s2 && disgas c = false).
    { destruct (Qltb s2 (- eps')) eqn:X; [|reflexivity]. apply Qltb_lt in X.
      rewrite (Qltb_false_intro 0 s2) by lra. reflexivity. }
    rewrite C. unfold sg_to_rv. rewrite RS.
    match goal with |- context [Qltb ?a (- eps')] => rewrite (Qltb_false_intro a (- eps')) end; [reflexivity|].
    lra.
Qed.

Lemma adapt_twice : forall swMax thr eps eps' v v' b v'' b',
  0 <= eps -> 0 <= eps' -> (eps <= eps' \/ b = true) ->
  separate c v -> meanings_fit c v -> m_gas v <> GDisabled ->
  compositionSwitchEnabled c = true ->
  adapt c f swMax thr eps v = (v', b) -> adapt c f swMax thr eps' v' = (v'', b') ->
  same v'' v' /\ b' = false.
Proof.
  intros swMax thr eps eps' v v' b v'' b' P P' EB S MF G CE H H'.
  assert (W : m_water v = Sw \/ m_water v = WDisabled).
  { destruct MF as [_ [_ [M3 M4]]]. destruct (m_water v); auto.
    - rewrite M4 in no_vapwat by reflexivity; discriminate.
    - rewrite M3 in no_disgasw by reflexivity; discriminate. }
  rewrite (adapt_plain _ _ _ _ W G) in H.
  destruct (Qle_bool thr (read_sw c v)) eqn:T.
  - destruct (water_filled_meanings c _ _ _ _ _ H) as [M1 [_ [_ [_ [M5 _]]]]].
    rewrite CE in M5.
    assert (W' : m_water v' = Sw \/ m_water v' = WDisabled) by (rewrite M1; exact W).
    assert (G' : m_gas v' <> GDisabled) by congruence.
    rewrite (adapt_plain _ _ _ _ W' G') in H'.
    set (iw := waterSwitchIdx (idx c)) in *. set (ig := compositionSwitchIdx (idx c)) in *.
    assert (VG : val v' ig = 0 /\ (waterEnabled c = true -> m_water v <> WDisabled -> val v' iw = qmin swMax (read_sw c v))).
    { destruct (entries_apart v S G) as [_ [D2 _]]. fold iw ig in D2.
      unfold water_filled in H. rewrite CE in H. fold iw ig in H.
      assert (X : forall m : bool, val (if m then set_gas Sg (set ig 0 (if waterEnabled c then set iw (qmin swMax (read_sw c v)) v else v))
                 else set ig 0 (if waterEnabled c then set iw (qmin swMax (read_sw c v)) v else v)) ig = 0).
      { intros []; cbn [val set_gas]; apply set_same. }
      split.
      - assert (E : v' = fst (v', b)) by reflexivity. rewrite E, <- H. cbn [fst]. apply X.
      - intros WE WD. destruct (D2 WD) as [_ D]. assert (E : v' = fst (v', b)) by reflexivity.
        rewrite E, <- H. cbn [fst]. rewrite WE.
        match goal with |- context [if ?m then _ else _] => destruct m end;
          [change (val (set_gas Sg ?w) iw) with (val w iw)|];
          rewrite set_other by exact D; apply set_same. }
    destruct VG as [VG VW].
    assert (SG : read_sg c v' = 0) by (unfold read_sg; rewrite M5; exact VG).
    destruct (Qle_bool thr (read_sw c v')) eqn:T'.
    + unfold water_filled in H'. rewrite M5, CE in H'. cbn [andb] in H'. fold iw ig in H'.
      assert (b' = false) by congruence. subst b'.
      assert (E : v'' = set ig 0 (if waterEnabled c then set iw (qmin swMax (read_sw c v')) v' else v')) by congruence.
      split; [|reflexivity]. subst v''. split; [|destruct (waterEnabled c); repeat split].
      intros i. destruct (Z.eq_dec i ig) as [->|Ni]; [rewrite set_same, VG; reflexivity|].
      rewrite set_other by exact Ni. destruct (waterEnabled c) eqn:WE; [|reflexivity].
      destruct (Z.eq_dec i iw) as [->|Nw]; [|rewrite set_other by exact Nw; reflexivity].
      rewrite set_same.
      assert (WD : m_water v <> WDisabled).
      { intros E. destruct MF as [MF1 [MF2 _]]. apply MF2 in E. rewrite WE in E. cbn in E.
        apply negb_false_iff in E. apply Nat.eqb_eq in E. unfold numActivePhases in E. rewrite WE in E.
        apply G, MF1. destruct (oilEnabled c), (gasEnabled c); try reflexivity; cbn in E; lia. }
      specialize (VW eq_refl WD). rewrite VW.
      assert (RW : read_sw c v' = qmin swMax (read_sw c v)).
      { unfold read_sw at 1. rewrite M1. destruct W as [E|E]; [rewrite E; exact VW|congruence]. }
      rewrite RW. destruct (qmin_spec swMax (read_sw c v)) as [[A ->]|[A ->]].
      * destruct (qmin_spec swMax swMax) as [[B ->]|[B ->]]; reflexivity.
      * destruct (qmin_spec swMax (read_sw c v)) as [[B ->]|[B ->]]; [lra|reflexivity].
    + unfold gas_stage, sg_to_rs, sg_to_rv in H'. rewrite M5, SG in H'.
      rewrite (Qltb_false_intro 0 (- eps')) in H' by lra. cbn [andb] in H'.
      rewrite (Qltb_false_intro 0 0), andb_false_r in H' by lra. cbn [andb orb] in H'.
      injection H' as <- <-. split; [apply same_refl|reflexivity].
  - destruct (gas_stage_twice _ eps' _ _ _ P P' S G W H) as [RW [M1 [GD GS]]].
    { destruct EB as [EB|EB]; [left; exact EB|right; exact EB]. }
    assert (W' : m_water v' = Sw \/ m_water v' = WDisabled) by (rewrite M1; exact W).
    rewrite (adapt_plain _ _ _ _ W' GD) in H'. rewrite RW, T in H'. rewrite RW in GS.
    rewrite GS in H'. injection H' as <- <-. split; [apply same_refl|reflexivity].
Qed.
End Stable.
