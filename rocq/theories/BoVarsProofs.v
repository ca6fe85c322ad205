From Verif Require Import BoVarsModel BoVarsSpec.

Lemma qmin_spec a b : (a <= b /\ qmin a b = a) \/ (b < a /\ qmin a b = b).
Proof.
  unfold qmin. destruct (Qltb b a) eqn:E; [right; apply Qltb_lt in E | left; apply Qltb_ge in E]; auto.
Qed.
Lemma qmax_spec a b : (b <= a /\ qmax a b = a) \/ (a < b /\ qmax a b = b).
Proof.
  unfold qmax. destruct (Qltb a b) eqn:E; [right; apply Qltb_lt in E | left; apply Qltb_ge in E]; auto.
Qed.

Lemma clamp01_spec x :
  (x < 0 /\ clamp01 x = 0) \/ (0 <= x /\ x <= 1 /\ clamp01 x = x) \/ (1 < x /\ clamp01 x = 1).
Proof.
  unfold clamp01.
  destruct (qmax_spec x 0) as [[A ->]|[A ->]].
  - destruct (qmin_spec x 1) as [[B ->]|[B ->]]; [right; left|right; right]; auto.
  - destruct (qmin_spec 0 1) as [[B ->]|[B ->]]; [left; auto | lra].
Qed.

Lemma clamp01_range x : 0 <= clamp01 x /\ clamp01 x <= 1.
Proof. destruct (clamp01_spec x) as [[A ->]|[[A [B ->]]|[A ->]]]; lra. Qed.

(** The saturations add up to one before they are cut, so to at least one afterwards. *)
Lemma clamped_sum a b d :
  1 <= clamp01 a + clamp01 (1 - a - b - d) + clamp01 b + clamp01 d.
Proof.
  pose proof (clamp01_range a). pose proof (clamp01_range b). pose proof (clamp01_range d).
  pose proof (clamp01_range (1 - a - b - d)).
  destruct (clamp01_spec a) as [[A1 E1]|[[A1 [B1 E1]]|[A1 E1]]];
  destruct (clamp01_spec b) as [[A2 E2]|[[A2 [B2 E2]]|[A2 E2]]];
  destruct (clamp01_spec d) as [[A3 E3]|[[A3 [B3 E3]]|[A3 E3]]];
  destruct (clamp01_spec (1 - a - b - d)) as [[A4 E4]|[[A4 [B4 E4]]|[A4 E4]]];
  rewrite ?E1, ?E2, ?E3, ?E4 in *; lra.
Qed.

Lemma clamp01_id x : 0 <= x -> x <= 1 -> clamp01 x = x.
Proof. intros. destruct (clamp01_spec x) as [[A E]|[[A [B E]]|[A E]]]; auto; lra. Qed.

Lemma div_fraction a st : 0 <= a -> a <= st -> 1 <= st -> 0 <= a / st /\ a / st <= 1.
Proof.
  intros A B S. split.
  - apply Qle_shift_div_l; lra.
  - apply Qle_shift_div_r; lra.
Qed.

Arguments clamp01 : simpl never.
Local Arguments Qplus : simpl never.
Local Arguments Qminus : simpl never.
Local Arguments Qmult : simpl never.
Local Arguments Qdiv : simpl never.
Local Arguments Qopp : simpl never.
Local Arguments Qeq_bool : simpl never.
Local Arguments Z.eqb : simpl never.

Section Chop.
Variable c : config.

(** The sum the saturations are divided by. *)
Definition total (v : vars) : Q :=
  clamp01 (water_of c v) + clamp01 (1 - water_of c v - gas_of c v - solvent_of c v) +
  clamp01 (gas_of c v) + clamp01 (solvent_of c v).

Lemma total_ge v : 1 <= total v.
Proof. unfold total. exact (clamped_sum (water_of c v) (gas_of c v) (solvent_of c v)). Qed.

Lemma set_same i x v : val (set i x v) i = x.
Proof. unfold set; cbn. rewrite Z.eqb_refl. reflexivity. Qed.
Lemma set_other i j x v : j <> i -> val (set i x v) j = val v j.
Proof. intros N. unfold set; cbn. apply Z.eqb_neq in N. rewrite N. reflexivity. Qed.

Definition store (a g s : Q) (v : vars) : vars :=
  let v1 := match m_water v with Sw => set (waterSwitchIdx (idx c)) a v | _ => v end in
  let v2 := match m_gas v1 with Sg => set (compositionSwitchIdx (idx c)) g v1 | _ => v1 end in
  match m_solvent v2 with Ss => set (solventSaturationIdx (idx c)) s v2 | _ => v2 end.

Lemma store_effect : forall a g s v, separate c v ->
  same_meanings (store a g s v) v /\
  water_of c (store a g s v) = (match m_water v with Sw => a | _ => 0 end) /\
  gas_of c (store a g s v) = (match m_gas v with Sg => g | _ => 0 end) /\
  solvent_of c (store a g s v) = (match m_solvent v with Ss => s | _ => 0 end) /\
  (forall i, ~ (m_water v = Sw /\ i = waterSwitchIdx (idx c)) ->
             ~ (m_gas v = Sg /\ i = compositionSwitchIdx (idx c)) ->
             ~ (m_solvent v = Ss /\ i = solventSaturationIdx (idx c)) ->
             val (store a g s v) i = val v i).
Proof.
  intros a g s v S.
  assert (D : (m_water v = Sw -> m_gas v = Sg -> waterSwitchIdx (idx c) <> compositionSwitchIdx (idx c)) /\
              (m_water v = Sw -> m_solvent v = Ss -> waterSwitchIdx (idx c) <> solventSaturationIdx (idx c)) /\
              (m_gas v = Sg -> m_solvent v = Ss -> compositionSwitchIdx (idx c) <> solventSaturationIdx (idx c))).
  { unfold separate, entries in S. inversion S as [|? ? _ S1]; subst.
    split; [|split]; intros E1 E2; rewrite E1, E2 in S1; clear -S1; cbn in S1; intros E.
    - inversion S1 as [|? ? I _]; subst. apply I. rewrite E. left; reflexivity.
    - inversion S1 as [|? ? I _]; subst. apply I. rewrite E.
      apply in_or_app; right. apply in_or_app; right. left; reflexivity.
    - apply NoDup_remove_2 with (l := match m_water v with WDisabled => [] | _ => [waterSwitchIdx (idx c)] end)
        in S1. apply S1. apply in_or_app; right. apply in_or_app; right. rewrite E. left; reflexivity. }
  destruct D as [D1 [D2 D3]]. clear S.
  unfold same_meanings, water_of, gas_of, solvent_of, store.
  generalize dependent (waterSwitchIdx (idx c)). generalize dependent (compositionSwitchIdx (idx c)).
  generalize dependent (solventSaturationIdx (idx c)). intros is ig D3 iw D1 D2.
  destruct v as [vv mw mp mg mb ms]; cbn in *.
  destruct mw, mg, ms; cbn; rewrite ?Z.eqb_refl;
    try (specialize (D1 eq_refl eq_refl)); try (specialize (D2 eq_refl eq_refl));
    try (specialize (D3 eq_refl eq_refl));
    repeat match goal with
    | D : ?a <> ?b |- _ =>
        rewrite ?(proj2 (Z.eqb_neq a b) D), ?(proj2 (Z.eqb_neq b a) (fun E => D (eq_sym E))); clear D
    end;
    (split; [repeat split|]); (split; [reflexivity|]); (split; [reflexivity|]);
    (split; [reflexivity|]);
    intros i H1 H2 H3;
    repeat match goal with
    | |- context [Z.eqb i ?b] => destruct (Z.eqb_spec i b); [exfalso; auto|]
    end; reflexivity.
Qed.

Lemma chop_store : forall v, ~ single_phase v -> chop c v =
  (store (clamp01 (water_of c v) / total v) (clamp01 (gas_of c v) / total v)
         (clamp01 (solvent_of c v) / total v) v, negb (Qeq_bool (total v) 1)).
Proof.
  intros v N. unfold single_phase in N. unfold chop.
  destruct v as [vv mw mp mg mb ms]; cbn in *.
  destruct mw, mg; try reflexivity. exfalso; auto.
Qed.

(** What the function stores, by the meaning of the variables. *)
Lemma chop_effect : forall v v' b, separate c v -> ~ single_phase v -> chop c v = (v', b) ->
  same_meanings v' v /\
  water_of c v' = (match m_water v with Sw => clamp01 (water_of c v) / total v | _ => 0 end) /\
  gas_of c v' = (match m_gas v with Sg => clamp01 (gas_of c v) / total v | _ => 0 end) /\
  solvent_of c v' = (match m_solvent v with Ss => clamp01 (solvent_of c v) / total v | _ => 0 end) /\
  (forall i, ~ (m_water v = Sw /\ i = waterSwitchIdx (idx c)) ->
             ~ (m_gas v = Sg /\ i = compositionSwitchIdx (idx c)) ->
             ~ (m_solvent v = Ss /\ i = solventSaturationIdx (idx c)) -> val v' i = val v i) /\
  b = negb (Qeq_bool (total v) 1).
Proof.
  intros v v' b S N H. rewrite (chop_store v N) in H.
  assert (E1 : v' = store (clamp01 (water_of c v) / total v) (clamp01 (gas_of c v) / total v)
         (clamp01 (solvent_of c v) / total v) v) by congruence.
  assert (E2 : b = negb (Qeq_bool (total v) 1)) by congruence. clear H.
  destruct (store_effect (clamp01 (water_of c v) / total v) (clamp01 (gas_of c v) / total v)
         (clamp01 (solvent_of c v) / total v) v S) as [A1 [A2 [A3 [A4 A5]]]].
  rewrite <- E1 in *. split; [exact A1|]. split; [exact A2|]. split; [exact A3|].
  split; [exact A4|]. split; [exact A5|exact E2].
Qed.

Lemma chop_values : forall v v' b, separate c v -> ~ single_phase v -> chop c v = (v', b) ->
  water_of c v' == clamp01 (water_of c v) / total v /\
  gas_of c v' == clamp01 (gas_of c v) / total v /\
  solvent_of c v' == clamp01 (solvent_of c v) / total v /\
  rest_of c v' == clamp01 (rest_of c v) / total v.
Proof.
  intros v v' b S N H. destruct (chop_effect v v' b S N H) as [_ [W [G [V _]]]].
  pose proof (total_ge v) as T.
  assert (Z0 : 0 == clamp01 0 / total v).
  { change (clamp01 0) with 0. field. lra. }
  assert (W' : water_of c v' == clamp01 (water_of c v) / total v).
  { rewrite W. destruct (m_water v) eqn:E; [reflexivity|..];
      (assert (E0 : water_of c v = 0) by (unfold water_of; rewrite E; reflexivity));
      rewrite E0; exact Z0. }
  assert (G' : gas_of c v' == clamp01 (gas_of c v) / total v).
  { rewrite G. destruct (m_gas v) eqn:E; [reflexivity|..];
      (assert (E0 : gas_of c v = 0) by (unfold gas_of; rewrite E; reflexivity));
      rewrite E0; exact Z0. }
  assert (V' : solvent_of c v' == clamp01 (solvent_of c v) / total v).
  { rewrite V. destruct (m_solvent v) eqn:E; [reflexivity|..];
      (assert (E0 : solvent_of c v = 0) by (unfold solvent_of; rewrite E; reflexivity));
      rewrite E0; exact Z0. }
  split; [exact W'|]. split; [exact G'|]. split; [exact V'|].
  unfold rest_of. rewrite W', G', V'.
  assert (E : total v == clamp01 (water_of c v) + clamp01 (1 - water_of c v - gas_of c v - solvent_of c v)
              + clamp01 (gas_of c v) + clamp01 (solvent_of c v)) by reflexivity.
  set (a := clamp01 (water_of c v)) in *. set (g := clamp01 (gas_of c v)) in *.
  set (s := clamp01 (solvent_of c v)) in *.
  set (o := clamp01 (1 - water_of c v - gas_of c v - solvent_of c v)) in *.
  clearbody a g s o. generalize dependent (total v). intros t T Z0 W G V W' G' V' E.
  assert (O : o == t - a - g - s) by (rewrite E; ring).
  rewrite O. field. lra.
Qed.

Lemma chop_physical : forall v v' b, separate c v -> ~ single_phase v -> chop c v = (v', b) ->
  physical c v'.
Proof.
  intros v v' b S N H. destruct (chop_values v v' b S N H) as [W [G [V R]]].
  pose proof (total_ge v) as T.
  assert (U : total v == clamp01 (water_of c v) + clamp01 (rest_of c v)
              + clamp01 (gas_of c v) + clamp01 (solvent_of c v)) by reflexivity.
  pose proof (clamp01_range (water_of c v)). pose proof (clamp01_range (gas_of c v)).
  pose proof (clamp01_range (solvent_of c v)). pose proof (clamp01_range (rest_of c v)).
  unfold physical, fraction. rewrite W, G, V, R.
  split; [|split; [|split]]; apply div_fraction; lra.
Qed.

Lemma chop_separate : forall v v' b, separate c v -> ~ single_phase v -> chop c v = (v', b) ->
  separate c v' /\ ~ single_phase v'.
Proof.
  intros v v' b S N H. destruct (chop_effect v v' b S N H) as [[Ew [Ep [Eg [Eb Es]]]] _].
  unfold separate, entries, single_phase in *. rewrite Ew, Eg, Eb, Es. auto.
Qed.

(** Nothing is done to saturations which are all right. *)
Lemma chop_fixed : forall v v' b, separate c v -> ~ single_phase v -> physical c v ->
  chop c v = (v', b) -> same v' v /\ b = false.
Proof.
  intros v v' b S N P H.
  destruct (chop_effect v v' b S N H) as [M [W [G [V [O B]]]]].
  destruct P as [[Pw0 Pw1] [[Pg0 Pg1] [[Ps0 Ps1] [Po0 Po1]]]].
  unfold rest_of in Po0, Po1.
  assert (T : total v == 1).
  { unfold total. rewrite !clamp01_id by assumption. ring. }
  split.
  - split; [|exact M]. intros i.
    destruct (m_water v) eqn:Ew; destruct (m_gas v) eqn:Eg; destruct (m_solvent v) eqn:Es;
    repeat match goal with
    | H : ?a = Sw |- _ =>
        destruct (Z.eq_dec i (waterSwitchIdx (idx c))) as [->|?];
        [ assert (X : water_of c v' == water_of c v)
            by (rewrite W; cbn; rewrite clamp01_id by assumption; rewrite T; field);
          destruct M as [M1 _]; unfold water_of in X; rewrite M1, Ew in X; exact X | ]; clear H
    | H : m_gas v = Sg |- _ =>
        destruct (Z.eq_dec i (compositionSwitchIdx (idx c))) as [->|?];
        [ assert (X : gas_of c v' == gas_of c v)
            by (rewrite G; cbn; rewrite clamp01_id by assumption; rewrite T; field);
          destruct M as [_ [_ [M1 _]]]; unfold gas_of in X; rewrite M1, Eg in X; exact X | ]; clear H
    | H : m_solvent v = Ss |- _ =>
        destruct (Z.eq_dec i (solventSaturationIdx (idx c))) as [->|?];
        [ assert (X : solvent_of c v' == solvent_of c v)
            by (rewrite V; cbn; rewrite clamp01_id by assumption; rewrite T; field);
          destruct M as [_ [_ [_ [_ M1]]]]; unfold solvent_of in X; rewrite M1, Es in X; exact X | ]; clear H
    end;
    rewrite O; try reflexivity; intros [? ?]; congruence.
  - rewrite B. assert (Q : Qeq_bool (total v) 1 = true) by (apply Qeq_bool_iff; exact T).
    rewrite Q. reflexivity.
Qed.

Lemma chop_twice : forall v v' b v'' b', separate c v -> ~ single_phase v ->
  chop c v = (v', b) -> chop c v' = (v'', b') -> same v'' v' /\ b' = false.
Proof.
  intros v v' b v'' b' S N H H'.
  destruct (chop_separate v v' b S N H) as [S' N'].
  exact (chop_fixed v' v'' b' S' N' (chop_physical v v' b S N H) H').
Qed.

(** The saturations the model computes from the variables. *)
Lemma physical_evaluated : forall v, physical c v ->
  (enableSolvent c = true <-> m_solvent v <> SDisabled) ->
  meanings_fit c v ->
  (m_gas v = Rv \/ m_water v = Rsw -> m_solvent v <> Ss) ->
  (m_water v = Rsw -> oilEnabled c = false) ->
  (oilEnabled c = false -> gasEnabled c = false -> m_solvent v <> Ss) ->
  fraction (iq_sw c v) /\ fraction (iq_so c v) /\ fraction (iq_sg c v) /\
  iq_sw c v + iq_so c v + iq_sg c v + solventSaturation_ c v == 1.
Proof.
  intros v [[Pw0 Pw1] [[Pg0 Pg1] [[Ps0 Ps1] [Po0 Po1]]]] HS [MG [MW [MR MV]]] X1 X2 X3.
  unfold rest_of in *.
  assert (SS : solventSaturation_ c v = solvent_of c v).
  { unfold solventSaturation_, solvent_of. destruct (enableSolvent c); [reflexivity|].
    destruct (m_solvent v); try reflexivity. exfalso.
    assert (false = true) by (apply HS; discriminate). discriminate. }
  unfold iq_so, iq_sg, fraction, iq_sg0, iq_sw in *. rewrite SS.
  unfold water_of, gas_of, solvent_of, numActivePhases in *.
  destruct v as [vv mw mp mg mb ms]; cbn in *.
  destruct c as [ix we oe ge es esp dg vo vw dw so]; cbn in *.
  destruct MG as [MG1 MG2]. destruct MW as [MW1 MW2].
  destruct mw, mg, we, oe, ge; cbn in *;
    try (discriminate (MG1 eq_refl)); try (discriminate (MG2 eq_refl));
    try (discriminate (MW1 eq_refl)); try (discriminate (MW2 eq_refl));
    try (discriminate (X2 eq_refl));
    destruct ms; try (exfalso; apply X1; auto; fail);
    try (exfalso; apply X3; auto; fail); lra.
Qed.

End Chop.

(** ** Adaptation *)
Section Adapt.
Variable c : config.
Variable f : fluid.

Lemma brine_meanings : forall eps v v1 salt, brine_stage c f eps v = (v1, salt) ->
  m_water v1 = m_water v /\ m_gas v1 = m_gas v /\ m_pressure v1 = m_pressure v /\
  m_solvent v1 = m_solvent v.
Proof.
  intros eps v v1 salt H. unfold brine_stage in H.
  destruct (enableSaltPrecipitation c); [|injection H as <- <-; auto].
  destruct (m_brine v); injection H as <- <-; auto;
    match goal with |- context [if ?b then _ else _] => destruct b end; cbn; auto.
Qed.

Lemma solvent_meanings : forall eps salt v,
  let v1 := solvent_stage c f eps salt v in
  m_water v1 = m_water v /\ m_gas v1 = m_gas v /\ m_pressure v1 = m_pressure v /\
  m_brine v1 = m_brine v.
Proof.
  intros eps salt v. cbn zeta. unfold solvent_stage.
  destruct (enableSolvent c && soluble c); [|auto].
  destruct (m_solvent v); auto;
    match goal with |- context [if ?b then _ else _] => destruct b end; cbn; auto.
Qed.

Lemma water_meanings : forall eps salt pcf sw sg v v1 b,
  water_stage c f eps salt pcf sw sg v = (v1, b) ->
  m_gas v1 = m_gas v /\ m_brine v1 = m_brine v /\ m_solvent v1 = m_solvent v /\
  (b = false -> v1 = v) /\ (b = true -> m_water v1 <> m_water v) /\
  (m_pressure v1 <> m_pressure v -> disgasw c = true \/ m_water v = Rsw) /\
  (m_water v = WDisabled -> b = false).
Proof.
  intros eps salt pcf sw sg v v1 b H. unfold water_stage in H.
  destruct (m_water v) eqn:E.
  - destruct (Qltb sw (- eps) && Qltb eps sg && vapwat c) eqn:C1.
    { injection H as <- <-. cbn. repeat split; auto; congruence. }
    destruct (Qltb sg (- eps) && Qltb eps sw && disgasw c) eqn:C2.
    { injection H as <- <-. apply andb_true_iff in C2 as [_ C2]. cbn.
      repeat split; auto; congruence. }
    injection H as <- <-. repeat split; auto; congruence.
  - match type of H with context [if ?b then _ else _] => destruct b eqn:C1 end;
      injection H as <- <-; cbn; repeat split; auto; congruence.
  - match type of H with context [if ?b then _ else _] => destruct b eqn:C1 end;
      injection H as <- <-; cbn; repeat split; auto; congruence.
  - injection H as <- <-. repeat split; auto; congruence.
Qed.

Lemma gas_meanings : forall eps pcf sw sg v v1 b,
  gas_stage c f eps pcf sw sg v = (v1, b) ->
  m_water v1 = m_water v /\ m_brine v1 = m_brine v /\ m_solvent v1 = m_solvent v /\
  (b = false -> v1 = v) /\ (b = true -> m_gas v1 <> m_gas v) /\
  (m_gas v = GDisabled -> b = false).
Proof.
  intros eps pcf sw sg v v1 b H. unfold gas_stage, sg_to_rs, sg_to_rv in H.
  destruct (m_gas v) eqn:E.
  - match type of H with context [if ?b then _ else _] => destruct b eqn:C1 end;
    match type of H with context [if ?b then _ else _] => destruct b eqn:C2 end;
      injection H as <- <-; cbn; repeat split; auto; congruence.
  - match type of H with context [if ?b then _ else _] => destruct b eqn:C1 end;
      injection H as <- <-; cbn; repeat split; auto; congruence.
  - match type of H with context [if ?b then _ else _] => destruct b eqn:C1 end;
      injection H as <- <-; cbn; repeat split; auto; congruence.
  - injection H as <- <-. repeat split; auto; congruence.
Qed.

Lemma water_filled_meanings : forall swMax sw v v1 b, water_filled c swMax sw v = (v1, b) ->
  m_water v1 = m_water v /\ m_pressure v1 = m_pressure v /\ m_brine v1 = m_brine v /\
  m_solvent v1 = m_solvent v /\
  m_gas v1 = (if compositionSwitchEnabled c then Sg else m_gas v) /\
  (b = false <-> m_gas v = Sg).
Proof.
  intros swMax sw v v1 b H. unfold water_filled in H.
  destruct (compositionSwitchEnabled c), (waterEnabled c), (m_gas v) eqn:E; cbn in H;
    injection H as <- <-; cbn; rewrite ?E; repeat split; auto; congruence.
Qed.

(** The way through the function. *)
Lemma adapt_cases : forall swMax thr eps v v' b, adapt c f swMax thr eps v = (v', b) ->
  (m_water v = WDisabled /\ m_gas v = GDisabled /\ v' = v /\ b = false) \/
  (~ (m_water v = WDisabled /\ m_gas v = GDisabled) /\
   exists v1 salt, brine_stage c f eps v = (v1, salt) /\
   let v2 := solvent_stage c f eps salt v1 in
   (thr <= read_sw c v /\ disgasw c = false /\
    water_filled c swMax (read_sw c v) v2 = (v', b)) \/
   ((read_sw c v < thr \/ disgasw c = true) /\
    exists v3 c1 c2,
      water_stage c f eps salt (pcFactor c f v2) (read_sw c v) (read_sg c v) v2 = (v3, c1) /\
      gas_stage c f eps (pcFactor c f v2) (read_sw c v) (read_sg c v) v3 = (v', c2) /\
      b = c1 || c2)).
Proof.
  intros swMax thr eps v v' b H. unfold adapt in H.
  assert (D : (m_water v = WDisabled /\ m_gas v = GDisabled) \/
              ~ (m_water v = WDisabled /\ m_gas v = GDisabled))
    by (destruct (m_water v), (m_gas v); intuition congruence).
  destruct D as [[D1 D2]|D].
  - left. rewrite D1, D2 in H. injection H as <- <-. auto.
  - right. split; [exact D|].
    assert (H' : (let sw := read_sw c v in
      let sg := read_sg c v in
      let '(v1, salt) := brine_stage c f eps v in
      let v2 := solvent_stage c f eps salt v1 in
      if Qle_bool thr sw && negb (disgasw c) then water_filled c swMax sw v2
      else
        let pcf := pcFactor c f v2 in
        let '(v3, c1) := water_stage c f eps salt pcf sw sg v2 in
        let '(v4, c2) := gas_stage c f eps pcf sw sg v3 in
        (v4, c1 || c2)) = (v', b)).
    { destruct (m_water v), (m_gas v); try exact H. exfalso; auto. }
    clear H. cbv zeta in H'. destruct (brine_stage c f eps v) as [v1 salt] eqn:EB.
    exists v1, salt. split; [reflexivity|]. cbv zeta.
    destruct (Qle_bool thr (read_sw c v) && negb (disgasw c)) eqn:EW.
    + left. apply andb_true_iff in EW as [E1 E2]. apply Qle_bool_iff in E1.
      apply negb_true_iff in E2. auto.
    + right. split.
      { apply andb_false_iff in EW as [E1|E1]; [left; apply Qleb_gt; exact E1|].
        right. apply negb_false_iff in E1. exact E1. }
      destruct (water_stage c f eps salt _ _ _ _) as [v3 c1] eqn:E3.
      destruct (gas_stage c f eps _ _ _ v3) as [v4 c2] eqn:E4.
      injection H' as <- <-. exists v3, c1, c2. auto.
Qed.

Definition three (v w : vars) : Prop :=
  m_water v = m_water w /\ m_pressure v = m_pressure w /\ m_gas v = m_gas w.

Lemma adapt_reports : forall swMax thr eps v v' b,
  (compositionSwitchEnabled c = true \/ m_gas v = Sg \/ read_sw c v < thr \/ disgasw c = true) ->
  adapt c f swMax thr eps v = (v', b) -> (b = false <-> three v' v).
Proof.
  intros swMax thr eps v v' b HC H.
  destruct (adapt_cases _ _ _ _ _ _ H) as [[E1 [E2 [-> ->]]]|[N [v1 [salt [EB X]]]]].
  { split; auto. intros _. unfold three; auto. }
  destruct (brine_meanings _ _ _ _ EB) as [B1 [B2 [B3 _]]].
  cbv zeta in X.
  destruct (solvent_meanings eps salt v1) as [S1 [S2 [S3 _]]].
  set (v2 := solvent_stage c f eps salt v1) in *. clearbody v2.
  destruct X as [[T [DG W]]|[T [v3 [c1 [c2 [W [G ->]]]]]]].
  - destruct (water_filled_meanings _ _ _ _ _ W) as [M1 [M2 [_ [_ [M5 M6]]]]].
    unfold three. rewrite M6, S2, B2, M1, M2, S1, S3, B1, B3, M5, S2, B2.
    destruct (compositionSwitchEnabled c) eqn:CE.
    + split; [intros E; auto | intros [_ [_ E]]; congruence].
    + split; [auto|]. intros _. destruct HC as [HC|[HC|[HC|HC]]]; [discriminate|auto|lra|congruence].
  - destruct (water_meanings _ _ _ _ _ _ _ _ W) as [M1 [_ [_ [M4 [M5 _]]]]].
    destruct (gas_meanings _ _ _ _ _ _ _ G) as [K1 [_ [_ [K4 [K5 _]]]]].
    unfold three. split.
    + intros E. apply orb_false_iff in E as [-> ->]. rewrite K4, M4 by reflexivity.
      rewrite S1, S2, S3. auto.
    + intros [E1 [_ E3]]. destruct c1.
      { exfalso. apply M5; [reflexivity|]. congruence. }
      destruct c2; [|reflexivity].
      exfalso. apply K5; [reflexivity|]. congruence.
Qed.

Lemma gas_pressure_meaning : forall eps pcf sw sg v v1 b,
  gas_stage c f eps pcf sw sg v = (v1, b) ->
  (m_gas v1 = m_gas v /\ m_pressure v1 = m_pressure v) \/
  (m_gas v = Sg /\ m_gas v1 = Rs /\ m_pressure v1 = m_pressure v) \/
  (m_gas v = Sg /\ m_gas v1 = Rv /\ m_pressure v1 = Pg) \/
  (m_gas v = Rs /\ m_gas v1 = Sg /\ m_pressure v1 = m_pressure v) \/
  (m_gas v = Rv /\ m_gas v1 = Sg /\ m_pressure v1 = Po).
Proof.
  intros eps pcf sw sg v v1 b H. unfold gas_stage, sg_to_rs, sg_to_rv in H.
  destruct (m_gas v) eqn:E.
  - match type of H with context [if ?b then _ else _] => destruct b eqn:C1 end;
    match type of H with context [if ?b then _ else _] => destruct b eqn:C2 end;
      injection H as <- <-; cbn; rewrite ?E; auto 6.
  - match type of H with context [if ?b then _ else _] => destruct b eqn:C1 end;
      injection H as <- <-; cbn; rewrite ?E; auto 8.
  - match type of H with context [if ?b then _ else _] => destruct b eqn:C1 end;
      injection H as <- <-; cbn; rewrite ?E; auto 8.
  - injection H as <- <-. rewrite E. auto.
Qed.

Lemma water_pressure_meaning : forall eps salt pcf sw sg v v1 b,
  water_stage c f eps salt pcf sw sg v = (v1, b) ->
  (m_water v1 = m_water v /\ m_pressure v1 = m_pressure v) \/
  (m_water v = Sw /\ m_water v1 = Rvw /\ m_pressure v1 = m_pressure v /\ vapwat c = true) \/
  (m_water v = Sw /\ m_water v1 = Rsw /\ m_pressure v1 = Pw /\ disgasw c = true) \/
  (m_water v = Rvw /\ m_water v1 = Sw /\ m_pressure v1 = m_pressure v) \/
  (m_water v = Rsw /\ m_water v1 = Sw /\ m_pressure v1 = Pg).
Proof.
  intros eps salt pcf sw sg v v1 b H. unfold water_stage in H.
  destruct (m_water v) eqn:E.
  - destruct (Qltb sw (- eps) && Qltb eps sg && vapwat c) eqn:C1.
    { injection H as <- <-. apply andb_true_iff in C1 as [_ C1]. cbn. auto 6. }
    destruct (Qltb sg (- eps) && Qltb eps sw && disgasw c) eqn:C2.
    { injection H as <- <-. apply andb_true_iff in C2 as [_ C2]. cbn. auto 8. }
    injection H as <- <-. rewrite E. auto.
  - match type of H with context [if ?b then _ else _] => destruct b eqn:C1 end;
      injection H as <- <-; cbn; rewrite ?E; auto 8.
  - match type of H with context [if ?b then _ else _] => destruct b eqn:C1 end;
      injection H as <- <-; cbn; rewrite ?E; auto 8.
  - injection H as <- <-. rewrite E; auto.
Qed.

Definition good (v : vars) : Prop := pressure_fits c v /\ meanings_fit c v.

Lemma water_good : sensible c -> forall eps salt pcf sw sg v v1 b,
  good v -> water_stage c f eps salt pcf sw sg v = (v1, b) -> good v1.
Proof.
  intros [C1 [C2 [C3 [C4 C5]]]] eps salt pcf sw sg v v1 b [PF [F1 [F2 [F3 F4]]]] W.
  destruct (water_meanings _ _ _ _ _ _ _ _ W) as [M1 _].
  pose proof (water_pressure_meaning _ _ _ _ _ _ _ _ W) as WP. clear W.
  unfold good, pressure_fits, meanings_fit in *. rewrite M1. clear M1.
  assert (D : disgasw c = true -> m_gas v = GDisabled).
  { intros E. destruct (C4 E) as [O _]. apply F1. rewrite O. reflexivity. }
  destruct WP as [[W1 W2]|[[W1 [W2 [W3 W4]]]|[[W1 [W2 [W3 W4]]]|[[W1 [W2 W3]]|[W1 [W2 W3]]]]]].
  - rewrite W1, W2. auto.
  - rewrite W2, W3. rewrite W1 in *. split; [exact PF|]. split; [exact F1|].
    split; [|split; [discriminate|auto]]. rewrite <- F2. split; discriminate.
  - rewrite W2, W3. rewrite W1 in *. destruct (C4 W4) as [O1 [O2 O3]]. rewrite (D W4) in *.
    rewrite O1, O3 in *. split; [reflexivity|]. split; [exact F1|].
    split; [|split; [auto|discriminate]]. rewrite <- F2. split; discriminate.
  - rewrite W2, W3. rewrite W1 in *. split; [exact PF|]. split; [exact F1|].
    split; [|split; discriminate]. rewrite <- F2. split; discriminate.
  - rewrite W2, W3. rewrite W1 in *. specialize (F3 eq_refl).
    destruct (C4 F3) as [O1 [O2 O3]]. rewrite (D F3) in *. rewrite O1, O3 in *.
    split; [reflexivity|]. split; [exact F1|].
    split; [|split; discriminate]. rewrite <- F2. split; discriminate.
Qed.

Lemma gas_good : forall eps pcf sw sg v v1 b,
  good v -> gas_stage c f eps pcf sw sg v = (v1, b) -> good v1.
Proof.
  intros eps pcf sw sg v v1 b [PF [F1 F2]] G.
  destruct (gas_meanings _ _ _ _ _ _ _ G) as [K1 _].
  pose proof (gas_pressure_meaning _ _ _ _ _ _ _ G) as GP. clear G.
  unfold good, pressure_fits, meanings_fit in *. rewrite K1. clear K1.
  destruct GP as [[G1 G2]|[[G1 [G2 G3]]|[[G1 [G2 G3]]|[[G1 [G2 G3]]|[G1 [G2 G3]]]]]];
    rewrite ?G2, ?G3; rewrite G1 in *; try (rewrite G2 in PF);
    (split; [auto|]); (split; [|exact F2]); auto;
    rewrite <- F1; split; discriminate.
Qed.

Lemma adapt_good : sensible c -> forall swMax thr eps v v' b,
  not_water_filled_gas c thr v -> good v -> adapt c f swMax thr eps v = (v', b) -> good v'.
Proof.
  intros [C1 [C2 [C3 [C4 C5]]]] swMax thr eps v v' b NW [PF [F1 [F2 [F3 F4]]]] H.
  destruct (adapt_cases _ _ _ _ _ _ H) as [[E1 [E2 [-> ->]]]|[N [v1 [salt [EB X]]]]].
  { split; [exact PF|]. split; [exact F1|]. split; [exact F2|]. split; [exact F3|exact F4]. }
  destruct (brine_meanings _ _ _ _ EB) as [B1 [B2 [B3 _]]].
  cbv zeta in X.
  destruct (solvent_meanings eps salt v1) as [S1 [S2 [S3 _]]].
  set (v2 := solvent_stage c f eps salt v1) in *. clearbody v2.
  rewrite B1 in S1. rewrite B2 in S2. rewrite B3 in S3. clear B1 B2 B3 EB v1.
  unfold good, pressure_fits, meanings_fit in *.
  destruct X as [[T [DG W]]|[T [v3 [c1 [c2 [W [G ->]]]]]]].
  - destruct (water_filled_meanings _ _ _ _ _ W) as [M1 [M2 [_ [_ [M5 _]]]]].
    rewrite M1, M2, M5, S1, S2, S3. rewrite C5 in *.
    unfold not_water_filled_gas in NW.
    assert (R : m_gas v <> Rv) by (intros E; apply NW in E; lra).
    destruct (oilEnabled c && gasEnabled c) eqn:OG.
    + split; [|split; [split; discriminate|auto]].
      rewrite PF. destruct (m_gas v) eqn:EG; auto; [congruence|].
      destruct F1 as [F1 _]. specialize (F1 eq_refl). discriminate.
    + split; [exact PF|]. auto.
  - apply (gas_good _ _ _ _ _ _ _ (water_good (conj C1 (conj C2 (conj C3 (conj C4 C5))))
      _ _ _ _ _ v2 _ _ ltac:(unfold good, pressure_fits, meanings_fit; rewrite S1, S2, S3; auto) W) G).
Qed.

Lemma assign_good : sensible c -> forall s v,
  (waterEnabled c = true \/ oilEnabled c = true \/ gasEnabled c = true) ->
  good (assign c f s v).
Proof.
  intros [C1 [C2 [C3 [C4 C5]]]] s v A. unfold good, assign.
  set (gasP := present (gasEnabled c) (pcg (s_sat s))).
  set (oilP := present (oilEnabled c) (pco (s_sat s))).
  set (watP := present (waterEnabled c) (pcw (s_sat s))).
  assert (XG : gasP = true -> gasEnabled c = true)
    by (unfold gasP, present; destruct (gasEnabled c); auto).
  assert (XO : oilP = true -> oilEnabled c = true)
    by (unfold oilP, present; destruct (oilEnabled c); auto).
  assert (XW : watP = true -> waterEnabled c = true)
    by (unfold watP, present; destruct (waterEnabled c); auto).
  clearbody gasP oilP watP.
  match goal with |- context [mkVars (val v) ?mw ?mp ?mg ?mb _] =>
    set (MW := mw); set (MP := mp); set (MG := mg); set (MB := mb) end.
  match goal with |- pressure_fits c ?w /\ _ =>
    assert (E : m_water w = MW /\ m_pressure w = MP /\ m_gas w = MG)
      by (destruct MG, MW; cbn; auto) end.
  destruct E as [E1 [E2 E3]]. unfold pressure_fits, meanings_fit. rewrite E1, E2, E3.
  clear E1 E2 E3. unfold MW, MP, MG, numActivePhases. clear MW MP MG MB.
  destruct (oilEnabled c), (gasEnabled c), (waterEnabled c);
  destruct (vapoil c) eqn:VO; try (exfalso; destruct (C1 eq_refl); discriminate);
  destruct (disgas c) eqn:DG; try (exfalso; destruct (C2 eq_refl); discriminate);
  destruct (vapwat c) eqn:VW; try (exfalso; destruct (C3 eq_refl); discriminate);
  destruct (disgasw c) eqn:DW; try (exfalso; destruct (C4 eq_refl) as [? [? ?]]; discriminate);
  destruct gasP; try (specialize (XG eq_refl); discriminate);
  destruct oilP; try (specialize (XO eq_refl); discriminate);
  destruct watP; try (specialize (XW eq_refl); discriminate);
  cbn; intuition congruence.
Qed.

End Adapt.

Lemma new_values_good : forall c v w, new_values v w -> good c v -> good c w.
Proof.
  intros c v w [E1 [E2 [E3 _]]] [P [M1 [M2 [M3 M4]]]].
  unfold good, pressure_fits, meanings_fit in *. rewrite <- E1, <- E2, <- E3.
  split; [exact P|]. split; [exact M1|]. split; [exact M2|]. split; assumption.
Qed.

Lemma reachable_good : forall c, sensible c ->
  (waterEnabled c = true \/ oilEnabled c = true \/ gasEnabled c = true) ->
  forall v, reachable c (not_water_filled_gas c) v -> good c v.
Proof.
  intros c S A v R. induction R as [f s v|v w R IH E|f swMax thr eps v R IH OK].
  - apply assign_good; assumption.
  - eapply new_values_good; eauto.
  - destruct (adapt c f swMax thr eps v) as [v' b] eqn:H. cbn.
    eapply adapt_good; eauto.
Qed.
