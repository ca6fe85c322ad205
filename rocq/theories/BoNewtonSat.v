From Verif Require Import BoNewtonModel BoNewtonSpec BoVarsProofs BoStableProofs BoContProofs BoNewtonProofs BoNewtonEffect.

Local Arguments Qplus : simpl never.
Local Arguments Qminus : simpl never.
Local Arguments Qmult : simpl never.
Local Arguments Qdiv : simpl never.
Local Arguments Qopp : simpl never.

(** * Scaling of the saturation updates *)
Lemma scaled : forall d m a, 0 <= d -> - m <= a <= m ->
  within d (a * (if Qltb d m then d / m else 1)) 0.
Proof.
  intros d m a D [A1 A2]. unfold within. destruct (Qltb d m) eqn:E.
  - apply Qltb_lt in E.
    assert (M : 0 < m) by lra.
    assert (K : 0 <= d / m) by (apply Qle_shift_div_l; lra).
    assert (X : d / m * m == d) by (field; lra).
    assert (Y1 : (- m) * (d / m) <= a * (d / m)) by (apply Qmult_le_compat_r; assumption).
    assert (Y2 : a * (d / m) <= m * (d / m)) by (apply Qmult_le_compat_r; assumption).
    assert (Z1 : (- m) * (d / m) == - d) by (rewrite <- X at 2; ring).
    assert (Z2 : m * (d / m) == d) by (rewrite <- X at 2; ring).
    lra.
  - apply Qltb_ge in E. lra.
Qed.

Lemma qabs_le a m : qabs a <= m -> - m <= a <= m.
Proof. intros H. destruct (qabs_spec a) as [[A E]|[A E]]; rewrite E in H; lra. Qed.
Lemma qmax_ge_l a b : a <= qmax a b.
Proof. destruct (qmax_spec a b) as [[H ->]|[H ->]]; lra. Qed.
Lemma qmax_ge_r a b : b <= qmax a b.
Proof. destruct (qmax_spec a b) as [[H ->]|[H ->]]; lra. Qed.

Section Scale.
Variable c : config.
Variable l : limits.
Variable cur : vars.
Variable upd : Z -> Q.
Hypothesis ds : 0 <= dsMax l.
Let alpha := satAlpha c l cur upd.

Lemma scaled_all :
  within (dsMax l) (deltaSw c cur upd * alpha) 0 /\ within (dsMax l) (deltaSg c cur upd * alpha) 0 /\
  within (dsMax l) (deltaSs c cur upd * alpha) 0 /\ within (dsMax l) (deltaSo c cur upd * alpha) 0.
Proof.
  unfold alpha, satAlpha. set (m := maxSatDelta c cur upd).
  assert (B : forall a, qabs a <= m -> within (dsMax l) (a * (if Qltb (dsMax l) m then dsMax l / m else 1)) 0).
  { intros a A. apply scaled; [exact ds|]. apply qabs_le, A. }
  assert (M : m = qmax (qmax (qmax (qabs (deltaSg c cur upd)) (qabs (deltaSo c cur upd)))
                  (qabs (deltaSw c cur upd))) (qabs (deltaSs c cur upd))) by reflexivity.
  set (ag := qabs (deltaSg c cur upd)) in *. set (ao := qabs (deltaSo c cur upd)) in *.
  set (aw := qabs (deltaSw c cur upd)) in *. set (as_ := qabs (deltaSs c cur upd)) in *.
  pose proof (qmax_ge_l ag ao). pose proof (qmax_ge_r ag ao).
  set (m1 := qmax ag ao) in *. pose proof (qmax_ge_l m1 aw). pose proof (qmax_ge_r m1 aw).
  set (m2 := qmax m1 aw) in *. pose proof (qmax_ge_l m2 as_). pose proof (qmax_ge_r m2 as_).
  rewrite <- M in *.
  split; [|split; [|split]]; apply B.
  - fold aw. lra.
  - fold ag. lra.
  - fold as_. lra.
  - fold ao. lra.
Qed.
End Scale.

(** * The effect of switching on the saturations *)
Section Project.
Variable c : config.
Variable f : fluid.
Hypothesis no_solvent : enableSolvent c = false.
Hypothesis no_salt : enableSaltPrecipitation c = false.

Definition so_of (v : vars) : Q := 1 - iq_sw c v - iq_sg0 c v.

Lemma water_effect : sensible c -> forall eps salt pcf v v3 b, 0 <= eps ->
  separate c v -> meanings_fit c v -> ~ single_phase v ->
  water_stage c f eps salt pcf (read_sw c v) (read_sg c v) v = (v3, b) ->
  (iq_sw c v3 == iq_sw c v /\ iq_sg0 c v3 == iq_sg0 c v) \/
  (iq_sw c v < 0 /\ 0 < read_sg c v /\ iq_sw c v3 == 0 /\
     (m_gas v = Sg /\ iq_sg0 c v3 == iq_sg0 c v \/
      m_gas v = GDisabled /\ oilEnabled c = false /\ iq_sg0 c v3 == 1)) \/
  (iq_sg0 c v < 0 /\ m_gas v = GDisabled /\ oilEnabled c = false /\ iq_sw c v3 == 1 /\ iq_sg0 c v3 == 0).
Proof.
  intros [_ [_ [SE3 [SE4 _]]]] eps salt pcf v v3 b P S MF NS H.
  destruct (water_meanings c f _ _ _ _ _ _ _ _ H) as [M1 [M2 [M3 [M4 _]]]].
  pose proof (read_sw_iq c v MF NS) as RW.
  assert (RG : m_gas v = GDisabled -> gasEnabled c = true -> waterEnabled c = true -> read_sg c v = iq_sg0 c v).
  { intros E G W. unfold read_sg, iq_sg0. rewrite E, G, W, RW. reflexivity. }
  assert (GO : m_gas v <> GDisabled -> oilEnabled c = true).
  { intros E. destruct MF as [MF _]. destruct (oilEnabled c); [reflexivity|]. exfalso. apply E, MF. reflexivity. }
  set (iw := waterSwitchIdx (idx c)) in *.
  assert (W : waterEnabled c = true \/ m_water v = WDisabled).
  { destruct (waterEnabled c) eqn:E; [auto|]. right. destruct MF as [_ [MF _]]. apply MF.
    rewrite E. reflexivity. }
  assert (AP : m_water v <> WDisabled -> iw <> pressureSwitchIdx (idx c)) by (apply water_pressure_apart; exact S).
  assert (AG : m_water v <> WDisabled -> m_gas v <> GDisabled -> compositionSwitchIdx (idx c) <> iw).
  { intros E1 E2. apply not_eq_sym. apply (water_gas_apart c v S); assumption. }
  assert (AGP : m_gas v <> GDisabled -> compositionSwitchIdx (idx c) <> pressureSwitchIdx (idx c)).
  { intros E. exact (proj1 (entries_apart c v S E)). }
  unfold water_stage in H. fold iw in H. destruct (m_water v) eqn:EW.
  - destruct (Qltb (read_sw c v) (- eps) && Qltb eps (read_sg c v) && vapwat c) eqn:C1.
    { apply andb_true_iff in C1 as [C1 VW]. apply andb_true_iff in C1 as [C1 C2].
      apply Qltb_lt in C1, C2. destruct W as [W|W]; [|discriminate].
      right; left. rewrite RW in C1. split; [lra|]. split; [lra|].
      assert (E3 : v3 = set iw (f_rvwSat f (gas_pressure c f pcf (read_sg c v) v) salt) (set_water Rvw v)) by congruence.
      assert (I3 : iq_sw c v3 = 0) by (subst v3; unfold iq_sw; rewrite W; reflexivity).
      split; [rewrite I3; reflexivity|].
      destruct (SE3 VW) as [_ G].
      destruct (m_gas v) eqn:EG.
      + left. split; [reflexivity|]. unfold iq_sg0. rewrite G, M1, EG, E3.
        rewrite set_other; [reflexivity|]. apply AG; discriminate.
      + unfold read_sg in C2. rewrite EG in C2. lra.
      + unfold read_sg in C2. rewrite EG in C2. lra.
      + right. split; [reflexivity|]. split.
        * destruct MF as [MF _]. rewrite EG, G, andb_true_r in MF. apply MF. reflexivity.
        * unfold iq_sg0. rewrite G, M1, W, I3. reflexivity. }
    destruct (Qltb (read_sg c v) (- eps) && Qltb eps (read_sw c v) && disgasw c) eqn:C2.
    { apply andb_true_iff in C2 as [C2 DW]. apply andb_true_iff in C2 as [C2 C3].
      apply Qltb_lt in C2, C3. destruct (SE4 DW) as [O [WE G]]. destruct W as [W|W]; [|discriminate].
      assert (EG : m_gas v = GDisabled) by (apply (proj1 MF); rewrite O; reflexivity).
      right; right. rewrite (RG EG G WE) in C2. split; [lra|]. split; [exact EG|]. split; [exact O|].
      assert (MW3 : m_water v3 = Rsw) by (assert (X : v3 = fst (v3, b)) by reflexivity; rewrite X, <- H; reflexivity).
      assert (I3 : iq_sw c v3 = 1) by (unfold iq_sw; rewrite WE, MW3; reflexivity).
      split; [rewrite I3; reflexivity|]. unfold iq_sg0. rewrite G, M1, EG, WE, I3. reflexivity. }
    injection H as <- <-. left. split; reflexivity.
  - destruct (Qltb _ _) in H; [|injection H as <- <-; left; split; reflexivity].
    destruct W as [W|W]; [|discriminate].
    assert (E3 : v3 = set iw 0 (set_water Sw v)) by congruence. left.
    assert (I3 : iq_sw c v3 = iq_sw c v).
    { subst v3. unfold iq_sw. rewrite W, EW. cbn [m_water set set_water]. fold iw. apply set_same. }
    split; [rewrite I3; reflexivity|].
    unfold iq_sg0. rewrite M1, I3. destruct (m_gas v) eqn:EG; try reflexivity.
    rewrite E3, set_other; [reflexivity|]. apply AG; discriminate.
  - destruct (Qltb _ _) in H; [|injection H as <- <-; left; split; reflexivity].
    destruct W as [W|W]; [|discriminate].
    match type of H with (setScaledPressure_ _ _ ?pg _, _) = _ =>
      assert (E3 : v3 = setScaledPressure_ c f pg (set_pressure Pg (set iw 1 (set_water Sw v)))) by congruence end.
    left.
    assert (I3 : iq_sw c v3 = iq_sw c v).
    { subst v3. unfold iq_sw, setScaledPressure_. rewrite W, EW. cbn [m_water set set_pressure set_water].
      fold iw. rewrite set_other by (apply AP; discriminate). cbn [val set_pressure]. apply set_same. }
    split; [rewrite I3; reflexivity|].
    unfold iq_sg0. rewrite M1, I3. destruct (m_gas v) eqn:EG; try reflexivity.
    rewrite E3. unfold setScaledPressure_.
    rewrite set_other by (apply AGP; discriminate). cbn [val set_pressure].
    rewrite set_other by (apply AG; discriminate). reflexivity.
  - injection H as <- <-. left. split; reflexivity.
Qed.

Lemma gas_effect : forall eps pcf sw sg v v3 b, 0 <= eps ->
  separate c v -> meanings_fit c v ->
  gas_stage c f eps pcf sw sg v = (v3, b) ->
  iq_sw c v3 = iq_sw c v /\
  ((iq_sg0 c v3 == iq_sg0 c v) \/
   (m_gas v = Sg /\ sg < 0 /\ iq_sg0 c v3 == 0) \/
   (m_gas v = Sg /\ 1 - sw - sg < 0 /\ 0 < sg /\ iq_sg0 c v3 == 1 - iq_sw c v) \/
   (m_gas v = Rv /\ iq_sg0 c v3 == 1 - sw)).
Proof.
  intros eps pcf sw sg v v3 b P S MF H.
  destruct (gas_meanings c f _ _ _ _ _ _ _ H) as [M1 [M2 [M3 [M4 [M5 M6]]]]].
  destruct b; [|rewrite (M4 eq_refl); split; [reflexivity|left; reflexivity]].
  assert (GN : m_gas v <> GDisabled) by (intros E; specialize (M6 E); discriminate).
  destruct (entries_apart c v S GN) as [D1 [D2 _]].
  assert (OG : oilEnabled c = true /\ gasEnabled c = true).
  { destruct MF as [F1 _]. destruct (oilEnabled c), (gasEnabled c); auto; exfalso; apply GN, F1; reflexivity. }
  destruct OG as [O G].
  assert (I3 : iq_sw c v3 = iq_sw c v).
  { unfold iq_sw. rewrite M1. destruct (waterEnabled c); [|reflexivity].
    destruct (m_water v) eqn:E; try reflexivity.
    apply (gas_frame c f _ _ _ _ _ _ _ _ H); apply D2; discriminate. }
  split; [exact I3|].
  unfold gas_stage, sg_to_rs, sg_to_rv in H. rewrite !(no_ss c no_solvent) in H.
  set (ig := compositionSwitchIdx (idx c)) in *.
  assert (E : v3 = fst (v3, true)) by reflexivity.
  assert (B : true = snd (v3, true)) by reflexivity. rewrite <- H in E, B. clear H.
  destruct (m_gas v) eqn:EG.
  - destruct (Qltb sg (- eps) && Qltb 0 (1 - sw - 0) && disgas c) eqn:C1.
    + apply andb_true_iff in C1 as [C1 _]. apply andb_true_iff in C1 as [C1 _]. apply Qltb_lt in C1.
      right; left. split; [reflexivity|]. split; [lra|].
      replace (Qltb 0 sg) with false in E by (symmetry; apply Qltb_ge; lra).
      rewrite andb_false_r, andb_false_l in E. cbn [fst] in E. rewrite E.
      unfold iq_sg0. rewrite G. reflexivity.
    + rewrite (no_ss c no_solvent) in *.
      destruct (Qltb (1 - sw - 0 - sg) (- eps) && Qltb 0 sg && vapoil c) eqn:C2; [|discriminate B].
      apply andb_true_iff in C2 as [C2 _]. apply andb_true_iff in C2 as [C2 C3]. apply Qltb_lt in C2, C3.
      right; right; left. split; [reflexivity|]. split; [lra|]. split; [exact C3|].
      cbn [fst] in E. assert (MG : m_gas v3 = Rv) by (rewrite E; reflexivity).
      unfold iq_sg0. rewrite G, MG, I3. reflexivity.
  - destruct (Qltb _ _) in E, B; [|discriminate B]. left. cbn [fst] in E.
    unfold iq_sg0. rewrite G, EG, E. cbn [m_gas set set_gas]. fold ig. rewrite set_same. reflexivity.
  - destruct (Qltb _ _) in E, B; [|discriminate B]. right; right; right. split; [reflexivity|]. cbn [fst] in E.
    unfold iq_sg0. rewrite G, E. cbn [m_gas set set_gas setScaledPressure_ set_pressure]. fold ig.
    rewrite set_same. ring.
  - congruence.
Qed.

(** Saturations after switching, in terms of those before: a negative one becomes zero and
    another phase takes the difference. *)
Definition projected (sw so sg sw' so' sg' : Q) : Prop :=
  (sw' == sw /\ so' == so /\ sg' == sg) \/
  (sg < 0 /\ sg' == 0 /\ so' == so + sg /\ sw' == sw) \/
  (so < 0 /\ so' == 0 /\ sg' == sg + so /\ sw' == sw) \/
  (sw < 0 /\ sw' == 0 /\ so' == so + sw /\ sg' == sg) \/
  (sw < 0 /\ sw' == 0 /\ sg' == sg + sw /\ so' == so) \/
  (sg < 0 /\ sg' == 0 /\ sw' == sw + sg /\ so' == so) \/
  (sw < 0 /\ so < 0 /\ sw' == 0 /\ so' == 0 /\ sg' == 1).

Lemma adapt_projects : sensible c -> forall swMax thr eps v v' b, 0 <= eps ->
  separate c v -> meanings_fit c v -> pressure_fits c v ->
  (read_sw c v < thr \/ disgasw c = true) ->
  adapt c f swMax thr eps v = (v', b) ->
  projected (iq_sw c v) (so_of v) (iq_sg0 c v) (iq_sw c v') (so_of v') (iq_sg0 c v').
Proof.
  intros SE swMax thr eps v v' b P S MF PF NW H.
  destruct (adapt_cases c f _ _ _ _ _ _ H) as [[_ [_ [-> _]]]|[N [v1 [salt [EB X]]]]];
    [left; repeat split; reflexivity|].
  assert (NS : ~ single_phase v) by exact N.
  unfold brine_stage in EB. rewrite no_salt in EB. injection EB as <- <-.
  unfold solvent_stage in X. rewrite no_solvent in X. cbn [andb] in X. cbv zeta in X.
  destruct X as [[T [DG _]]|[T [v3 [c1 [c2 [W [GS _]]]]]]].
  { destruct NW as [NW|NW]; [lra|congruence]. }
  destruct (water_meanings c f _ _ _ _ _ _ _ _ W) as [M1 [M2 [M3 [M4 [M5 [M6 M7]]]]]].
  destruct (water_good c f SE _ _ _ _ _ v v3 c1 (conj PF MF) W) as [PF3 MF3].
  assert (S3 : separate c v3).
  { unfold separate, entries in *. rewrite M1, M2, M3.
    destruct (water_pressure_meaning c f _ _ _ _ _ _ _ _ W) as [[E _]|[[E1 [E2 _]]|[[E1 [E2 _]]|[[E1 [E2 _]]|[E1 [E2 _]]]]]].
    - rewrite E. exact S.
    - rewrite E2. rewrite E1 in S. exact S.
    - rewrite E2. rewrite E1 in S. exact S.
    - rewrite E2. rewrite E1 in S. exact S.
    - rewrite E2. rewrite E1 in S. exact S. }
  pose proof (water_effect SE _ _ _ _ _ _ P S MF NS W) as WE.
  destruct (gas_effect _ _ _ _ _ _ _ P S3 MF3 GS) as [GW GE].
  pose proof (read_sw_iq c v MF NS) as RW.
  assert (GO : m_gas v <> GDisabled -> oilEnabled c && gasEnabled c = true).
  { intros E. destruct MF as [MF _]. destruct (oilEnabled c && gasEnabled c); [reflexivity|]. exfalso. apply E, MF. reflexivity. }
  assert (RG : m_gas v = Sg -> read_sg c v = iq_sg0 c v).
  { intros E. unfold read_sg, iq_sg0. rewrite E.
    assert (X : oilEnabled c && gasEnabled c = true) by (apply GO; congruence).
    apply andb_true_iff in X as [_ ->]. reflexivity. }
  assert (RV : m_gas v = Rv -> iq_sg0 c v == 1 - iq_sw c v /\ read_sg c v = 0).
  { intros E. unfold iq_sg0, read_sg. rewrite E.
    assert (X : oilEnabled c && gasEnabled c = true) by (apply GO; congruence).
    apply andb_true_iff in X as [_ ->]. split; reflexivity. }
  assert (RD : oilEnabled c = false -> m_gas v = GDisabled -> gasEnabled c = true -> waterEnabled c = true ->
               iq_sg0 c v == 1 - iq_sw c v).
  { intros O E G WE'. unfold iq_sg0. rewrite E, G, WE'. reflexivity. }
  assert (GW2 : (iq_sw c v < 0 -> waterEnabled c = true) ).
  { intros E. unfold iq_sw in E. destruct (waterEnabled c); [reflexivity|lra]. }
  rewrite M1 in GE. rewrite RW in GE. unfold projected, so_of. rewrite GW.
  destruct WE as [[W1 W2]|[[W1 [W2 [W3 W4]]]|[W1 [W2 [W3 [W4 W5]]]]]].
  - destruct GE as [G1|[[G1 [G2 G3]]|[[G1 [G2 [G3 G4]]]|[G1 G2]]]].
    + left. rewrite G1, W1, W2. repeat split; ring.
    + rewrite (RG G1) in G2. right; left. rewrite W1. repeat split; lra.
    + rewrite (RG G1) in G2, G3. right; right; left. rewrite W1, G4, W1. repeat split; lra.
    + destruct (RV G1) as [X _]. left. rewrite W1, G2, X. repeat split; ring.
  - destruct W4 as [[W4 W5]|[W4 [W5 W6]]].
    + destruct GE as [G1|[[G1 [G2 G3]]|[[G1 [G2 [G3 G4]]]|[G1 G2]]]].
      * right; right; right; left. rewrite W3, G1, W5. repeat split; lra.
      * lra.
      * rewrite (RG G1) in G2, G3. right; right; right; right; right; right.
        rewrite G4, W3. repeat split; lra.
      * congruence.
    + destruct GE as [G1|[[G1 _]|[[G1 _]|[G1 _]]]]; try congruence.
      assert (X : iq_sg0 c v == 1 - iq_sw c v).
      { apply RD; auto. unfold read_sg in W2. rewrite W4 in W2.
        destruct (gasEnabled c); [reflexivity|lra]. }
      right; right; right; right; left. rewrite G1, W3, W6, X. repeat split; lra.
  - destruct GE as [G1|[[G1 _]|[[G1 _]|[G1 _]]]]; try congruence.
    assert (G : gasEnabled c = true).
    { unfold iq_sg0 in W1. destruct (gasEnabled c); [reflexivity|lra]. }
    assert (WT : waterEnabled c = true).
    { unfold iq_sw in W4. destruct (waterEnabled c); [reflexivity|lra]. }
    pose proof (RD W3 W2 G WT) as X.
    right; right; right; right; right; left. rewrite G1, W4, W5. repeat split; lra.
Qed.

Lemma projected_bound : forall d sw so sg nw no ng sw' so' sg',
  0 <= sw -> 0 <= so -> 0 <= sg -> sw + so + sg == 1 -> nw + no + ng == 1 ->
  within d nw sw -> within d no so -> within d ng sg ->
  projected nw no ng sw' so' sg' ->
  within d sw' sw /\ within d so' so /\ within d sg' sg.
Proof.
  intros d sw so sg nw no ng sw' so' sg' P1 P2 P3 E1 E2 [A1 A2] [B1 B2] [C1 C2] PR.
  unfold within.
  destruct PR as [[X1 [X2 X3]]|[[X0 [X1 [X2 X3]]]|[[X0 [X1 [X2 X3]]]|[[X0 [X1 [X2 X3]]]|[[X0 [X1 [X2 X3]]]|[[X0 [X1 [X2 X3]]]|[X0 [X4 [X1 [X2 X3]]]]]]]]]];
    rewrite X1, X2, X3; repeat split; lra.
Qed.
End Project.
