From Verif Require Export BoExtFlux.
From Verif Require Import FluxSpec ResidualProofs TpfaProofs DarcyProofs LocResProofs.
From Coq Require Import Lia Lqa Qfield.

(* ----- the volume flux of the solvent with transmissibilities ----- *)
Lemma beyond_wd t d d' : d == d' -> beyond t d == beyond t d'.
Proof.
  intros E. unfold beyond.
  assert (E1 : Qle_bool (Qabs d) t = Qle_bool (Qabs d') t) by now rewrite E.
  assert (E2 : Qle_bool d 0 = Qle_bool d' 0) by now rewrite E.
  rewrite E1, E2. destruct (Qle_bool (Qabs d') t); [reflexivity|]. destruct (Qle_bool d' 0); rewrite E; reflexivity.
Qed.
Lemma leb_false a b : Qle_bool a b = false -> b < a.
Proof. intros H. apply Qnot_le_lt. intros L. apply Qle_bool_iff in L. congruence. Qed.
Lemma beyond_opp t d : 0 <= t -> beyond t (- d) == - beyond t d.
Proof.
  intros P. unfold beyond. assert (E1 : Qle_bool (Qabs (- d)) t = Qle_bool (Qabs d) t) by now rewrite Qabs_opp. rewrite E1.
  destruct (Qle_bool (Qabs d) t) eqn:E; [reflexivity|]. apply leb_false in E.
  destruct (Qle_bool (- d) 0) eqn:A, (Qle_bool d 0) eqn:B; try lra.
  - apply Qle_bool_iff in A, B. assert (d == 0) by lra. exfalso. assert (Qabs d == 0) by (rewrite H; reflexivity). lra.
  - apply leb_false in A, B. lra.
Qed.
Lemma solventDp_val l inn ex : 0 <= l_thpres l -> val (solventDp l inn ex) == beyond (l_thpres l) (potentialDifference l inn ex).
Proof.
  intros P. unfold solventDp. set (d := asub _ _).
  assert (E : val d == potentialDifference l inn ex).
  { unfold d, potentialDifference, at_. vals. field. }
  rewrite <- (beyond_wd _ _ _ E). unfold beyond.
  destruct (Qltb (l_thpres l) (Qabs (val d))) eqn:A.
  - apply Qltb_lt in A. destruct (Qle_bool (Qabs (val d)) (l_thpres l)) eqn:B; [apply Qle_bool_iff in B; lra|].
    destruct (Qltb (val d) 0) eqn:C, (Qle_bool (val d) 0) eqn:D; vals; try ring.
    + apply Qltb_lt in C. apply leb_false in D. lra.
    + apply Qltb_ge in C. apply Qle_bool_iff in D. assert (Z : Qabs (val d) == 0) by (assert (K : val d == 0) by lra; rewrite K; reflexivity). lra.
  - apply Qltb_ge in A. destruct (Qle_bool (Qabs (val d)) (l_thpres l)) eqn:B; [reflexivity|]. apply leb_false in B. lra.
Qed.
Lemma trans_val l i j s : 0 <= l_thpres l ->
  let d := beyond (l_thpres l) (potentialDifference l (s i) (s j)) in
  (0 < d -> snd (solventTrans l i j s) = j /\ val (fst (solventTrans l i j s)) == - (l_trans l / l_area l) * at_ (s j) SolventMobility * d) /\
  (d < 0 -> snd (solventTrans l i j s) = i /\ val (fst (solventTrans l i j s)) == - (l_trans l / l_area l) * at_ (s i) SolventMobility * d) /\
  (d == 0 -> snd (solventTrans l i j s) = Nat.min i j /\ val (fst (solventTrans l i j s)) == 0).
Proof.
  intros P d. pose proof (solventDp_val l (s i) (s j) P) as E. fold d in E. unfold solventTrans.
  destruct (Qltb 0 (val (solventDp l (s i) (s j)))) eqn:A.
  - apply Qltb_lt in A. split; [|split; intros; lra]. intros _. split; [reflexivity|]. cbn [fst]. vals. rewrite E. unfold at_, Qdiv. ring.
  - apply Qltb_ge in A. split; [intros; lra|]. destruct (Qltb (val (solventDp l (s i) (s j))) 0) eqn:B.
    + apply Qltb_lt in B. split; [|intros; lra]. intros _. split; [reflexivity|]. cbn [fst]. vals. rewrite E. unfold at_, Qdiv. ring.
    + apply Qltb_ge in B. split; [intros; lra|]. intros _. split; reflexivity.
Qed.
Lemma turned_difference l i j : potentialDifference (turned l) j i == - potentialDifference l i j.
Proof. unfold potentialDifference. cbn [turned l_zIn l_zEx l_grav]. field. Qed.
Lemma trans_turned l i j s : 0 <= l_thpres l ->
  val (fst (solventTrans (turned l) j i s)) == - val (fst (solventTrans l i j s)) /\
  snd (solventTrans (turned l) j i s) = snd (solventTrans l i j s).
Proof.
  intros P. destruct (trans_val l i j s P) as (A & B & C). destruct (trans_val (turned l) j i s P) as (A' & B' & C').
  assert (E : beyond (l_thpres (turned l)) (potentialDifference (turned l) (s j) (s i)) == - beyond (l_thpres l) (potentialDifference l (s i) (s j))).
  { cbn [turned l_thpres]. rewrite <- (beyond_opp _ _ P). apply beyond_wd, turned_difference. }
  destruct (Q_dec (beyond (l_thpres l) (potentialDifference l (s i) (s j))) 0) as [[L|L]|L].
  - destruct (B L) as (U & V). destruct A' as (U' & V'); [lra|]. rewrite U, U', V, V', E. split; [cbn [turned l_trans l_area]; ring|reflexivity].
  - destruct (A L) as (U & V). destruct B' as (U' & V'); [lra|]. rewrite U, U', V, V', E. split; [cbn [turned l_trans l_area]; ring|reflexivity].
  - destruct (C L) as (U & V). destruct C' as (U' & V'); [lra|]. rewrite U, U', V, V'. split; [reflexivity|apply Nat.min_comm].
Qed.

Definition rawDp (l : link) (inn ex : cell) : ad :=
  asub (aadd (constant (val (qu ex (Pressure Gas)))) (ascale (aadd (ascale (qu inn SolventDensity) (1 # 2)) (constant (val (qu ex SolventDensity) * (1 # 2))))
    ((l_zIn l - l_zEx l) * l_grav l))) (qu inn (Pressure Gas)).
Lemma rawDp_val l inn ex : val (rawDp l inn ex) == potentialDifference l inn ex.
Proof. unfold rawDp, potentialDifference, at_. vals. field. Qed.
Lemma T_same (f : Q -> ad) : (forall h, f h = f 0) -> der (f 0) == 0 -> tracks f.
Proof. intros E Z. unfold tracks. refine (D_ext _ _ _ _ _ _ (D_const (fun h => val (f h)) _)); [reflexivity|symmetry; exact Z|]. intros h. now rewrite E. Qed.
Lemma trans_tracks l i j (s : Q -> nat -> cell) : 0 <= l_thpres l -> i <> j -> solutionVaries s i ->
  ~ Qabs (potentialDifference l (s 0 i) (s 0 j)) == l_thpres l -> tracks (fun h => fst (solventTrans l i j (s h))).
Proof.
  intros P NE V K. pose proof (proj1 (proj1 V)) as q. cbn beta in q.
  assert (J : forall h, s h j = s 0 j) by (intros h; apply (proj2 V); congruence).
  assert (R : tracks (fun h => rawDp l (s h i) (s h j))).
  { apply (T_ext (fun h => rawDp l (s h i) (s 0 j))); [intros h; now rewrite (J h)|]. unfold rawDp. apply T_sub; [|apply q].
    apply T_add; [eapply T_const; intros; reflexivity|]. apply T_scale. apply T_add; [apply T_scale, q|eapply T_const; intros; reflexivity]. }
  rewrite <- (rawDp_val l (s 0 i) (s 0 j)) in K. set (t := l_thpres l) in *.
  assert (N1 : ~ val (rawDp l (s 0 i) (s 0 j)) + - t == 0).
  { intros Z. apply K. rewrite Qabs_pos by lra. lra. }
  assert (N2 : ~ - val (rawDp l (s 0 i) (s 0 j)) + - t == 0).
  { intros Z. apply K. rewrite Qabs_neg by lra. lra. }
  assert (D1 : derivative (fun h => val (rawDp l (s h i) (s h j)) + - t) (der (rawDp l (s 0 i) (s 0 j)) + 0)) by (apply D_plus; [exact R|now apply D_const]).
  assert (D2 : derivative (fun h => - val (rawDp l (s h i) (s h j)) + - t) (der (aopp (rawDp l (s 0 i) (s 0 j))) + 0)) by
    (apply (D_plus (fun h => - val (rawDp l (s h i) (s h j)))); [exact (T_opp _ R)|now apply D_const]).
  destruct (D_sign _ _ D1 N1) as (d1 & P1 & B1). destruct (D_sign _ _ D2 N2) as (d2 & P2 & B2).
  assert (PM : 0 < Qmin d1 d2) by now apply Q.min_glb_lt.
  assert (B : forall h, Qabs h < Qmin d1 d2 -> Qltb 0 (val (rawDp l (s h i) (s h j)) + - t) = Qltb 0 (val (rawDp l (s 0 i) (s 0 j)) + - t) /\
    Qltb 0 (- val (rawDp l (s h i) (s h j)) + - t) = Qltb 0 (- val (rawDp l (s 0 i) (s 0 j)) + - t)).
  { intros h L. split; [apply B1|apply B2]; eapply Qlt_le_trans; try exact L; [apply Q.le_min_l|apply Q.le_min_r]. }
  clear B1 B2 D1 D2.
  assert (DP : forall inn ex, solventDp l inn ex = if Qltb t (Qabs (val (rawDp l inn ex))) then
      (if Qltb (val (rawDp l inn ex)) 0 then aadd (rawDp l inn ex) (constant t) else asub (rawDp l inn ex) (constant t)) else constant 0) by reflexivity.
  destruct (Qltb 0 (val (rawDp l (s 0 i) (s 0 j)) + - t)) eqn:U1; [|destruct (Qltb 0 (- val (rawDp l (s 0 i) (s 0 j)) + - t)) eqn:U2].
  - (* above the threshold *)
    apply (T_local (fun h => amul (ascale (dropped (qu (s h j) SolventMobility)) (- l_trans l / l_area l)) (asub (rawDp l (s h i) (s h j)) (constant t))) _ _ PM).
    + intros h L. destruct (B h L) as (B1 & _). apply Qltb_lt in B1. unfold solventTrans. rewrite DP.
      assert (A : Qltb t (Qabs (val (rawDp l (s h i) (s h j)))) = true) by (apply Qltb_lt; rewrite Qabs_pos; lra). rewrite A.
      assert (A2 : Qltb (val (rawDp l (s h i) (s h j))) 0 = false) by (apply Qltb_ge; lra). rewrite A2.
      assert (A3 : Qltb 0 (val (asub (rawDp l (s h i) (s h j)) (constant t))) = true) by (apply Qltb_lt; vals; lra). now rewrite A3.
    + apply T_mul; [|apply T_sub; [exact R|now apply T_const with t]]. apply T_scale.
      apply (T_ext (fun h => dropped (qu (s 0 j) SolventMobility))); [intros h; now rewrite (J h)|].
      apply (T_dropped (fun _ => qu (s 0 j) SolventMobility)). reflexivity.
  - (* below *)
    apply (T_local (fun h => amul (ascale (qu (s h i) SolventMobility) (- l_trans l / l_area l)) (aadd (rawDp l (s h i) (s h j)) (constant t))) _ _ PM).
    + intros h L. destruct (B h L) as (_ & B2). apply Qltb_lt in B2. unfold solventTrans. rewrite DP.
      assert (A : Qltb t (Qabs (val (rawDp l (s h i) (s h j)))) = true) by (apply Qltb_lt; rewrite Qabs_neg; lra). rewrite A.
      assert (A2 : Qltb (val (rawDp l (s h i) (s h j))) 0 = true) by (apply Qltb_lt; lra). rewrite A2.
      assert (A3 : Qltb 0 (val (aadd (rawDp l (s h i) (s h j)) (constant t))) = false) by (apply Qltb_ge; vals; lra). rewrite A3.
      assert (A4 : Qltb (val (aadd (rawDp l (s h i) (s h j)) (constant t))) 0 = true) by (apply Qltb_lt; vals; lra). now rewrite A4.
    + apply T_mul; [|apply T_add; [exact R|now apply T_const with t]]. apply T_scale, q.
  - (* within *)
    apply (T_local (fun h => constant 0) _ _ PM); [|now apply T_const with 0].
    intros h L. destruct (B h L) as (B1 & B2). apply Qltb_ge in B1, B2. unfold solventTrans. rewrite DP.
    assert (A : Qltb t (Qabs (val (rawDp l (s h i) (s h j)))) = false) by (apply Qltb_ge; apply Qabs_case; intros; lra). rewrite A. reflexivity.
Qed.

(* ----- the volume flux of the solvent with permeabilities ----- *)
Lemma unit_scalar p : scalarMatrix (pl_dim (unitPermeability p)) 1 (pl_K (unitPermeability p)).
Proof. intros r c _ _. reflexivity. Qed.
Lemma solvent_pot p focus s k : val (solventPotentialGrad p focus s k) == val (adPotentialGrad (unitPermeability p) focus (fun v => asPhase (s v)) 0 k).
Proof.
  unfold solventPotentialGrad, adPotentialGrad. cbn [unitPermeability pl_gravity pl_dim pl_pos pl_in pl_ex pl_normal pl_ipos].
  change (calculateGradient (unitPermeability p) focus (fun v => pressure (asPhase (s v)) 0))
    with (calculateGradient p focus (fun v => qu (s v) (Pressure Gas))).
  destruct (pl_gravity p) as [g|]; [|reflexivity]. vals.
  change (density (asPhase (s (pl_in p))) 0) with (qu (s (pl_in p)) SolventDensity).
  change (density (asPhase (s (pl_ex p))) 0) with (qu (s (pl_ex p)) SolventDensity).
  destruct (pl_in p =? focus)%nat, (pl_ex p =? focus)%nat; vals; reflexivity.
Qed.
Lemma solvent_normal p focus s : val (normalPart p (solventPotentialGrad p focus s)) == driving (unitPermeability p) (fun v => asPhase (s v)) 0.
Proof.
  rewrite <- (driving_val (unitPermeability p) focus), !normal_val. apply sumOver_ext. intros k _.
  rewrite solvent_pot. reflexivity.
Qed.
Lemma perm_val p focus s :
  snd (solventPerm p focus s) = upstream (unitPermeability p) focus (fun v => asPhase (s v)) 0 /\
  val (fst (solventPerm p focus s)) == - val (volumeFlux (unitPermeability p) focus (fun v => asPhase (s v)) 0).
Proof.
  rewrite (scalar_volume _ focus _ 0 1 (unit_scalar p)), !upstream_driving. unfold solventPerm.
  rewrite (qltb_eq 0 _ 0 _ (Qeq_refl 0) (solvent_normal p focus s)).
  destruct (Qltb 0 (driving (unitPermeability p) (fun v => asPhase (s v)) 0)); cbn [fst snd]; (split; [reflexivity|]);
    vals; rewrite (solvent_normal p focus s); cbn [asPhase mobility unitPermeability pl_in pl_ex]; ring.
Qed.

(* ----- microbially induced calcite precipitation ----- *)
Lemma aabs_val x : val (aabs x) == Qabs (val x).
Proof.
  unfold aabs. destruct (Qltb (val x) 0) eqn:E; [apply Qltb_lt in E; vals; rewrite Qabs_neg by lra; reflexivity|].
  apply Qltb_ge in E. rewrite Qabs_pos by exact E. reflexivity.
Qed.
Lemma face_val K fm : val (aabs (adiv (fst fm) (ascale (snd fm) K))) == gradientOf K fm.
Proof. rewrite aabs_val. unfold gradientOf. vals. apply Qabs_wd. now rewrite (Qmult_comm K). Qed.
Lemma greatest_acc K faces d0 : 0 <= val d0 ->
  let g := val (fold_left (fun d fm => amax d (aabs (adiv (fst fm) (ascale (snd fm) K)))) faces d0) in
  val d0 <= g /\ (forall fm, In fm faces -> gradientOf K fm <= g) /\ (g == val d0 \/ exists fm, In fm faces /\ g == gradientOf K fm).
Proof.
  revert d0. induction faces as [|f r IH]; intros d0 P; cbn [fold_left]; cbv zeta.
  - split; [lra|]. split; [intros fm []|left; reflexivity].
  - assert (A : val d0 <= val (amax d0 (aabs (adiv (fst f) (ascale (snd f) K)))) /\
                gradientOf K f <= val (amax d0 (aabs (adiv (fst f) (ascale (snd f) K)))) /\
                (amax d0 (aabs (adiv (fst f) (ascale (snd f) K))) = d0 \/ val (amax d0 (aabs (adiv (fst f) (ascale (snd f) K)))) == gradientOf K f)).
    { unfold amax. destruct (Qltb _ _) eqn:E; rewrite <- (face_val K f).
      - apply Qltb_lt in E. (split; [lra|split; [lra|right; reflexivity]]).
      - apply Qltb_ge in E. (split; [lra|split; [lra|now left]]). }
    set (d1 := amax d0 _) in *. clearbody d1. destruct A as (A1 & A2 & A3).
    destruct (IH d1 ltac:(lra)) as (B1 & B2 & B3). cbv zeta in B1, B2, B3. set (g := val (fold_left _ r d1)) in *. clearbody g.
    split; [lra|]. split.
    + intros fm [->|I]; [lra|now apply B2].
    + destruct B3 as [B3|(fm & I & B3)]; [|right; exists fm; split; [now right|exact B3]].
      destruct A3 as [->|A3]; [left; exact B3|right]. exists f. split; [now left|]. now rewrite B3.
Qed.
Lemma greatest_val K faces : greatest (val (greatestGradient K faces)) K faces.
Proof.
  unfold greatestGradient. destruct (greatest_acc K faces (constant 0)) as (A & B & C); [vals; lra|]. split; [exact A|]. split; [exact B|exact C].
Qed.
Lemma source_values M pw K faces c e v : ~ m_rhoB M == 0 -> ~ m_rhoC M == 0 -> ~ m_halfO M + at_ c OxygenConc == 0 ->
  ~ m_halfU M / 10 + at_ c UreaConc == 0 -> ~ at_ c Porosity + at_ c BiofilmConc == 0 ->
  let w := micpSource M pw K faces c e v in
  let P := val (pw (amul (qu c Porosity) (greatestGradient K faces))) in
  let calcite := (167 # 10) * ureaUse M c / m_rhoC M in
  val (w e) == val (v e) + at_ c MicrobeConc * at_ c Porosity * (growthRate M c - m_death M - m_attach M) + m_rhoB M * at_ c BiofilmConc * m_detach M * P /\
  val (w (e + 1)%nat) == val (v (e + 1)%nat) - biomass M c * m_consumption M * m_growth M * monod (at_ c OxygenConc) (m_halfO M) /\
  val (w (e + 2)%nat) == val (v (e + 2)%nat) - ureaUse M c /\
  val (w (e + 3)%nat) == val (v (e + 3)%nat) + at_ c BiofilmConc * (growthRate M c - m_death M - m_detach M * P - calcite / (at_ c Porosity + at_ c BiofilmConc))
     + m_attach M * at_ c MicrobeConc * at_ c Porosity / m_rhoB M /\
  val (w (e + 4)%nat) == val (v (e + 4)%nat) + calcite /\
  (forall j, (j < e \/ e + 4 < j)%nat -> w j = v j).
Proof.
  intros N1 N2 N3 N4 N5. cbv zeta. unfold micpSource. set (PW := pw _). set (x1 := adiv _ (aadd (constant (m_halfO M)) _)).
  assert (X1 : val x1 == growthRate M c) by (unfold x1, growthRate, monod, at_; vals; field; exact N3).
  unfold biomass, ureaUse, monod. rewrite !val_addTo || idtac. unfold addTo, assign.
  assert (EQ : forall a b : nat, (a =? a + S b)%nat = false) by (intros; apply Nat.eqb_neq; lia).
  assert (EQ' : forall a b : nat, (a + S b =? a)%nat = false) by (intros; apply Nat.eqb_neq; lia).
  assert (EP : forall a b b' : nat, (a + b =? a + b')%nat = (b =? b')%nat).
  { intros a b b'. destruct (Nat.eqb_spec b b') as [->|NE]; [apply Nat.eqb_refl|apply Nat.eqb_neq; lia]. }
  split; [|split; [|split; [|split; [|split]]]].
  - rewrite !EQ, Nat.eqb_refl. vals. rewrite X1. unfold at_. ring.
  - rewrite !EP, !EQ'. cbn [Nat.eqb]. vals. unfold at_ in *. field. exact N3.
  - rewrite !EP, !EQ'. cbn [Nat.eqb]. vals. unfold at_ in *. field. intros Z; apply N4; unfold Qdiv; change (/ 10) with (1 # 10); lra.
  - rewrite !EP, !EQ'. cbn [Nat.eqb]. vals. rewrite X1. unfold at_ in *. field. repeat split; try assumption; intros Z; apply N4; unfold Qdiv; change (/ 10) with (1 # 10); lra.
  - rewrite !EP, !EQ'. cbn [Nat.eqb]. vals. unfold at_ in *. field. repeat split; try assumption; intros Z; apply N4; unfold Qdiv; change (/ 10) with (1 # 10); lra.
  - intros j J. repeat (match goal with |- context [(j =? ?b)%nat] => replace (j =? b)%nat with false by (symmetry; apply Nat.eqb_neq; lia) end). reflexivity.
Qed.
Lemma monod_pos x h : 0 < h -> 0 <= x -> 0 <= monod x h.
Proof. intros H X. unfold monod. apply Qle_shift_div_l; lra. Qed.
Lemma T_pick (f g k : Q -> ad) : tracks f -> tracks g -> ~ val (f 0) == val (g 0) ->
  (forall h, k h = if Qltb (val (f h)) (val (g h)) then g h else f h) -> tracks k.
Proof.
  intros F G N E.
  assert (D : derivative (fun h => val (g h) + - val (f h)) (der (g 0) + der (aopp (f 0)))) by
    (apply (D_plus (fun h => val (g h)) (fun h => - val (f h))); [exact G|exact (T_opp _ F)]).
  destruct (D_sign _ _ D) as (d & P & B); [lra|]. cbn beta in B.
  assert (S0 : forall h, Qltb (val (f h)) (val (g h)) = Qltb 0 (val (g h) + - val (f h))).
  { intros h. destruct (Qltb (val (f h)) (val (g h))) eqn:A, (Qltb 0 (val (g h) + - val (f h))) eqn:C; try reflexivity;
      [apply Qltb_lt in A; apply Qltb_ge in C|apply Qltb_ge in A; apply Qltb_lt in C]; lra. }
  destruct (Qltb 0 (val (g 0) + - val (f 0))) eqn:C.
  - apply (T_local g _ _ P); [|exact G]. intros h L. rewrite E, S0, (B h L). reflexivity.
  - apply (T_local f _ _ P); [|exact F]. intros h L. rewrite E, S0, (B h L). reflexivity.
Qed.
Lemma T_amax f g : tracks f -> tracks g -> ~ val (f 0) == val (g 0) -> tracks (fun h => amax (f h) (g h)).
Proof. intros F G N. apply (T_pick f g); auto. Qed.
Lemma T_aabs f : tracks f -> ~ val (f 0) == 0 -> tracks (fun h => aabs (f h)).
Proof.
  intros F N. apply (T_pick (fun h => f h) (fun h => aopp (f h))); [exact F|apply T_opp, F|vals; lra|].
  intros h. unfold aabs. vals. destruct (Qltb (val (f h)) 0) eqn:A, (Qltb (val (f h)) (- val (f h))) eqn:B; try reflexivity;
    [apply Qltb_lt in A; apply Qltb_ge in B|apply Qltb_ge in A; apply Qltb_lt in B]; lra.
Qed.
Lemma apart_in x l y : apart (x :: l) -> In y l -> ~ x == y.
Proof. intros (A & _) I. rewrite Forall_forall in A. now apply A. Qed.
Lemma T_greatest K faces : ~ K == 0 ->
  (forall f, In f faces -> tracks (fun h => fst (f h)) /\ tracks (fun h => snd (f h)) /\ ~ val (snd (f 0)) == 0 /\ ~ gradientOf K (f 0) == 0) ->
  apart (map (gradientOf K) (movingFaces faces 0)) ->
  forall d0, tracks d0 -> (forall f, In f faces -> ~ val (d0 0) == gradientOf K (f 0)) ->
  tracks (fun h => fold_left (fun d fm => amax d (aabs (adiv (fst fm) (ascale (snd fm) K)))) (movingFaces faces h) (d0 h)).
Proof.
  intros NK. induction faces as [|f r IH]; intros F A d0 D0 N; cbn [movingFaces map fold_left]; [exact D0|].
  destruct (F f (or_introl eq_refl)) as (F1 & F2 & F3 & F4).
  cbn [movingFaces map] in A.
  assert (A' : forall x, In x r -> ~ gradientOf K (f 0) == gradientOf K (x 0)).
  { intros x I. apply (apart_in _ _ _ A). apply in_map, (in_map (fun f => f 0)). exact I. }
  destruct A as (_ & A).
  assert (T : tracks (fun h => aabs (adiv (fst (f h)) (ascale (snd (f h)) K)))).
  { apply T_aabs.
    - apply T_div; [exact F1|apply T_scale, F2|]. vals. intros Z. apply Qmult_integral in Z. tauto.
    - intros Z. apply F4. rewrite <- face_val, aabs_val. rewrite Z. reflexivity. }
  apply (IH (fun x I => F x (or_intror I)) A (fun h => amax (d0 h) (aabs (adiv (fst (f h)) (ascale (snd (f h)) K))))).
  - apply T_amax; [exact D0|exact T|]. rewrite face_val. now apply N; left.
  - intros x I. unfold amax. destruct (Qltb _ _); [rewrite face_val; now apply A'|apply N; now right].
Qed.
Lemma source_tracks M pw K (faces : list (Q -> ad * ad)) (c : Q -> cell) e (v : Q -> eqs) j :
  (forall x, tracks x -> 0 < val (x 0) -> tracks (fun h => pw (x h))) ->
  ~ K == 0 -> ~ m_halfO M + at_ (c 0) OxygenConc == 0 -> ~ m_halfU M / 10 + at_ (c 0) UreaConc == 0 ->
  ~ at_ (c 0) Porosity + at_ (c 0) BiofilmConc == 0 -> 0 < at_ (c 0) Porosity ->
  faces <> [] -> apart (0 :: map (gradientOf K) (movingFaces faces 0)) ->
  (forall f, In f faces -> tracks (fun h => fst (f h)) /\ tracks (fun h => snd (f h)) /\ ~ val (snd (f 0)) == 0) ->
  (forall k, tracks (fun h => qu (c h) k)) -> allTrack v ->
  tracks (fun h => micpSource M pw K (movingFaces faces h) (c h) e (v h) j).
Proof.
  intros PW NK N3 N4 N5 PP NF AP F q A.
  assert (G : tracks (fun h => greatestGradient K (movingFaces faces h))).
  { unfold greatestGradient. apply (T_greatest K faces NK) with (d0 := fun _ => constant 0).
    - intros f I. destruct (F f I) as (F1 & F2 & F3). repeat split; try assumption. intros Z.
      apply (apart_in 0 _ (gradientOf K (f 0)) AP); [apply in_map, (in_map (fun f => f 0)), I|symmetry; exact Z].
    - exact (proj2 AP).
    - now apply T_const with 0.
    - intros f I. vals. apply (apart_in 0 _ _ AP). apply in_map, (in_map (fun f => f 0)), I. }
  assert (GP : 0 < val (greatestGradient K (movingFaces faces 0))).
  { destruct (greatest_val K (movingFaces faces 0)) as (G0 & G1 & _). destruct faces as [|f r]; [contradiction|].
    pose proof (G1 (f 0) (or_introl eq_refl)) as L. assert (NZ : ~ 0 == gradientOf K (f 0)) by (apply (apart_in 0 _ _ AP); now left).
    assert (0 <= gradientOf K (f 0)) by apply Qabs_nonneg. lra. }
  assert (TP : tracks (fun h => pw (amul (qu (c h) Porosity) (greatestGradient K (movingFaces faces h))))).
  { apply (PW (fun h => amul (qu (c h) Porosity) (greatestGradient K (movingFaces faces h)))); [apply T_mul; [apply q|exact G]|].
    vals. now apply Qmult_lt_0_compat. }
  assert (C1 : forall x, tracks (fun _ => constant x)) by (intros x; now apply T_const with x).
  assert (GR : tracks (fun h => adiv (ascale (qu (c h) OxygenConc) (m_yield M * m_growth M)) (aadd (constant (m_halfO M)) (qu (c h) OxygenConc)))).
  { apply T_div; [apply T_scale, q|apply T_add; [apply C1|apply q]|exact N3]. }
  assert (TU : tracks (fun h => aadd (constant (m_halfU M / 10)) (qu (c h) UreaConc))) by (apply T_add; [apply C1|apply q]).
  revert j. unfold micpSource.
  set (v1 := fun h => addTo (v h) e (aadd (amul (amul (qu (c h) MicrobeConc) (qu (c h) Porosity)) (asub (asub
      (adiv (ascale (qu (c h) OxygenConc) (m_yield M * m_growth M)) (aadd (constant (m_halfO M)) (qu (c h) OxygenConc))) (constant (m_death M))) (constant (m_attach M))))
      (amul (ascale (qu (c h) BiofilmConc) (m_rhoB M * m_detach M)) (pw (amul (qu (c h) Porosity) (greatestGradient K (movingFaces faces h))))))).
  assert (A1 : allTrack v1).
  { apply A_addTo; [exact A|]. apply T_add; apply T_mul.
    - apply T_mul; apply q.
    - apply T_sub; [apply T_sub; [exact GR|apply C1]|apply C1].
    - apply T_scale, q.
    - exact TP. }
  set (v2 := fun h => assign (v1 h) (e + 1) (asub (v1 h (e + 1)%nat)
    (adiv (amul (ascale (aadd (amul (qu (c h) MicrobeConc) (qu (c h) Porosity)) (ascale (qu (c h) BiofilmConc) (m_rhoB M))) (m_consumption M * m_growth M)) (qu (c h) OxygenConc))
       (aadd (constant (m_halfO M)) (qu (c h) OxygenConc))))).
  assert (A2 : allTrack v2).
  { apply A_assign; [exact A1|]. apply T_sub; [apply A1|]. apply T_div; [|apply T_add; [apply C1|apply q]|exact N3].
    apply T_mul; [|apply q]. apply T_scale. apply T_add; [apply T_mul; apply q|apply T_scale, q]. }
  set (v3 := fun h => assign (v2 h) (e + 2) (asub (v2 h (e + 2)%nat)
    (adiv (amul (ascale (qu (c h) BiofilmConc) (m_rhoB M * (m_urea M / 10))) (qu (c h) UreaConc)) (aadd (constant (m_halfU M / 10)) (qu (c h) UreaConc))))).
  assert (A3 : allTrack v3).
  { apply A_assign; [exact A2|]. apply T_sub; [apply A2|]. apply T_div; [|exact TU|exact N4]. apply T_mul; [apply T_scale|]; apply q. }
  change (allTrack (fun h => addTo (addTo (v3 h) (e + 3)
    (aadd (amul (qu (c h) BiofilmConc) (asub (asub (asub
       (adiv (ascale (qu (c h) OxygenConc) (m_yield M * m_growth M)) (aadd (constant (m_halfO M)) (qu (c h) OxygenConc))) (constant (m_death M)))
       (ascale (pw (amul (qu (c h) Porosity) (greatestGradient K (movingFaces faces h)))) (m_detach M)))
       (adiv (amul (ascale (qu (c h) BiofilmConc) ((167 # 100) * 10 * (m_rhoB M / m_rhoC M) * (m_urea M / 10)))
          (adiv (qu (c h) UreaConc) (aadd (constant (m_halfU M / 10)) (qu (c h) UreaConc)))) (aadd (qu (c h) Porosity) (qu (c h) BiofilmConc)))))
       (ascale (amul (qu (c h) MicrobeConc) (qu (c h) Porosity)) (m_attach M / m_rhoB M)))) (e + 4)
    (adiv (amul (ascale (qu (c h) BiofilmConc) (m_rhoB M / m_rhoC M * ((167 # 100) * 10) * (m_urea M / 10))) (qu (c h) UreaConc))
       (aadd (constant (m_halfU M / 10)) (qu (c h) UreaConc))))).
  apply A_addTo; [apply A_addTo; [exact A3|]|].
  - apply T_add; [|apply T_scale, T_mul; apply q]. apply T_mul; [apply q|]. apply T_sub; [apply T_sub; [apply T_sub; [exact GR|apply C1]|apply T_scale, TP]|].
    apply T_div; [|apply T_add; apply q|exact N5]. apply T_mul; [apply T_scale, q|]. apply T_div; [apply q|exact TU|exact N4].
  - apply T_div; [|exact TU|exact N4]. apply T_mul; [apply T_scale|]; apply q.
Qed.
