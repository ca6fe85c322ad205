From Verif Require Export BoExtModel BoExtSpec BoExtProofs BoExtTracks.
From Verif Require Import LocResProofs.
From Coq Require Import Lia Lqa Qfield.

(* ----- the derivatives of the storage ----- *)
Definition allTrack (v : Q -> eqs) : Prop := forall j, tracks (fun h => v h j).
Definition TR (r : Q -> result) : Prop := (forall h, r h = Throws) \/ exists w, (forall h, r h = Done (w h)) /\ allTrack w.
Lemma TR_andThen (r : Q -> result) (f : Q -> eqs -> result) : TR r -> (forall w, allTrack w -> TR (fun h => f h (w h))) ->
  TR (fun h => andThen (r h) (f h)).
Proof.
  intros [T|(w & E & A)] F; [left; intros h; now rewrite T|]. destruct (F w A) as [T|(w' & E' & A')]; [left|right; exists w'; split; [|exact A']];
    intros h; rewrite E; cbn [andThen]; auto.
Qed.
Lemma TR_done w : allTrack w -> TR (fun h => Done (w h)).
Proof. intros A. right. exists w. auto. Qed.
Lemma TR_throws : TR (fun _ => Throws). Proof. now left. Qed.
Lemma A_addTo v e x : allTrack v -> tracks x -> allTrack (fun h => addTo (v h) e (x h)).
Proof. intros A T j. unfold addTo. destruct (j =? e)%nat; [apply T_add; [apply A|exact T]|apply A]. Qed.
Lemma A_assign v e x : allTrack v -> tracks x -> allTrack (fun h => assign (v h) e (x h)).
Proof. intros A T j. unfold assign. destruct (j =? e)%nat; [exact T|apply A]. Qed.
Lemma T_scale' f (q : Q -> Q) : tracks f -> (forall h, q h = q 0) -> tracks (fun h => ascale (f h) (q h)).
Proof. intros F E. apply (T_ext (fun h => ascale (f h) (q 0))); [intros h; now rewrite (E h)|now apply T_scale]. Qed.
Lemma T_one : tracks (fun _ => constant 1). Proof. now apply T_const with 1. Qed.
Ltac trmul := repeat match goal with |- tracks (fun h => amul _ _) => apply T_mul end.
Ltac aadds tac := repeat match goal with |- allTrack (fun h => addTo _ _ _) => apply A_addTo; [|tac] | |- allTrack (fun h => assign _ _ _) => apply A_assign; [|tac] end.
Lemma TR_entry r : TR r -> forall j, tracks (fun h => entry (r h) j).
Proof.
  intros [T|(w & E & A)] j.
  - apply (T_const _ 0). intros h. now rewrite T.
  - apply (T_ext (fun h => w h j)); [intros h; now rewrite E|apply A].
Qed.

Section Storage.
Context (S : setup) (c : Q -> cell) (V : cellVaries c) (K : smooth S (c 0)).
Let q k : tracks (fun h => qu (c h) k) := proj1 V k.
Lemma t_water : polymerEq S <> None \/ brineEq S <> None -> tracks (fun h => amaxQ (waterVolume (c h)) tiny).
Proof.
  intros N. apply T_maxQ; [unfold waterVolume; trmul; apply q|].
  intros E. apply (k_water _ _ K N). rewrite <- E. unfold waterVolume, volumeOf, at_. cbn [amul val]. ring.
Qed.
Lemma tr_solvent v : allTrack v -> TR (fun h => solventStorage S (c h) (v h)).
Proof.
  intros A. unfold solventStorage. destruct (solventEq S) as [e|]; [|now apply TR_done].
  destruct (soluble S), (surfaceVolumes S); apply TR_done; aadds ltac:(trmul; apply q); exact A.
Qed.
Lemma tr_extbo v : allTrack v -> TR (fun h => extboStorage S (c h) (v h)).
Proof.
  intros A. unfold extboStorage. destruct (zFracEq S) as [e|]; [|now apply TR_done]. destruct (surfaceVolumes S); [|apply TR_throws].
  apply TR_done. apply A_addTo; [|apply T_scale, q]. apply A_addTo.
  - destruct (dissolvedGas S); [apply A_addTo; [|trmul; apply q]|]; (apply A_assign; [exact A|trmul; apply q]).
  - apply T_add; [apply T_scale, T_sub; [apply T_one|apply q]|]. apply T_mul; [apply T_mul; [apply T_scale, q|apply q]|apply q].
Qed.
Lemma tr_polymer v : allTrack v -> TR (fun h => polymerStorage S (c h) (v h)).
Proof.
  intros A. unfold polymerStorage. pose proof (k_moles _ _ K) as KM. cbn [equationOf] in KM.
  destruct (polymerEq S) as [e|] eqn:EP; [|now apply TR_done].
  assert (TA : tracks (fun h => aadd (ascale (amul (amaxQ (waterVolume (c h)) tiny) (qu (c h) PolymerConc)) (1 - deadPore (c h)))
      (amul (ascale (asub (constant 1) (qu (c h) Porosity)) (polymerRock (c h))) (qu (c h) PolymerAdsorbed)))).
  { apply T_add.
    - apply (T_scale' _ (fun h => 1 - deadPore (c h))).
      + apply T_mul; [|apply q]. apply t_water. left. now rewrite EP.
      + intros h. now rewrite (proj1 (proj2 V h)).
    - apply T_mul; [|apply q]. apply (T_scale' _ (fun h => polymerRock (c h))); [apply T_sub; [apply T_one|apply q]|]. intros h. apply (proj2 V h). }
  destruct (weightEq S) as [w|]; apply TR_done; [|now apply A_addTo].
  apply A_addTo; [now apply A_addTo|]. apply T_mul; [|apply q]. apply T_maxQ; [exact TA|].
  intros E. apply KM; [discriminate|]. refine (Qeq_trans _ _ _ _ E). clear E. cbn [held]. vals. rewrite Qltb_max.
  rewrite (max_tiny (val (waterVolume (c 0))) (volumeOf (c 0) Water)) by (unfold waterVolume, volumeOf, at_; vals; ring). unfold at_. ring.
Qed.
Lemma tr_foam v : allTrack v -> TR (fun h => foamStorage S (c h) (v h)).
Proof.
  intros A. unfold foamStorage. pose proof (k_foam _ _ K) as KF. unfold foamCarrier in KF.
  destruct (foamEq S) as [e|]; [|now apply TR_done]. specialize (KF ltac:(discriminate)).
  assert (G : forall vol, tracks vol -> ~ val (vol 0) == tiny ->
    allTrack (fun h => addTo (v h) e (aadd (amul (amaxQ (vol h) tiny) (qu (c h) FoamConc))
      (amul (ascale (asub (constant 1) (qu (c h) Porosity)) (foamRock (c h))) (qu (c h) FoamAdsorbed))))).
  { intros vol TV N. apply A_addTo; [exact A|]. apply T_add.
    - apply T_mul; [|apply q]. now apply T_maxQ.
    - apply T_mul; [|apply q]. apply (T_scale' _ (fun h => foamRock (c h))); [apply T_sub; [apply T_one|apply q]|]. intros h. apply (proj2 V h). }
  destruct (foamIn S); [| | |apply TR_throws]; apply TR_done.
  - apply (G (fun h => amul (qu (c h) Porosity) (amul (qu (c h) (Saturation Water)) (qu (c h) (InvB Water)))));
      [trmul; apply q|]. intros E. apply KF. refine (Qeq_trans _ _ _ _ E). unfold volumeOf, at_. vals. ring.
  - apply (G (fun h => amul (qu (c h) Porosity) (amul (qu (c h) (Saturation Gas)) (qu (c h) (InvB Gas)))));
      [trmul; apply q|]. intros E. apply KF. refine (Qeq_trans _ _ _ _ E). unfold volumeOf, at_. vals. ring.
  - destruct (solventEq S).
    + apply (G (fun h => amul (qu (c h) Porosity) (amul (qu (c h) SolventSaturation) (qu (c h) SolventInvB))));
        [trmul; apply q|]. intros E. apply KF. refine (Qeq_trans _ _ _ _ E). unfold solventVolume, at_. vals. ring.
    + apply (G (fun h => qu (c h) Porosity)); [apply q|exact KF].
Qed.
Lemma tr_brine v : allTrack v -> TR (fun h => brineStorage S (c h) (v h)).
Proof.
  intros A. unfold brineStorage. pose proof (k_salt _ _ K) as KS. pose proof (fun X => t_water (or_intror X)) as TW.
  destruct (brineEq S) as [e|]; [|now apply TR_done]. specialize (KS ltac:(discriminate)). specialize (TW ltac:(discriminate)).
  destruct (precipitation S); apply TR_done; apply A_addTo; try exact A; [|apply T_mul; [exact TW|apply q]].
  apply T_add; [apply T_mul; [exact TW|apply q]|]. apply T_mul; [|apply q].
  apply (T_scale' _ (fun h => saltDensity (c h))); [|intros h; apply (proj2 V h)].
  apply T_div; [apply q| |].
  - apply T_add; [apply T_sub; [apply T_one|apply q]|now apply T_const with (1 # 100000000)].
  - exact (KS eq_refl).
Qed.
Lemma tr_micp v : allTrack v -> TR (fun h => micpStorage S (c h) (v h)).
Proof.
  intros A. unfold micpStorage. pose proof (k_micp _ _ K) as KM. destruct (micpEq S) as [e|]; [|now apply TR_done].
  assert (TP : tracks (fun h => amaxQ (qu (c h) Porosity) tiny)) by (apply T_maxQ; [apply q|apply KM; discriminate]).
  apply TR_done. aadds ltac:(trmul; first [exact TP | apply q]). exact A.
Qed.
Lemma storage_tracks v j : allTrack v -> tracks (fun h => entry (extStorage S (c h) (v h)) j).
Proof.
  intros A. revert j. apply (TR_entry (fun h => extStorage S (c h) (v h))). unfold extStorage.
  apply (TR_andThen _ (fun h v1 => andThen (extboStorage S (c h) v1) (fun v => andThen (polymerStorage S (c h) v) (fun v =>
    andThen (foamStorage S (c h) v) (fun v => andThen (brineStorage S (c h) v) (micpStorage S (c h))))))); [now apply tr_solvent|]. intros v1 A1.
  apply (TR_andThen _ (fun h v => andThen (polymerStorage S (c h) v) (fun v =>
    andThen (foamStorage S (c h) v) (fun v => andThen (brineStorage S (c h) v) (micpStorage S (c h)))))); [now apply tr_extbo|]. intros v2 A2.
  apply (TR_andThen _ (fun h v => andThen (foamStorage S (c h) v) (fun v => andThen (brineStorage S (c h) v) (micpStorage S (c h))))); [now apply tr_polymer|]. intros v3 A3.
  apply (TR_andThen _ (fun h v => andThen (brineStorage S (c h) v) (micpStorage S (c h)))); [now apply tr_foam|]. intros v4 A4.
  apply (TR_andThen _ (fun h v => micpStorage S (c h) v)); [now apply tr_brine|]. intros v5 A5. now apply tr_micp.
Qed.
End Storage.

(* ----- which equations the fluxes write ----- *)
Lemma solventFlux_other S f s v w j : solventFlux S f s v = Done w -> spares S inSolvent j -> w j = v j.
Proof.
  unfold solventFlux. intros H P. pose proof (P Solvent (or_introl eq_refl)) as P0. cbn [equationOf] in P0.
  destruct (solventEq S) as [e|]; done_eq H; [|reflexivity]. destruct (soluble S); skip; reflexivity.
Qed.
Lemma extboFlux_other S f s v w j : extboFlux S f s v = Done w -> spares S inExtbo j -> w j = v j.
Proof.
  unfold extboFlux. intros H P. pose proof (P ZSubstance (or_introl eq_refl)) as P0. cbn [equationOf] in P0.
  destruct (zFracEq S) as [e|] eqn:E; [|done_eq H; reflexivity].
  destruct (surfaceVolumes S); [|discriminate]. done_eq H. destruct (dissolvedGas S); skip; reflexivity.
Qed.
Lemma polymerFlux_other S f s v w j : polymerFlux S f s v = Done w -> spares S inPolymer j -> j <> waterEq S \/ polymerEq S = None -> w j = v j.
Proof.
  unfold polymerFlux. intros H P NW. pose proof (P Polymer (or_introl eq_refl)) as P0. pose proof (P PolymerMoles (or_intror (or_introl eq_refl))) as P1.
  cbn [equationOf] in P0, P1. destruct (polymerEq S) as [e|]; [|done_eq H; reflexivity]. destruct NW as [NW|NW]; [|discriminate].
  destruct (weightEq S); done_eq H; skip; reflexivity.
Qed.
Lemma foamFlux_other S f s v w j : foamFlux S f s v = Done w -> spares S inFoam j -> w j = v j.
Proof.
  unfold foamFlux. intros H P. pose proof (P Foam (or_introl eq_refl)) as P0. cbn [equationOf] in P0.
  destruct (foamEq S) as [e|]; [|done_eq H; reflexivity].
  destruct (foamIn S); [| |destruct (solventEq S)|]; try discriminate; done_eq H; skip; reflexivity.
Qed.
Lemma brineFlux_other S f s v w j : brineFlux S f s v = Done w -> spares S inBrine j -> w j = v j.
Proof.
  unfold brineFlux. intros H P. pose proof (P Salt (or_introl eq_refl)) as P0. cbn [equationOf] in P0.
  destruct (brineEq S) as [e|]; done_eq H; [|reflexivity]. skip; reflexivity.
Qed.
Definition inMicpFlux := [Microbes; Oxygen; Urea].
Lemma micpFlux_other S f s v w j : micpFlux S f s v = Done w -> spares S inMicpFlux j -> w j = v j.
Proof.
  unfold micpFlux. intros H P. destruct (micpEq S) as [e|] eqn:E; done_eq H; [|reflexivity].
  pose proof (P Microbes ltac:(cbn; tauto)) as P0. pose proof (P Oxygen ltac:(cbn; tauto)) as P1. pose proof (P Urea ltac:(cbn; tauto)) as P2.
  cbn [equationOf] in *. rewrite E in *. cbn [option_map] in *. rewrite Nat.add_0_r in P0. rewrite !assign_other by congruence. reflexivity.
Qed.
Lemma flux_chain S f s v w : extFlux S f s v = Done w -> exists v1 v2 v3 v4 v5,
  solventFlux S f s v = Done v1 /\ extboFlux S f s v1 = Done v2 /\ polymerFlux S f s v2 = Done v3 /\
  foamFlux S f s v3 = Done v4 /\ brineFlux S f s v4 = Done v5 /\ micpFlux S f s v5 = Done w.
Proof.
  unfold extFlux. intros H. apply andThen_done in H as (v1 & H1 & H). apply andThen_done in H as (v2 & H2 & H).
  apply andThen_done in H as (v3 & H3 & H). apply andThen_done in H as (v4 & H4 & H). apply andThen_done in H as (v5 & H5 & H).
  exists v1, v2, v3, v4, v5. repeat split; assumption.
Qed.
Lemma val_kept f u x : val (kept f u x) = val x.
Proof. unfold kept. destruct (u =? f_in f)%nat; reflexivity. Qed.
Ltac ni := cbn; intuition discriminate.

Lemma flux_exact S f s v w x e : separate S -> zeroAt S v -> extFlux S f s v = Done w -> equationOf S x = Some e ->
  (x = Solvent -> surfaceVolumes S = true /\ (soluble S = true -> f_sup f = f_up f Water)) ->
  val (w e) == moved S f s x.
Proof.
  intros W Z H E M. apply flux_chain in H as (v1 & v2 & v3 & v4 & v5 & H1 & H2 & H3 & H4 & H5 & H6).
  pose proof (fun l N => spares_of S x e l W E N) as SP. pose proof (s_water S W x) as WA. pose proof (Z x e E) as Z0.
  assert (WN : e <> waterEq S) by (intros ->; contradiction).
  assert (Q1 : ~ In x inSolvent -> v1 e = v e) by (intros; eapply solventFlux_other; eauto).
  assert (Q2 : ~ In x inExtbo -> v2 e = v1 e) by (intros; eapply extboFlux_other; eauto).
  assert (Q3 : ~ In x inPolymer -> v3 e = v2 e) by (intros; eapply polymerFlux_other; eauto).
  assert (Q4 : ~ In x inFoam -> v4 e = v3 e) by (intros; eapply foamFlux_other; eauto).
  assert (Q5 : ~ In x inBrine -> v5 e = v4 e) by (intros; eapply brineFlux_other; eauto).
  assert (Q6 : ~ In x inMicpFlux -> w e = v5 e) by (intros; eapply micpFlux_other; eauto).
  destruct x; cbn [equationOf] in E.
  - rewrite Q6, Q5, Q4, Q3, Q2 by ni. unfold solventFlux in H1. destruct (M eq_refl) as (M1 & M2). rewrite E, M1 in H1. done_eq H1.
    cbn [moved]. destruct (soluble S); rewrite ?val_addTo, assign_same; vals; rewrite !val_kept; unfold at_; [rewrite (M2 eq_refl)|]; ring.
  - rewrite Q6, Q5, Q4, Q3 by ni. unfold extboFlux in H2. rewrite E in H2.
    destruct (surfaceVolumes S); [|discriminate]. done_eq H2. cbn [moved].
    destruct (dissolvedGas S); rewrite ?val_addTo, assign_same; vals; rewrite !val_kept; unfold at_; ring.
  - rewrite Q6, Q5, Q4 by ni. unfold polymerFlux in H3. rewrite E in H3. cbn [moved].
    assert (X : val (v3 e) == val (f_flux f Water) * at_ (s (f_up f Water)) (InvB Water) * at_ (s (f_up f Water)) PolymerCorrection
       / val (f_pshear f) * at_ (s (f_up f Water)) PolymerConc).
    { destruct (weightEq S) as [w'|] eqn:EW; done_eq H3.
      - assert (NE : e <> w').
        { intros ->. assert (K : PolymerMoles = Polymer) by (apply (s_distinct S W) with w'; cbn [equationOf]; [now rewrite E|exact E]). discriminate. }
        rewrite assign_other by exact NE. rewrite assign_other by exact WN. rewrite assign_same. vals. rewrite !val_kept. reflexivity.
      - rewrite assign_other by exact WN. rewrite assign_same. vals. rewrite !val_kept. reflexivity. }
    rewrite X. unfold Qdiv. ring.
  - rewrite Q6, Q5, Q4 by ni. unfold polymerFlux in H3. destruct (polymerEq S) as [p|] eqn:EP; [|discriminate]. rewrite E in H3. done_eq H3.
    assert (NP : p <> waterEq S) by (intros ->; apply (s_water S W Polymer); exact EP).
    cbn [moved]. rewrite assign_same. vals. rewrite assign_other by exact NP. rewrite assign_same. vals. rewrite !val_kept. unfold at_, Qdiv. ring.
  - rewrite Q6, Q5 by ni. unfold foamFlux in H4. rewrite E in H4. cbn [moved].
    destruct (foamIn S); [| |destruct (solventEq S)|]; try discriminate; done_eq H4; rewrite assign_same; vals; rewrite !val_kept; unfold at_; ring.
  - rewrite Q6 by ni. unfold brineFlux in H5. rewrite E in H5. done_eq H5. cbn [moved]. rewrite assign_same. vals. rewrite !val_kept. unfold at_. ring.
  - unfold micpFlux in H6. destruct (micpEq S) as [n|]; [|discriminate]. cbn [option_map] in E. injection E as <-. done_eq H6. cbn [moved].
    rewrite Nat.add_0_r. rewrite !assign_other by lia. rewrite assign_same. vals. rewrite val_kept. reflexivity.
  - unfold micpFlux in H6. destruct (micpEq S) as [n|]; [|discriminate]. cbn [option_map] in E. injection E as <-. done_eq H6. cbn [moved].
    rewrite !assign_other by lia. rewrite assign_same. vals. rewrite val_kept. reflexivity.
  - unfold micpFlux in H6. destruct (micpEq S) as [n|]; [|discriminate]. cbn [option_map] in E. injection E as <-. done_eq H6. cbn [moved].
    rewrite assign_same. vals. rewrite val_kept. reflexivity.
  - rewrite Q6, Q5, Q4, Q3, Q2, Q1, Z0 by ni. reflexivity.
  - rewrite Q6, Q5, Q4, Q3, Q2, Q1, Z0 by ni. reflexivity.
Qed.
Lemma flux_water S f s v w : separate S -> extFlux S f s v = Done w ->
  w (waterEq S) = match polymerEq S with Some _ => adiv (v (waterEq S)) (kept f (f_up f Water) (f_wshear f)) | None => v (waterEq S) end.
Proof.
  intros W H. apply flux_chain in H as (v1 & v2 & v3 & v4 & v5 & H1 & H2 & H3 & H4 & H5 & H6).
  assert (SP : forall l, spares S l (waterEq S)) by (intros l x _; apply (s_water S W)).
  rewrite (micpFlux_other _ _ _ _ _ _ H6), (brineFlux_other _ _ _ _ _ _ H5), (foamFlux_other _ _ _ _ _ _ H4) by auto.
  rewrite <- (solventFlux_other _ _ _ _ _ _ H1), <- (extboFlux_other _ _ _ _ _ _ H2) by auto.
  unfold polymerFlux in H3. destruct (polymerEq S) as [e|] eqn:E; [|done_eq H3; reflexivity].
  assert (NE : waterEq S <> e) by (intros F; apply (s_water S W Polymer); cbn [equationOf]; congruence).
  destruct (weightEq S) as [w'|] eqn:EW; done_eq H3.
  - assert (NW : waterEq S <> w') by (intros F; apply (s_water S W PolymerMoles); cbn [equationOf]; rewrite E; congruence).
    rewrite assign_other by exact NW. rewrite assign_same. now rewrite assign_other by exact NE.
  - rewrite assign_same. now rewrite assign_other by exact NE.
Qed.
Lemma flux_other S f s v w j : extFlux S f s v = Done w -> (forall x, equationOf S x <> Some j) -> j <> waterEq S -> w j = v j.
Proof.
  intros H N NW. apply flux_chain in H as (v1 & v2 & v3 & v4 & v5 & H1 & H2 & H3 & H4 & H5 & H6).
  assert (SP : forall l, spares S l j) by (intros l x _; apply N).
  rewrite (micpFlux_other _ _ _ _ _ _ H6), (brineFlux_other _ _ _ _ _ _ H5), (foamFlux_other _ _ _ _ _ _ H4), (polymerFlux_other _ _ _ _ _ _ H3),
    (extboFlux_other _ _ _ _ _ _ H2), (solventFlux_other _ _ _ _ _ _ H1) by auto. reflexivity.
Qed.
Lemma flux_throws S f s v : extFlux S f s v = Throws <->
  (zFracEq S <> None /\ surfaceVolumes S = false) \/
  (foamEq S <> None /\ (foamIn S = ByOther \/ (foamIn S = BySolvent /\ solventEq S = None))).
Proof.
  assert (A : forall v1, exists v2, solventFlux S f s v1 = Done v2) by (intros; unfold solventFlux; destruct (solventEq S); eauto).
  assert (P : forall v1, exists v2, polymerFlux S f s v1 = Done v2) by (intros; unfold polymerFlux; destruct (polymerEq S); eauto).
  assert (B : forall v1, exists v2, brineFlux S f s v1 = Done v2) by (intros; unfold brineFlux; destruct (brineEq S); eauto).
  assert (D : forall v1, exists v2, micpFlux S f s v1 = Done v2) by (intros; unfold micpFlux; destruct (micpEq S); eauto).
  assert (X : forall v1, (extboFlux S f s v1 = Throws /\ zFracEq S <> None /\ surfaceVolumes S = false) \/
    ((exists v2, extboFlux S f s v1 = Done v2) /\ ~ (zFracEq S <> None /\ surfaceVolumes S = false))).
  { intros v1. unfold extboFlux. destruct (zFracEq S); [|right; split; [eauto|intros (K & _); now apply K]].
    destruct (surfaceVolumes S); [right|left]; split; eauto; try (intros (_ & K); discriminate). split; [discriminate|reflexivity]. }
  assert (F : forall v1, (foamFlux S f s v1 = Throws /\ foamEq S <> None /\ (foamIn S = ByOther \/ (foamIn S = BySolvent /\ solventEq S = None))) \/
    ((exists v2, foamFlux S f s v1 = Done v2) /\ ~ (foamEq S <> None /\ (foamIn S = ByOther \/ (foamIn S = BySolvent /\ solventEq S = None))))).
  { intros v1. unfold foamFlux. destruct (foamEq S); [|right; split; [eauto|intros (K & _); now apply K]].
    destruct (foamIn S).
    - right. split; [eauto|]. intros (_ & [K|(K & _)]); discriminate.
    - right. split; [eauto|]. intros (_ & [K|(K & _)]); discriminate.
    - destruct (solventEq S); [right|left].
      + split; [eauto|]. intros (_ & [K|(_ & K)]); discriminate.
      + split; [reflexivity|]. split; [discriminate|auto].
    - left. split; [reflexivity|]. split; [discriminate|auto]. }
  unfold extFlux. destruct (A v) as (v1 & ->). cbn [andThen].
  destruct (X v1) as [(-> & X1)|((v2 & ->) & X1)]; cbn [andThen]; [split; auto|].
  destruct (P v2) as (v3 & ->). cbn [andThen]. destruct (F v3) as [(-> & F1)|((v4 & ->) & F1)]; cbn [andThen]; [split; auto|].
  destruct (B v4) as (v5 & ->). cbn [andThen]. destruct (D v5) as (v6 & ->). split; [discriminate|tauto].
Qed.

(* ----- the derivatives of the fluxes ----- *)
Section FluxDerivatives.
Context (S : setup) (f : Q -> face) (s : Q -> nat -> cell) (FV : faceVaries f) (SV : solutionVaries s (f_in (f 0))).
Lemma t_kept u k : tracks (fun h => kept (f h) u (qu (s h u) k)).
Proof.
  unfold kept. apply (T_ext (fun h => if (u =? f_in (f 0))%nat then qu (s h u) k else dropped (qu (s h u) k))).
  { intros h. now rewrite (fv_in f FV h). }
  destruct (Nat.eqb_spec u (f_in (f 0))) as [->|N]; [exact (proj1 (proj1 SV) k)|]. apply T_dropped. intros h. now rewrite (proj2 SV h u N).
Qed.
Lemma t_shear (x : face -> ad) : tracks (fun h => x (f h)) ->
  f_up (f 0) Water = f_in (f 0) \/ (forall h, val (x (f h)) == val (x (f 0))) -> tracks (fun h => kept (f h) (f_up (f 0) Water) (x (f h))).
Proof.
  intros T O. unfold kept. apply (T_ext (fun h => if (f_up (f 0) Water =? f_in (f 0))%nat then x (f h) else dropped (x (f h)))).
  { intros h. now rewrite (fv_in f FV h). }
  destruct (Nat.eqb_spec (f_up (f 0) Water) (f_in (f 0))) as [E|N]; [exact T|]. destruct O as [O|O]; [contradiction|]. now apply T_dropped.
Qed.
Context (PS : polymerEq S <> None -> ~ val (f_wshear (f 0)) == 0 /\ ~ val (f_pshear (f 0)) == 0)
        (UP : polymerEq S <> None -> f_up (f 0) Water = f_in (f 0) \/
                (forall h, val (f_wshear (f h)) == val (f_wshear (f 0)) /\ val (f_pshear (f h)) == val (f_pshear (f 0)))).
Lemma trf_solvent v : allTrack v -> TR (fun h => solventFlux S (f h) (s h) (v h)).
Proof.
  intros A. unfold solventFlux. destruct (solventEq S) as [e|]; [|now apply TR_done].
  assert (E : forall X (G : nat -> X) h, G (f_sup (f h)) = G (f_sup (f 0))) by (intros X G h; now rewrite (fv_sup f FV h)).
  assert (B : allTrack (fun h => assign (v h) e (amul (f_sflux (f h)) (kept (f h) (f_sup (f h))
      (if surfaceVolumes S then qu (s h (f_sup (f h))) SolventInvB else qu (s h (f_sup (f h))) SolventDensity))))).
  { apply A_assign; [exact A|]. apply T_mul; [apply (fv_sflux f FV)|].
    apply (T_ext (fun h => kept (f h) (f_sup (f 0)) (qu (s h (f_sup (f 0))) (if surfaceVolumes S then SolventInvB else SolventDensity)))); [|apply t_kept].
    intros h. rewrite (fv_sup f FV h). now destruct (surfaceVolumes S). }
  destruct (soluble S); apply TR_done; [|exact B]. apply A_addTo; [exact B|]. apply T_mul; [apply T_mul; [apply (fv_flux f FV)|]|].
  - apply (T_ext (fun h => kept (f h) (f_sup (f 0)) (qu (s h (f_sup (f 0))) (if surfaceVolumes S then InvB Water else Density Water)))); [|apply t_kept].
    intros h. rewrite (fv_sup f FV h). now destruct (surfaceVolumes S).
  - apply (T_ext (fun h => kept (f h) (f_sup (f 0)) (qu (s h (f_sup (f 0))) SolventInWater))); [|apply t_kept]. intros h. now rewrite (fv_sup f FV h).
Qed.
Lemma t_up a k : tracks (fun h => kept (f h) (f_up (f h) a) (qu (s h (f_up (f h) a)) k)).
Proof. apply (T_ext (fun h => kept (f h) (f_up (f 0) a) (qu (s h (f_up (f 0) a)) k))); [|apply t_kept]. intros h. now rewrite (fv_up f FV h a). Qed.
Lemma trf_extbo v : allTrack v -> TR (fun h => extboFlux S (f h) (s h) (v h)).
Proof.
  intros A. unfold extboFlux. destruct (zFracEq S) as [e|]; [|now apply TR_done]. destruct (surfaceVolumes S); [|apply TR_throws].
  destruct (dissolvedGas S); apply TR_done; [apply A_addTo; [|apply T_mul; [apply T_mul; [apply T_mul; [apply (fv_flux f FV)|]|]|]; apply t_up]|];
    (apply A_assign; [exact A|apply T_mul; [apply T_mul; [apply (fv_flux f FV)|]|]; apply t_up]).
Qed.
Lemma trf_polymer v : allTrack v -> TR (fun h => polymerFlux S (f h) (s h) (v h)).
Proof.
  intros A. unfold polymerFlux. destruct (polymerEq S) as [e|]; [|now apply TR_done].
  destruct (PS ltac:(discriminate)) as (PW & PP). specialize (UP ltac:(discriminate)).
  assert (TP : tracks (fun h => kept (f h) (f_up (f h) Water) (f_pshear (f h)))).
  { apply (T_ext (fun h => kept (f h) (f_up (f 0) Water) (f_pshear (f h)))); [intros h; now rewrite (fv_up f FV h)|].
    apply (t_shear f_pshear); [apply (fv_pshear f FV)|]. destruct UP as [U|U]; [now left|right; intros h; apply U]. }
  assert (TW : tracks (fun h => kept (f h) (f_up (f h) Water) (f_wshear (f h)))).
  { apply (T_ext (fun h => kept (f h) (f_up (f 0) Water) (f_wshear (f h)))); [intros h; now rewrite (fv_up f FV h)|].
    apply (t_shear f_wshear); [apply (fv_wshear f FV)|]. destruct UP as [U|U]; [now left|right; intros h; apply U]. }
  assert (B : allTrack (fun h => assign (v h) e (amul (adiv (amul (amul (f_flux (f h) Water) (kept (f h) (f_up (f h) Water) (qu (s h (f_up (f h) Water)) (InvB Water))))
       (kept (f h) (f_up (f h) Water) (qu (s h (f_up (f h) Water)) PolymerCorrection))) (kept (f h) (f_up (f h) Water) (f_pshear (f h))))
       (kept (f h) (f_up (f h) Water) (qu (s h (f_up (f h) Water)) PolymerConc))))).
  { apply A_assign; [exact A|]. apply T_mul; [|apply t_up]. apply T_div; [|exact TP|rewrite val_kept; exact PP].
    apply T_mul; [|apply t_up]. apply T_mul; [apply (fv_flux f FV)|apply t_up]. }
  assert (C : allTrack (fun h => let v1 := assign (v h) e (amul (adiv (amul (amul (f_flux (f h) Water) (kept (f h) (f_up (f h) Water) (qu (s h (f_up (f h) Water)) (InvB Water))))
       (kept (f h) (f_up (f h) Water) (qu (s h (f_up (f h) Water)) PolymerCorrection))) (kept (f h) (f_up (f h) Water) (f_pshear (f h))))
       (kept (f h) (f_up (f h) Water) (qu (s h (f_up (f h) Water)) PolymerConc))) in
      assign v1 (waterEq S) (adiv (v1 (waterEq S)) (kept (f h) (f_up (f h) Water) (f_wshear (f h)))))).
  { cbv zeta. apply A_assign; [exact B|]. apply T_div; [exact (B (waterEq S))|exact TW|rewrite val_kept; exact PW]. }
  cbv zeta in C. destruct (weightEq S) as [w|]; apply TR_done; [|exact C]. apply A_assign; [exact C|]. apply T_mul; [exact (C e)|apply t_up].
Qed.
Lemma trf_foam v : allTrack v -> TR (fun h => foamFlux S (f h) (s h) (v h)).
Proof.
  intros A. unfold foamFlux. destruct (foamEq S) as [e|]; [|now apply TR_done].
  destruct (foamIn S); [| |destruct (solventEq S); [|apply TR_throws]|apply TR_throws]; apply TR_done.
  - apply A_assign; [exact A|]. apply T_mul; [apply T_mul; [apply (fv_flux f FV)|]|]; apply t_up.
  - apply A_assign; [exact A|]. apply T_mul; [apply T_mul; [apply (fv_flux f FV)|]|]; apply t_up.
  - apply A_assign; [exact A|]. apply T_mul; [apply T_mul; [apply (fv_sflux f FV)|]|].
    + apply (T_ext (fun h => kept (f h) (f_sup (f 0)) (qu (s h (f_sup (f 0))) SolventInvB))); [|apply t_kept]. intros h. now rewrite (fv_sup f FV h).
    + apply (T_ext (fun h => kept (f h) (f_sup (f 0)) (qu (s h (f_sup (f 0))) FoamConc))); [|apply t_kept]. intros h. now rewrite (fv_sup f FV h).
Qed.
Lemma trf_brine v : allTrack v -> TR (fun h => brineFlux S (f h) (s h) (v h)).
Proof.
  intros A. unfold brineFlux. destruct (brineEq S) as [e|]; [|now apply TR_done]. apply TR_done.
  apply A_assign; [exact A|]. apply T_mul; [apply T_mul; [apply (fv_flux f FV)|]|]; apply t_up.
Qed.
Lemma trf_micp v : allTrack v -> TR (fun h => micpFlux S (f h) (s h) (v h)).
Proof.
  intros A. unfold micpFlux. destruct (micpEq S) as [e|]; [|now apply TR_done]. apply TR_done.
  aadds ltac:(apply T_mul; [apply (fv_flux f FV)|apply t_up]). exact A.
Qed.
Lemma flux_tracks v j : allTrack v -> tracks (fun h => entry (extFlux S (f h) (s h) (v h)) j).
Proof.
  intros A. revert j. apply (TR_entry (fun h => extFlux S (f h) (s h) (v h))). unfold extFlux.
  apply (TR_andThen _ (fun h v1 => andThen (extboFlux S (f h) (s h) v1) (fun v => andThen (polymerFlux S (f h) (s h) v) (fun v =>
    andThen (foamFlux S (f h) (s h) v) (fun v => andThen (brineFlux S (f h) (s h) v) (micpFlux S (f h) (s h))))))); [now apply trf_solvent|]. intros v1 A1.
  apply (TR_andThen _ (fun h v => andThen (polymerFlux S (f h) (s h) v) (fun v =>
    andThen (foamFlux S (f h) (s h) v) (fun v => andThen (brineFlux S (f h) (s h) v) (micpFlux S (f h) (s h)))))); [now apply trf_extbo|]. intros v2 A2.
  apply (TR_andThen _ (fun h v => andThen (foamFlux S (f h) (s h) v) (fun v => andThen (brineFlux S (f h) (s h) v) (micpFlux S (f h) (s h))))); [now apply trf_polymer|]. intros v3 A3.
  apply (TR_andThen _ (fun h v => andThen (brineFlux S (f h) (s h) v) (micpFlux S (f h) (s h)))); [now apply trf_foam|]. intros v4 A4.
  apply (TR_andThen _ (fun h v => micpFlux S (f h) (s h) v)); [now apply trf_brine|]. intros v5 A5. now apply trf_micp.
Qed.
End FluxDerivatives.
Lemma substance_solvent (x : substance) : x = Solvent \/ x <> Solvent.
Proof. destruct x; [now left|..]; right; discriminate. Qed.
Lemma solvent_final S f s v w e : separate S -> extFlux S f s v = Done w -> equationOf S Solvent = Some e ->
  val (w e) == val (f_sflux f) * at_ (s (f_sup f)) (if surfaceVolumes S then SolventInvB else SolventDensity)
   + (if soluble S then val (f_flux f Water) * (at_ (s (f_sup f)) (if surfaceVolumes S then InvB Water else Density Water) * at_ (s (f_sup f)) SolventInWater) else 0).
Proof.
  intros W H E. apply flux_chain in H as (v1 & v2 & v3 & v4 & v5 & H1 & H2 & H3 & H4 & H5 & H6).
  pose proof (fun l N => spares_of S Solvent e l W E N) as SP.
  assert (WN : e <> waterEq S) by (intros ->; apply (s_water S W Solvent); exact E).
  rewrite (micpFlux_other _ _ _ _ _ _ H6), (brineFlux_other _ _ _ _ _ _ H5), (foamFlux_other _ _ _ _ _ _ H4), (polymerFlux_other _ _ _ _ _ _ H3),
    (extboFlux_other _ _ _ _ _ _ H2) by first [left; exact WN | apply SP; ni].
  unfold solventFlux in H1. cbn [equationOf] in E. rewrite E in H1. done_eq H1.
  destruct (soluble S); rewrite ?val_addTo, assign_same; vals; rewrite !val_kept; destruct (surfaceVolumes S); unfold at_; ring.
Qed.
