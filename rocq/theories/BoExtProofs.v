From Verif Require Export BoExtModel BoExtSpec.
From Verif Require Import LocResProofs.
From Coq Require Import Lia Lqa Qfield.

Lemma assign_same v i x : assign v i x i = x.
Proof. unfold assign. now rewrite Nat.eqb_refl. Qed.
Lemma assign_other v i x j : j <> i -> assign v i x j = v j.
Proof. intros N. unfold assign. now rewrite (proj2 (Nat.eqb_neq j i) N). Qed.

(* ----- which equations the modules write ----- *)
Definition spares (S : setup) (l : list substance) (j : nat) : Prop := forall x, In x l -> equationOf S x <> Some j.
Definition inSolvent := [Solvent]. Definition inExtbo := [ZSubstance]. Definition inPolymer := [Polymer; PolymerMoles].
Definition inFoam := [Foam]. Definition inBrine := [Salt]. Definition inMicp := [Microbes; Oxygen; Urea; Biofilm; Calcite].

Ltac done_eq H := injection H as H; subst.
Ltac skip := repeat first [rewrite addTo_other by (intros ?; subst; congruence) | rewrite assign_other by (intros ?; subst; congruence)].

Lemma solventStorage_other S c v w j : solventStorage S c v = Done w -> spares S inSolvent j -> w j = v j.
Proof.
  unfold solventStorage. intros H P. pose proof (P Solvent (or_introl eq_refl)) as P0. cbn [equationOf] in P0.
  destruct (solventEq S) as [e|]; done_eq H; [|reflexivity]. destruct (soluble S); skip; reflexivity.
Qed.
Lemma extboStorage_other S c v w j : extboStorage S c v = Done w -> spares S inExtbo j -> ~ lastComponent S j -> w j = v j.
Proof.
  unfold extboStorage. intros H P L. pose proof (P ZSubstance (or_introl eq_refl)) as P0. cbn [equationOf] in P0.
  destruct (zFracEq S) as [e|] eqn:E; [|done_eq H; reflexivity].
  assert (L' : j <> (e - 1)%nat) by (intros ->; apply L; exists e; auto).
  destruct (surfaceVolumes S); [|discriminate]. done_eq H. rewrite addTo_other by exact L'. destruct (dissolvedGas S); skip; reflexivity.
Qed.
Lemma polymerStorage_other S c v w j : polymerStorage S c v = Done w -> spares S inPolymer j -> w j = v j.
Proof.
  unfold polymerStorage. intros H P. pose proof (P Polymer (or_introl eq_refl)) as P0. pose proof (P PolymerMoles (or_intror (or_introl eq_refl))) as P1.
  cbn [equationOf] in P0, P1. destruct (polymerEq S) as [e|]; [|done_eq H; reflexivity]. destruct (weightEq S); done_eq H; skip; reflexivity.
Qed.
Lemma foamStorage_other S c v w j : foamStorage S c v = Done w -> spares S inFoam j -> w j = v j.
Proof.
  unfold foamStorage. intros H P. pose proof (P Foam (or_introl eq_refl)) as P0. cbn [equationOf] in P0.
  destruct (foamEq S) as [e|]; [|done_eq H; reflexivity]. destruct (foamIn S); try discriminate; done_eq H; skip; reflexivity.
Qed.
Lemma brineStorage_other S c v w j : brineStorage S c v = Done w -> spares S inBrine j -> w j = v j.
Proof.
  unfold brineStorage. intros H P. pose proof (P Salt (or_introl eq_refl)) as P0. cbn [equationOf] in P0.
  destruct (brineEq S) as [e|]; done_eq H; [|reflexivity]. skip; reflexivity.
Qed.
Lemma micp_spared S e j : micpEq S = Some e -> spares S inMicp j ->
  j <> e /\ j <> (e + 1)%nat /\ j <> (e + 2)%nat /\ j <> (e + 3)%nat /\ j <> (e + 4)%nat.
Proof.
  intros E P.
  pose proof (P Microbes ltac:(cbn; tauto)) as P0. pose proof (P Oxygen ltac:(cbn; tauto)) as P1. pose proof (P Urea ltac:(cbn; tauto)) as P2.
  pose proof (P Biofilm ltac:(cbn; tauto)) as P3. pose proof (P Calcite ltac:(cbn; tauto)) as P4.
  cbn [equationOf] in *. rewrite E in *. cbn [option_map] in *. rewrite Nat.add_0_r in P0. repeat split; intros ->; congruence.
Qed.
Lemma micpStorage_other S c v w j : micpStorage S c v = Done w -> spares S inMicp j -> w j = v j.
Proof.
  unfold micpStorage. intros H P. destruct (micpEq S) as [e|] eqn:E; done_eq H; [|reflexivity].
  destruct (micp_spared S e j E P) as (P0 & P1 & P2 & P3 & P4). rewrite !addTo_other by assumption. reflexivity.
Qed.

Lemma andThen_done r f w : andThen r f = Done w -> exists v, r = Done v /\ f v = Done w.
Proof. destruct r as [v|]; [|discriminate]. intros H. exists v. auto. Qed.
Lemma storage_chain S c v w : extStorage S c v = Done w -> exists v1 v2 v3 v4 v5,
  solventStorage S c v = Done v1 /\ extboStorage S c v1 = Done v2 /\ polymerStorage S c v2 = Done v3 /\
  foamStorage S c v3 = Done v4 /\ brineStorage S c v4 = Done v5 /\ micpStorage S c v5 = Done w.
Proof.
  unfold extStorage. intros H. apply andThen_done in H as (v1 & H1 & H). apply andThen_done in H as (v2 & H2 & H).
  apply andThen_done in H as (v3 & H3 & H). apply andThen_done in H as (v4 & H4 & H). apply andThen_done in H as (v5 & H5 & H).
  exists v1, v2, v3, v4, v5. repeat split; assumption.
Qed.
Lemma spares_of S x e l : separate S -> equationOf S x = Some e -> ~ In x l -> spares S l e.
Proof. intros W E N y I F. apply N. now rewrite (s_distinct S W x y e E F). Qed.


Lemma val_addTo v e x : val (addTo v e x e) = val (v e) + val x.
Proof. now rewrite addTo_same. Qed.
Lemma Qltb_max x q : val (amaxQ x q) == Qmax (val x) q.
Proof.
  unfold amaxQ. destruct (Qltb (val x) q) eqn:E.
  - apply Qltb_lt in E. cbn [constant val]. rewrite Q.max_r; [reflexivity|]. apply Qlt_le_weak, E.
  - apply Qltb_ge in E. rewrite Q.max_l; [reflexivity|exact E].
Qed.
Lemma max_tiny a b : a == b -> Qmax a tiny == Qmax tiny b.
Proof. intros ->. apply Q.max_comm. Qed.
Ltac vals := cbn [aadd asub amul ascale adiv aopp constant dropped val].
Lemma mass_mode_of S : surfaceVolumes S = true -> forall A (x y : A), (if surfaceVolumes S then x else y) = x.
Proof. intros -> A x y. reflexivity. Qed.

Lemma storage_exact S c v w x e : separate S -> zeroAt S v -> extStorage S c v = Done w -> equationOf S x = Some e ->
  (x = Solvent -> surfaceVolumes S = true) ->
  val (w e) == held (Qmax tiny) (1 # 100000000) S c x + regularizing c x.
Proof.
  intros W Z H E M. apply storage_chain in H as (v1 & v2 & v3 & v4 & v5 & H1 & H2 & H3 & H4 & H5 & H6).
  pose proof (fun l N => spares_of S x e l W E N) as SP. pose proof (s_last S W x e E) as LA. pose proof (Z x e E) as Z0.
  assert (Q1 : ~ In x inSolvent -> v1 e = v e) by (intros; eapply solventStorage_other; eauto).
  assert (Q2 : ~ In x inExtbo -> v2 e = v1 e) by (intros; eapply extboStorage_other; eauto).
  assert (Q3 : ~ In x inPolymer -> v3 e = v2 e) by (intros; eapply polymerStorage_other; eauto).
  assert (Q4 : ~ In x inFoam -> v4 e = v3 e) by (intros; eapply foamStorage_other; eauto).
  assert (Q5 : ~ In x inBrine -> v5 e = v4 e) by (intros; eapply brineStorage_other; eauto).
  assert (Q6 : ~ In x inMicp -> w e = v5 e) by (intros; eapply micpStorage_other; eauto).
  destruct x; cbn [equationOf] in E.
  - rewrite Q6, Q5, Q4, Q3, Q2 by (cbn; intuition discriminate). unfold solventStorage in H1. rewrite E, (M eq_refl) in H1. done_eq H1.
    cbn [held regularizing]. destruct (soluble S); rewrite !val_addTo, Z0; vals; unfold solventVolume, volumeOf, at_; ring.
  - rewrite Q6, Q5, Q4, Q3 by (cbn; intuition discriminate). unfold extboStorage in H2. rewrite E in H2.
    destruct (surfaceVolumes S); [|discriminate]. done_eq H2.
    assert (NE : e <> (e - 1)%nat) by (intros F; apply LA; exists e; auto).
    rewrite addTo_other by exact NE. cbn [held regularizing].
    destruct (dissolvedGas S); rewrite !val_addTo, assign_same; vals; unfold volumeOf, at_; ring.
  - rewrite Q6, Q5, Q4 by (cbn; intuition discriminate). unfold polymerStorage in H3. rewrite E in H3.
    assert (X : v3 e = addTo v2 e (aadd (ascale (amul (amaxQ (waterVolume c) tiny) (qu c PolymerConc)) (1 - deadPore c))
       (amul (ascale (asub (constant 1) (qu c Porosity)) (polymerRock c)) (qu c PolymerAdsorbed))) e).
    { destruct (weightEq S) as [w'|] eqn:EW; done_eq H3; [|reflexivity]. rewrite addTo_other; [reflexivity|].
      intros ->. assert (K : PolymerMoles = Polymer) by (apply (s_distinct S W) with w'; cbn [equationOf]; [now rewrite E|exact E]). discriminate. }
    rewrite X, val_addTo, Q2, Q1, Z0 by (cbn; intuition discriminate). vals. rewrite Qltb_max. cbn [held regularizing].
    rewrite (max_tiny (val (waterVolume c)) (volumeOf c Water)) by (unfold waterVolume, volumeOf, at_; vals; ring). unfold at_. ring.
  - rewrite Q6, Q5, Q4 by (cbn; intuition discriminate). unfold polymerStorage in H3.
    destruct (polymerEq S) as [p|] eqn:EP; [|discriminate]. rewrite E in H3. done_eq H3.
    assert (NE : e <> p). { intros ->. assert (K : PolymerMoles = Polymer) by (apply (s_distinct S W) with p; cbn [equationOf]; [now rewrite EP|exact EP]). discriminate. }
    rewrite val_addTo, addTo_other, Q2, Q1, Z0 by first [exact NE | cbn; intuition discriminate]. vals. rewrite Qltb_max. cbn [held regularizing].
    rewrite (max_tiny _ (Qmax tiny (volumeOf c Water) * (1 - deadPore c) * at_ c PolymerConc
                 + (1 - at_ c Porosity) * polymerRock c * at_ c PolymerAdsorbed)); [unfold at_; ring|].
    vals. rewrite Qltb_max, (max_tiny (val (waterVolume c)) (volumeOf c Water)) by (unfold waterVolume, volumeOf, at_; vals; ring). unfold at_. ring.
  - rewrite Q6, Q5 by (cbn; intuition discriminate). unfold foamStorage in H4. rewrite E in H4. cbn [held regularizing]. unfold foamCarrier.
    assert (Y : v3 e = constant 0) by (rewrite Q3, Q2, Q1, Z0 by (cbn; intuition discriminate); reflexivity).
    destruct (foamIn S); [| | |discriminate]; done_eq H4; rewrite val_addTo, Y; vals; rewrite Qltb_max.
    + rewrite (max_tiny _ (volumeOf c Water)) by (unfold volumeOf, at_; vals; ring). unfold at_. ring.
    + rewrite (max_tiny _ (volumeOf c Gas)) by (unfold volumeOf, at_; vals; ring). unfold at_. ring.
    + destruct (solventEq S).
      * rewrite (max_tiny _ (solventVolume c)) by (unfold solventVolume, at_; vals; ring). unfold at_. ring.
      * rewrite (max_tiny _ (at_ c Porosity)) by reflexivity. unfold at_. ring.
  - rewrite Q6 by (cbn; intuition discriminate). unfold brineStorage in H5. rewrite E in H5. done_eq H5. cbn [held regularizing].
    rewrite val_addTo, Q4, Q3, Q2, Q1, Z0 by (cbn; intuition discriminate).
    destruct (precipitation S); vals; rewrite Qltb_max, (max_tiny (val (waterVolume c)) (volumeOf c Water)) by (unfold waterVolume, volumeOf, at_; vals; ring);
      unfold at_; [|ring]. unfold Qdiv. ring.
  - unfold micpStorage in H6. destruct (micpEq S) as [n|]; [|discriminate]. cbn [option_map] in E. injection E as <-. done_eq H6. cbn [held regularizing].
    rewrite Nat.add_0_r. rewrite !addTo_other by lia. rewrite addTo_same. rewrite Nat.add_0_r in *. rewrite Q5, Q4, Q3, Q2, Q1, Z0 by (cbn; intuition discriminate).
    vals. rewrite Qltb_max, (max_tiny _ (at_ c Porosity)) by reflexivity. unfold at_. ring.
  - unfold micpStorage in H6. destruct (micpEq S) as [n|]; [|discriminate]. cbn [option_map] in E. injection E as <-. done_eq H6. cbn [held regularizing].
    rewrite !addTo_other by lia. rewrite addTo_same. rewrite !addTo_other by lia. rewrite Q5, Q4, Q3, Q2, Q1, Z0 by (cbn; intuition discriminate).
    vals. rewrite Qltb_max, (max_tiny _ (at_ c Porosity)) by reflexivity. unfold at_. ring.
  - unfold micpStorage in H6. destruct (micpEq S) as [n|]; [|discriminate]. cbn [option_map] in E. injection E as <-. done_eq H6. cbn [held regularizing].
    rewrite !addTo_other by lia. rewrite addTo_same. rewrite !addTo_other by lia. rewrite Q5, Q4, Q3, Q2, Q1, Z0 by (cbn; intuition discriminate).
    vals. rewrite Qltb_max, (max_tiny _ (at_ c Porosity)) by reflexivity. unfold at_. ring.
  - unfold micpStorage in H6. destruct (micpEq S) as [n|]; [|discriminate]. cbn [option_map] in E. injection E as <-. done_eq H6. cbn [held regularizing].
    rewrite !addTo_other by lia. rewrite addTo_same. rewrite !addTo_other by lia. rewrite Q5, Q4, Q3, Q2, Q1, Z0 by (cbn; intuition discriminate).
    vals. unfold at_. ring.
  - unfold micpStorage in H6. destruct (micpEq S) as [n|]; [|discriminate]. cbn [option_map] in E. injection E as <-. done_eq H6. cbn [held regularizing].
    rewrite addTo_same. rewrite !addTo_other by lia. rewrite Q5, Q4, Q3, Q2, Q1, Z0 by (cbn; intuition discriminate).
    vals. unfold at_. ring.
Qed.
Lemma storage_other S c v w j : extStorage S c v = Done w -> (forall x, equationOf S x <> Some j) -> ~ lastComponent S j -> w j = v j.
Proof.
  intros H N L. apply storage_chain in H as (v1 & v2 & v3 & v4 & v5 & H1 & H2 & H3 & H4 & H5 & H6).
  assert (SP : forall l, spares S l j) by (intros l x _; apply N).
  rewrite (micpStorage_other _ _ _ _ _ H6), (brineStorage_other _ _ _ _ _ H5), (foamStorage_other _ _ _ _ _ H4), (polymerStorage_other _ _ _ _ _ H3),
    (extboStorage_other _ _ _ _ _ H2), (solventStorage_other _ _ _ _ _ H1) by auto. reflexivity.
Qed.
Lemma storage_last S c v w e : separate S -> extStorage S c v = Done w -> zFracEq S = Some e ->
  w (e - 1)%nat = aadd (v (e - 1)%nat) (ascale (qu c ZFraction) regWeight).
Proof.
  intros W H E. pose proof H as H0. apply storage_chain in H as (v1 & v2 & v3 & v4 & v5 & H1 & H2 & H3 & H4 & H5 & H6).
  assert (SP : forall l, spares S l (e - 1)%nat).
  { intros l x _ F. apply (s_last S W x _ F). exists e. auto. }
  rewrite (micpStorage_other _ _ _ _ _ H6), (brineStorage_other _ _ _ _ _ H5), (foamStorage_other _ _ _ _ _ H4), (polymerStorage_other _ _ _ _ _ H3) by auto.
  unfold extboStorage in H2. rewrite E in H2. destruct (surfaceVolumes S); [|discriminate]. done_eq H2. rewrite addTo_same.
  assert (NE : (e - 1)%nat <> e) by (intros F; apply (SP [ZSubstance] ZSubstance); [now left|cbn [equationOf]; congruence]).
  destruct (dissolvedGas S); rewrite ?addTo_other, assign_other by exact NE; now rewrite (solventStorage_other _ _ _ _ _ H1) by auto.
Qed.
Lemma storage_throws S c v : extStorage S c v = Throws <->
  (zFracEq S <> None /\ surfaceVolumes S = false) \/ (foamEq S <> None /\ foamIn S = ByOther).
Proof.
  assert (A : forall v1, exists v2, solventStorage S c v1 = Done v2) by (intros; unfold solventStorage; destruct (solventEq S); eauto).
  assert (P : forall v1, exists v2, polymerStorage S c v1 = Done v2) by (intros; unfold polymerStorage; destruct (polymerEq S); eauto).
  assert (B : forall v1, exists v2, brineStorage S c v1 = Done v2) by (intros; unfold brineStorage; destruct (brineEq S); eauto).
  assert (D : forall v1, exists v2, micpStorage S c v1 = Done v2) by (intros; unfold micpStorage; destruct (micpEq S); eauto).
  assert (X : forall v1, (extboStorage S c v1 = Throws /\ zFracEq S <> None /\ surfaceVolumes S = false) \/
    ((exists v2, extboStorage S c v1 = Done v2) /\ ~ (zFracEq S <> None /\ surfaceVolumes S = false))).
  { intros v1. unfold extboStorage. destruct (zFracEq S); [|right; split; [eauto|intros (K & _); now apply K]].
    destruct (surfaceVolumes S); [right|left]; split; eauto; try (intros (_ & K); discriminate). split; [discriminate|reflexivity]. }
  assert (F : forall v1, (foamStorage S c v1 = Throws /\ foamEq S <> None /\ foamIn S = ByOther) \/
    ((exists v2, foamStorage S c v1 = Done v2) /\ ~ (foamEq S <> None /\ foamIn S = ByOther))).
  { intros v1. unfold foamStorage. destruct (foamEq S); [|right; split; [eauto|intros (K & _); now apply K]].
    destruct (foamIn S); [right|right|right|left]; split; eauto; try (intros (_ & K); discriminate). split; [discriminate|reflexivity]. }
  unfold extStorage. destruct (A v) as (v1 & ->). cbn [andThen].
  destruct (X v1) as [(-> & X1)|((v2 & ->) & X1)]; cbn [andThen]; [split; auto|].
  destruct (P v2) as (v3 & ->). cbn [andThen]. destruct (F v3) as [(-> & F1)|((v4 & ->) & F1)]; cbn [andThen]; [split; auto|].
  destruct (B v4) as (v5 & ->). cbn [andThen]. destruct (D v5) as (v6 & ->). split; [discriminate|tauto].
Qed.
