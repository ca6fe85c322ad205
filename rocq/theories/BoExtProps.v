(** * Properties of the storage, the fluxes and the sources of the extensions of the black-oil model *)
From Verif Require Import LocResProofs.
From Verif Require Import BoExtModel BoExtSpec BoExtProofs BoExtTracks BoExtFlux BoExtFlow.
From Coq Require Import Lia Lqa Qfield.

(** ** C82: storage *)
(** The storage term of every equation of an extension is the amount of its substance, with the surface volume of the
    carrying phase taken as at least 1e-10; the solid salt counts with 1e-8 more room, the z-fraction with [regularizing]. *)
Theorem C82_storage_exact : forall S c v w x e,
  separate S -> zeroAt S v -> extStorage S c v = Done w -> equationOf S x = Some e ->
  (x = Solvent -> surfaceVolumes S = true) ->
  val (w e) == held (Qmax tiny) (1 # 100000000) S c x + regularizing c x.
Proof. exact storage_exact. Qed.
Print Assumptions C82_storage_exact.
(** If there is enough of what carries it, and no solid salt, it is the amount proper. *)
Theorem C82_storage_amount_partial : forall S c v w x e,
  separate S -> zeroAt S v -> extStorage S c v = Done w -> equationOf S x = Some e -> carried S c x ->
  val (w e) == held (fun y => y) 0 S c x.
Proof.
  intros S c v w x e W Z H E C.
  assert (M : forall y, tiny <= y -> Qmax tiny y == y) by (intros y L; now apply Q.max_r).
  rewrite (storage_exact S c v w x e W Z H E) by (intros ->; exact C).
  destruct x; cbn [carried] in C; cbn [held regularizing]; try rewrite (M _ C); try ring.
  - destruct C.
  - destruct C as (C1 & C2). cbn [held] in C2. rewrite (M _ C1), (M _ C2). ring.
  - destruct C as (C1 & C2). rewrite (M _ C1). destruct (precipitation S); [|ring]. rewrite (C2 eq_refl). ring.
Qed.
Print Assumptions C82_storage_amount_partial.
(** No other equation changes, except that of the last component beside a z-fraction, which gets 1e-6 of it. *)
Theorem C82_other_equations : forall S c v w j,
  separate S -> extStorage S c v = Done w -> (forall x, equationOf S x <> Some j) ->
  (~ lastComponent S j -> w j = v j) /\
  (lastComponent S j -> val (w j) == val (v j) + regWeight * at_ c ZFraction).
Proof.
  intros S c v w j W H N. split; [now apply (storage_other S c v w j H)|]. intros (e & E & ->).
  rewrite (storage_last S c v w e W H E). cbn [aadd ascale val]. unfold at_. ring.
Qed.
Print Assumptions C82_other_equations.
(** It fails exactly for a z-fraction without surface volumes and for foam carried by something else. *)
Theorem C82_storage_throws : forall S c v, extStorage S c v = Throws <->
  (zFracEq S <> None /\ surfaceVolumes S = false) \/ (foamEq S <> None /\ foamIn S = ByOther).
Proof. exact storage_throws. Qed.
Print Assumptions C82_storage_throws.
(** The derivatives of all storage terms are right, away from the kinks. *)
Theorem C82_storage_derivatives : forall S (c : Q -> cell) (v : Q -> eqs) j,
  cellVaries c -> smooth S (c 0) -> (forall i, tracks (fun h => v h i)) ->
  tracks (fun h => entry (extStorage S (c h) (v h)) j).
Proof. intros S c v j V K A. now apply storage_tracks. Qed.
Print Assumptions C82_storage_derivatives.

(** A cell with a quantity of one for everything which [f] does not set. *)
Definition cellOf (f : quantity -> option ad) : cell :=
  mkCell (fun k => match f k with Some x => x | None => constant (1 # 2) end) (1 # 5) 2000 1500 2100.
Definition everything : setup := mkSetup true 0 (Some 4%nat) true None true (Some 5%nat) (Some 6%nat) (Some 7%nat) ByGas (Some 8%nat) true (Some 9%nat).
Definition extended : setup := mkSetup true 1 None false (Some 3%nat) true None None None ByWater None false None.
Lemma everything_separate : separate everything.
Proof.
  split.
  - intros x y e E F. destruct x; cbn in E; try discriminate; injection E as <-; destruct y; cbn in F; try discriminate; reflexivity.
  - intros x E. destruct x; cbn in E; discriminate.
  - intros x e E (z & F & _). discriminate.
Qed.
Lemma extended_separate : separate extended.
Proof.
  split.
  - intros x y e E F. destruct x; cbn in E; try discriminate; injection E as <-; destruct y; cbn in F; try discriminate; reflexivity.
  - intros x E. destruct x; cbn in E; discriminate.
  - intros x e E (z & F & G). injection F as <-. destruct x; cbn in E; try discriminate; injection E as <-. discriminate.
Qed.
Definition plain : cell := cellOf (fun k => match k with SaltSaturation => Some (constant 0) | _ => None end).
Example everything_stored : exists w, extStorage everything plain (fun _ => constant 0) = Done w /\
  (forall x, x <> ZSubstance -> carried everything plain x) /\
  forall x e, equationOf everything x = Some e -> val (w e) == held (fun y => y) 0 everything plain x.
Proof.
  eexists. split; [reflexivity|].
  assert (C : forall x, x <> ZSubstance -> carried everything plain x).
  { intros x N. destruct x; cbn [carried]; try reflexivity; try exact I; try contradiction; try (vm_compute; discriminate).
    - split; vm_compute; discriminate.
    - split; [vm_compute; discriminate|intros _; reflexivity]. }
  split; [exact C|]. intros x e E. apply (C82_storage_amount_partial everything plain (fun _ => constant 0) _ x e everything_separate); [intros ? ? _; reflexivity|reflexivity|exact E|].
  apply C. intros ->. discriminate.
Qed.
(** The full statement is false: *)
(** a cell without any of the injected substance stores some of it, *)
Theorem C82_extbo_storage_refuted : ~ forall S c v w e,
  separate S -> zeroAt S v -> extStorage S c v = Done w -> zFracEq S = Some e ->
  at_ c YVolume == 0 -> at_ c XVolume == 0 -> at_ c ZFraction == 0 -> val (w e) == 0.
Proof.
  intros H. pose (c := cellOf (fun k => match k with YVolume | XVolume | ZFraction => Some (constant 0) | _ => None end)).
  specialize (H extended c (fun _ => constant 0) _ 3%nat extended_separate (fun _ _ _ => eq_refl) eq_refl eq_refl
    (Qeq_refl _) (Qeq_refl _) (Qeq_refl _)). vm_compute in H. discriminate H.
Qed.
Print Assumptions C82_extbo_storage_refuted.
(** if masses are conserved, the solvent dissolved in the water is not counted with its mass, *)
Theorem C82_solvent_mass_refuted : ~ forall S c v w e,
  separate S -> zeroAt S v -> extStorage S c v = Done w -> solventEq S = Some e -> surfaceVolumes S = false -> soluble S = true ->
  (* density of the solvent at the surface *) forall rho, at_ c SolventDensity == rho * at_ c SolventInvB ->
  val (w e) == rho * held (fun y => y) 0 S c Solvent.
Proof.
  intros H. pose (S := mkSetup false 0 (Some 3%nat) true None false None None None ByWater None false None).
  pose (c := cellOf (fun k => match k with Density Water => Some (constant 1000) | _ => None end)).
  assert (W : separate S).
  { split.
    - intros x y e E F. destruct x; cbn in E; try discriminate; destruct y; cbn in F; try discriminate; reflexivity.
    - intros x E. destruct x; cbn in E; discriminate.
    - intros x e E (z & F & _). discriminate. }
  specialize (H S c (fun _ => constant 0) _ 3%nat W (fun _ _ _ => eq_refl) eq_refl eq_refl eq_refl eq_refl 1 (Qeq_refl _)). vm_compute in H. discriminate H.
Qed.
Print Assumptions C82_solvent_mass_refuted.
(** and a cell without water stores polymer, salt and microbes. *)
Theorem C82_dry_storage_refuted : ~ forall S c v w x e,
  separate S -> zeroAt S v -> extStorage S c v = Done w -> equationOf S x = Some e -> x <> ZSubstance -> surfaceVolumes S = true ->
  val (w e) == held (fun y => y) 0 S c x.
Proof.
  intros H. pose (c := cellOf (fun k => match k with Saturation Water | SaltSaturation => Some (constant 0) | _ => None end)).
  specialize (H everything c (fun _ => constant 0) _ Salt 8%nat everything_separate (fun _ _ _ => eq_refl) eq_refl eq_refl
    ltac:(discriminate) eq_refl). vm_compute in H. discriminate H.
Qed.
Print Assumptions C82_dry_storage_refuted.
(** A cell which varies and is smooth. *)
Lemma ad_moves (a b : Q) : tracks (fun h => mkAD (a + b * h) b).
Proof.
  intros eps P. exists 1. split; [reflexivity|]. intros h L. cbn [val der].
  setoid_replace (a + b * h - (a + b * 0) - b * h) with 0 by ring. change (Qabs 0) with 0.
  apply Qmult_le_0_compat; [lra|apply Qabs_nonneg].
Qed.
Definition moving (h : Q) : cell := cellOf (fun k => match k with
  | SaltSaturation => Some (mkAD ((1 # 10) + 3 * h) 3) | PolymerConc => Some (mkAD ((1 # 2) + 2 * h) 2)
  | Saturation Water => Some (mkAD ((1 # 3) + 1 * h) 1) | SolventSaturation => Some (mkAD ((1 # 4) + -(2) * h) (-(2))) | _ => None end).
Lemma moving_varies : cellVaries moving.
Proof.
  split; [|intros h; repeat split]. intros k. unfold moving, cellOf. cbn [qu].
  destruct k; try exact (T_const _ (1 # 2) (fun _ => eq_refl)).
  - destruct a; [exact (ad_moves (1 # 3) 1)| |]; exact (T_const _ (1 # 2) (fun _ => eq_refl)).
  - exact (ad_moves (1 # 4) (-(2))).
  - exact (ad_moves (1 # 2) 2).
  - exact (ad_moves (1 # 10) 3).
Qed.
Example moving_smooth : cellVaries moving /\ smooth everything (moving 0) /\
  forall j, tracks (fun h => entry (extStorage everything (moving h) (fun _ => constant 0)) j).
Proof.
  assert (K : smooth everything (moving 0)).
  { split; intros; intros Z; vm_compute in Z; discriminate Z. }
  split; [exact moving_varies|split; [exact K|]]. intros j.
  apply (C82_storage_derivatives everything moving (fun _ _ => constant 0) j moving_varies K). intros i. now apply T_const with 0.
Qed.

(** ** C83: fluxes *)
(** The flux of every substance is the volume flux of what carries it times what the upstream cell holds per volume. *)
Theorem C83_flux_exact : forall S f s v w x e,
  separate S -> zeroAt S v -> extFlux S f s v = Done w -> equationOf S x = Some e ->
  (x = Solvent -> surfaceVolumes S = true /\ (soluble S = true -> f_sup f = f_up f Water)) ->
  val (w e) == moved S f s x.
Proof. exact flux_exact. Qed.
Print Assumptions C83_flux_exact.
(** The flux of the water is divided by the shear factor if there is polymer; no other equation changes. *)
Theorem C83_other_equations : forall S f s v w j,
  separate S -> extFlux S f s v = Done w -> (forall x, equationOf S x <> Some j) ->
  (j = waterEq S -> val (w j) == match polymerEq S with Some _ => val (v j) / val (f_wshear f) | None => val (v j) end) /\
  (j <> waterEq S \/ polymerEq S = None -> w j = v j).
Proof.
  intros S f s v w j W H N. split.
  - intros ->. rewrite (flux_water S f s v w W H). destruct (polymerEq S); [|reflexivity]. cbn [adiv val]. now rewrite val_kept.
  - intros K. destruct (Nat.eq_dec j (waterEq S)) as [->|NE]; [|now apply (flux_other S f s v w j H)].
    destruct K as [K|K]; [contradiction|]. rewrite (flux_water S f s v w W H), K. reflexivity.
Qed.
Print Assumptions C83_other_equations.
Theorem C83_flux_throws : forall S f s v, extFlux S f s v = Throws <->
  (zFracEq S <> None /\ surfaceVolumes S = false) \/
  (foamEq S <> None /\ (foamIn S = ByOther \/ (foamIn S = BySolvent /\ solventEq S = None))).
Proof. exact flux_throws. Qed.
Print Assumptions C83_flux_throws.
(** What leaves a cell through a face enters the cell on the other side: seen from there the fluxes are opposite. *)
Theorem C83_flux_both_sides : forall S f g s v v' w w' x e,
  separate S -> zeroAt S v -> zeroAt S v' -> reversed f g -> extFlux S f s v = Done w -> extFlux S g s v' = Done w' ->
  equationOf S x = Some e -> val (w' e) == - val (w e).
Proof.
  intros S f g s v v' w w' x e W Z Z' R H H' E.
  destruct R as [R1 R2 R3 R4 R5 R6].
  destruct (substance_solvent x) as [->|N].
  - destruct (flux_chain _ _ _ _ _ H) as (v1 & v2 & v3 & v4 & v5 & H1 & H2 & H3 & H4 & H5 & H6).
    destruct (flux_chain _ _ _ _ _ H') as (v1' & v2' & v3' & v4' & v5' & H1' & H2' & H3' & H4' & H5' & H6').
    rewrite (solvent_final S f s v w e W H E), (solvent_final S g s v' w' e W H' E). rewrite R4, R2.
    destruct (soluble S), (surfaceVolumes S); try rewrite (R1 Water); ring.
  - rewrite (flux_exact S f s v w x e W Z H E) by (intros ->; contradiction).
    rewrite (flux_exact S g s v' w' x e W Z' H' E) by (intros ->; contradiction).
    destruct x; try contradiction; cbn [moved]; rewrite ?R3, ?R4; try rewrite (R1 Water); try rewrite R5; unfold Qdiv; try ring.
    + rewrite (R1 Gas). destruct (dissolvedGas S); [rewrite (R1 Oil)|]; ring.
    + destruct (foamIn S); [rewrite (R1 Water)|rewrite (R1 Gas)|rewrite R2|]; ring.
Qed.
Print Assumptions C83_flux_both_sides.
(** The derivatives with respect to the variables of the interior cell are right; if the water comes from outside, the
    shear factors must not depend on them. *)
Theorem C83_flux_derivatives_partial : forall S (f : Q -> face) (s : Q -> nat -> cell) (v : Q -> eqs) j,
  faceVaries f -> solutionVaries s (f_in (f 0)) -> (forall i, tracks (fun h => v h i)) ->
  (polymerEq S <> None -> ~ val (f_wshear (f 0)) == 0 /\ ~ val (f_pshear (f 0)) == 0) ->
  (polymerEq S <> None -> f_up (f 0) Water = f_in (f 0) \/
     (forall h, val (f_wshear (f h)) == val (f_wshear (f 0)) /\ val (f_pshear (f h)) == val (f_pshear (f 0)))) ->
  tracks (fun h => entry (extFlux S (f h) (s h) (v h)) j).
Proof. intros S f s v j FV SV A PS UP. now apply flux_tracks. Qed.
Print Assumptions C83_flux_derivatives_partial.

(** A face from cell 0 to cell 1: everything flows from cell 0, with given shear factors. *)
Definition faceOf (up : bphase -> nat) (sup : nat) (wshear pshear : ad) : face :=
  mkFace 0 1 (fun a => constant (match a with Water => 3 | Oil => 2 | Gas => -(1) end)) up (constant 4) sup wshear pshear.
Definition simpleFace : face := faceOf (fun a => match a with Gas => 1%nat | _ => 0%nat end) 0 (constant 2) (constant 4).
Definition backFace : face :=
  mkFace 1 0 (fun a => aopp (f_flux simpleFace a)) (f_up simpleFace) (aopp (f_sflux simpleFace)) (f_sup simpleFace) (constant 2) (constant 4).
Definition twoCells (v : nat) : cell := match v with O => plain | _ => moving 0 end.
Example flux_case : reversed simpleFace backFace /\
  (exists w, extFlux everything simpleFace twoCells (fun _ => constant 0) = Done w /\
     forall x e, equationOf everything x = Some e -> val (w e) == moved everything simpleFace twoCells x) /\
  (exists w, extFlux everything backFace twoCells (fun _ => constant 0) = Done w) /\
  ~ moved everything simpleFace twoCells Polymer == 0 /\ ~ moved everything simpleFace twoCells Solvent == 0.
Proof.
  split; [|split; [|split; [|split]]].
  - split; try reflexivity; intros []; reflexivity.
  - eexists. split; [reflexivity|]. intros x e E.
    apply (C83_flux_exact everything simpleFace twoCells (fun _ => constant 0) _ x e everything_separate);
      [intros ? ? _; reflexivity|reflexivity|exact E|]. intros _. split; [reflexivity|intros _; reflexivity].
  - eexists. reflexivity.
  - intros K. vm_compute in K. discriminate K.
  - intros K. vm_compute in K. discriminate K.
Qed.
Example flux_derivative_case : let s h v := match v with O => moving h | _ => plain end in
  forall j, tracks (fun h => entry (extFlux everything simpleFace (s h) (fun _ => constant 0)) j).
Proof.
  intros s j. apply (C83_flux_derivatives_partial everything (fun _ => simpleFace) s (fun _ _ => constant 0) j).
  - split; intros; try reflexivity; [|now apply T_const with 4|now apply T_const with 2|now apply T_const with 4].
    now apply T_const with (match a with Water => 3 | Oil => 2 | Gas => -(1) end).
  - split; [exact moving_varies|]. intros h v N. destruct v; [contradiction|reflexivity].
  - intros i. now apply T_const with 0.
  - intros _. split; intros K; vm_compute in K; discriminate K.
  - intros _. now left.
Qed.
(** The full statements are false: *)
(** the solvent dissolved in the water is taken from the cell upstream of the free solvent, *)
Theorem C83_dissolved_solvent_refuted : ~ forall S f s v w e,
  separate S -> zeroAt S v -> extFlux S f s v = Done w -> equationOf S Solvent = Some e -> surfaceVolumes S = true ->
  val (w e) == moved S f s Solvent.
Proof.
  intros H. specialize (H everything (faceOf (fun _ => 0%nat) 1 (constant 1) (constant 1))
    (fun v => match v with O => plain | _ => cellOf (fun k => match k with SolventInWater => Some (constant 0) | _ => None end) end)
    (fun _ => constant 0) _ 4%nat everything_separate (fun _ _ _ => eq_refl) eq_refl eq_refl eq_refl).
  vm_compute in H. discriminate H.
Qed.
Print Assumptions C83_dissolved_solvent_refuted.
(** salt does not move with the water which the shear factor leaves: a cell full of brine of one salt concentration
    gives off salt and water in another ratio, *)
Theorem C83_salt_with_water_refuted : ~ forall S f s v w e,
  separate S -> extFlux S f s v = Done w -> equationOf S Salt = Some e ->
  val (v (waterEq S)) == val (f_flux f Water) * at_ (s (f_up f Water)) (InvB Water) ->
  val (w e) == val (w (waterEq S)) * at_ (s (f_up f Water)) SaltConc.
Proof.
  intros H. specialize (H everything simpleFace twoCells (fun _ => constant (3 * (1 # 2))) _ 8%nat everything_separate eq_refl eq_refl
    (Qeq_refl _)). vm_compute in H. discriminate H.
Qed.
Print Assumptions C83_salt_with_water_refuted.
(** and if the water comes from outside, the derivatives of the shear factors are lost. *)
Theorem C83_flux_derivatives_refuted : ~ forall S (f : Q -> face) (s : Q -> nat -> cell) (v : Q -> eqs) j,
  faceVaries f -> solutionVaries s (f_in (f 0)) -> (forall i, tracks (fun h => v h i)) ->
  (polymerEq S <> None -> ~ val (f_wshear (f 0)) == 0 /\ ~ val (f_pshear (f 0)) == 0) ->
  tracks (fun h => entry (extFlux S (f h) (s h) (v h)) j).
Proof.
  intros H. specialize (H everything (fun h => faceOf (fun _ => 1%nat) 0 (mkAD (1 + 1 * h) 1) (constant 1)) (fun _ _ => plain) (fun _ _ => constant 1) 0%nat).
  assert (FV : faceVaries (fun h => faceOf (fun _ => 1%nat) 0 (mkAD (1 + 1 * h) 1) (constant 1))).
  { split; intros; try reflexivity; [|now apply T_const with 4|exact (ad_moves 1 1)|now apply T_const with 1].
    now apply T_const with (match a with Water => 3 | Oil => 2 | Gas => -(1) end). }
  assert (SV : solutionVaries (fun _ _ => plain) 0%nat).
  { split; [|reflexivity]. split; [|intros h; repeat split]. intros k. apply T_same; [reflexivity|]. destruct k; try reflexivity. }
  specialize (H FV SV (fun i => T_const _ 1 (fun _ => eq_refl))).
  assert (N : polymerEq everything <> None -> ~ 1 + 1 * 0 == 0 /\ ~ 1 == 0) by (intros _; split; intros K; vm_compute in K; discriminate K).
  specialize (H N). unfold tracks in H.
  assert (D0 : der (entry (extFlux everything (faceOf (fun _ => 1%nat) 0 (mkAD (1 + 1 * 0) 1) (constant 1)) (fun _ => plain) (fun _ => constant 1)) 0) == 0)
    by (vm_compute; reflexivity).
  assert (V : forall h, val (entry (extFlux everything (faceOf (fun _ => 1%nat) 0 (mkAD (1 + 1 * h) 1) (constant 1)) (fun _ => plain) (fun _ => constant 1)) 0) == / (1 + 1 * h)).
  { intros h. cbn. unfold Qdiv. rewrite Qmult_1_l. reflexivity. }
  assert (D : derivative (fun h => / (1 + 1 * h)) 0) by (refine (D_ext _ _ _ _ _ _ H); [intros h; apply V|exact D0]).
  destruct (D (1 # 4) ltac:(reflexivity)) as (d & Pd & B).
  set (h := Qmin (d * (1 # 2)) (1 # 2)).
  assert (H1 : 0 < h) by (apply Q.min_glb_lt; lra).
  assert (H2 : h < d) by (apply Qle_lt_trans with (d * (1 # 2)); [apply Q.le_min_l|lra]).
  assert (H3 : h <= 1 # 2) by apply Q.le_min_r.
  specialize (B h). rewrite (Qabs_pos h) in B by lra. specialize (B H2). cbn beta in B.
  assert (E : / (1 + 1 * h) - / (1 + 1 * 0) - 0 * h == - (h / (1 + h))) by (field; lra).
  rewrite E, Qabs_opp, Qabs_pos in B by (apply Qle_shift_div_l; lra).
  assert (L : h * (1 # 2) <= h / (1 + h)) by (apply Qle_shift_div_l; [lra|]; nra).
  lra.
Qed.
Print Assumptions C83_flux_derivatives_refuted.

(** ** C84: the volume flux of the solvent *)
(** With transmissibilities: transmissibility per area times the mobility of the cell with the higher potential times
    what the threshold pressure leaves of the difference, towards the lower potential. *)
Theorem C84_solvent_volume_flux : forall l i j s, 0 <= l_thpres l ->
  let d := beyond (l_thpres l) (potentialDifference l (s i) (s j)) in
  let up := snd (solventTrans l i j s) in
  val (fst (solventTrans l i j s)) == - (l_trans l / l_area l) * at_ (s up) SolventMobility * d /\
  (0 < d -> up = j) /\ (d < 0 -> up = i) /\ (d == 0 -> up = Nat.min i j).
Proof.
  intros l i j s P. cbv zeta. destruct (trans_val l i j s P) as (A & B & C).
  split; [|split; [apply A|split; [apply B|apply C]]].
  destruct (Q_dec (beyond (l_thpres l) (potentialDifference l (s i) (s j))) 0) as [[L|L]|L].
  - destruct (B L) as (-> & ->). reflexivity.
  - destruct (A L) as (-> & ->). reflexivity.
  - destruct (C L) as (-> & ->). rewrite L. ring.
Qed.
Print Assumptions C84_solvent_volume_flux.
(** From the other side the flux is the opposite and the upstream cell the same, also without any flow. *)
Theorem C84_solvent_flux_both_sides : forall l i j s, 0 <= l_thpres l ->
  val (fst (solventTrans (turned l) j i s)) == - val (fst (solventTrans l i j s)) /\
  snd (solventTrans (turned l) j i s) = snd (solventTrans l i j s).
Proof. exact trans_turned. Qed.
Print Assumptions C84_solvent_flux_both_sides.
Theorem C84_solvent_flux_derivative : forall l i j (s : Q -> nat -> cell), 0 <= l_thpres l -> i <> j -> solutionVaries s i ->
  ~ Qabs (potentialDifference l (s 0 i) (s 0 j)) == l_thpres l -> tracks (fun h => fst (solventTrans l i j (s h))).
Proof. exact trans_tracks. Qed.
Print Assumptions C84_solvent_flux_derivative.
(** With permeabilities: minus the Darcy flux in a rock of permeability one. *)
Theorem C84_solvent_perm_flux_partial : forall p focus s,
  snd (solventPerm p focus s) = upstream (unitPermeability p) focus (fun v => asPhase (s v)) 0 /\
  val (fst (solventPerm p focus s)) == - val (volumeFlux (unitPermeability p) focus (fun v => asPhase (s v)) 0).
Proof. exact perm_val. Qed.
Print Assumptions C84_solvent_perm_flux_partial.
Definition line (K : Q) : place :=
  mkPlace 1 (fun v _ => inject_Z (Z.of_nat v)) None 0 1 (fun _ => 1) (fun _ => 1 # 2) (fun _ _ => K) None.
Definition pressures (a b : Q) (v : nat) : cell :=
  cellOf (fun k => match k, v with Pressure Gas, O => Some (constant a) | Pressure Gas, _ => Some (constant b) | _, _ => None end).
(** It flows towards the higher pressure: *)
Theorem C84_solvent_perm_direction_refuted : ~ forall p focus s, pl_gravity p = None -> pl_shapes p = None ->
  0 < inner (pl_dim p) (fromTo (pl_pos p (pl_in p)) (pl_pos p (pl_ex p))) (pl_normal p) ->
  (forall v, 0 <= at_ (s v) SolventMobility) ->
  at_ (s (pl_in p)) (Pressure Gas) < at_ (s (pl_ex p)) (Pressure Gas) -> val (fst (solventPerm p focus s)) <= 0.
Proof.
  intros H. specialize (H (line 1) 0%nat (pressures 1 3) eq_refl eq_refl).
  assert (A : 0 < inner 1 (fromTo (fun _ => inject_Z 0) (fun _ => inject_Z 1)) (fun _ => 1)) by reflexivity.
  specialize (H A). assert (B : forall v, 0 <= at_ (pressures 1 3 v) SolventMobility) by (intros v; vm_compute; discriminate).
  specialize (H B eq_refl). vm_compute in H. apply H. reflexivity.
Qed.
Print Assumptions C84_solvent_perm_direction_refuted.
(** and through rock without any permeability: *)
Theorem C84_solvent_perm_impermeable_refuted : ~ forall p focus s,
  (forall r k, pl_K p r k == 0) -> val (fst (solventPerm p focus s)) == 0.
Proof.
  intros H. specialize (H (line 0) 0%nat (pressures 1 3) (fun _ _ => Qeq_refl _)). vm_compute in H. discriminate H.
Qed.
Print Assumptions C84_solvent_perm_impermeable_refuted.
Definition someLink : link := mkLink (1 # 2) 3 (98 # 10) 1 4 2.
Example solvent_flux_case : 0 <= l_thpres someLink /\
  ~ val (fst (solventTrans someLink 0 1 (pressures 100 1))) == 0 /\ snd (solventTrans someLink 0 1 (pressures 100 1)) = 0%nat /\
  (let s h v := match v with O => cellOf (fun k => match k with Pressure Gas => Some (mkAD (100 + 7 * h) 7) | _ => None end) | _ => plain end in
   tracks (fun h => fst (solventTrans someLink 0 1 (s h))) /\ ~ der (fst (solventTrans someLink 0 1 (s 0))) == 0).
Proof.
  split; [vm_compute; discriminate|]. split; [intros K; vm_compute in K; discriminate K|]. split; [reflexivity|]. intros s. split.
  - apply C84_solvent_flux_derivative; [vm_compute; discriminate|discriminate| |intros K; vm_compute in K; discriminate K].
    split; [|intros h v N; destruct v; [contradiction|reflexivity]]. split; [|intros h; repeat split]. intros k. unfold s, cellOf. cbn [qu].
    destruct k; try exact (T_const _ (1 # 2) (fun _ => eq_refl)).
    destruct a; [| |exact (ad_moves 100 7)]; exact (T_const _ (1 # 2) (fun _ => eq_refl)).
  - intros K. vm_compute in K. discriminate K.
Qed.

(** ** C85: microbially induced calcite precipitation *)
(** The sources of the five equations, in terms of the rates of the processes. *)
Theorem C85_sources_exact : forall M pw K faces c e v, parameters M -> physical c ->
  exists g, greatest g K faces /\ let w := micpSource M pw K faces c e v in
  let source k := val (w (e + k)%nat) - val (v (e + k)%nat) in
  let sheared := val (pw (amul (qu c Porosity) (greatestGradient K faces))) in
  let suspended := at_ c MicrobeConc * at_ c Porosity in
  let attached := m_rhoB M * at_ c BiofilmConc in
  val (greatestGradient K faces) == g /\
  (* microbes *) source 0%nat == suspended * (growthRate M c - m_death M) - m_attach M * suspended + m_detach M * sheared * attached /\
  (* oxygen *)   source 1%nat == - (m_consumption M * m_growth M * monod (at_ c OxygenConc) (m_halfO M) * biomass M c) /\
  (* urea *)     source 2%nat == - ureaUse M c /\
  (* biofilm *)  m_rhoB M * source 3%nat == attached * (growthRate M c - m_death M) + m_attach M * suspended - m_detach M * sheared * attached
                   - attached / (at_ c Porosity + at_ c BiofilmConc) * source 4%nat /\
  (* calcite *)  m_rhoC M * source 4%nat == (167 # 10) * ureaUse M c /\
  forall j, (j < e \/ e + 4 < j)%nat -> w j = v j.
Proof.
  intros M pw K faces c e v PM PC. exists (val (greatestGradient K faces)). split; [apply greatest_val|].
  destruct PM as [A1 A2 A3 A4 A5 A6 A7 A8 A9 A10 A11]. destruct PC as [B1 B2 B3 B4 B5].
  assert (U : 0 < m_halfU M / 10) by (apply Qlt_shift_div_l; lra).
  destruct (source_values M pw K faces c e v) as (S0 & S1 & S2 & S3 & S4 & S5); try lra.
  cbv zeta beta in *. rewrite !Nat.add_0_r. rewrite S0, S1, S2, S3, S4. unfold biomass.
  split; [reflexivity|]. split; [ring|]. split; [ring|]. split; [ring|]. split; [field; lra|]. split; [field; lra|]. exact S5.
Qed.
Print Assumptions C85_sources_exact.
(** Attachment and detachment only move mass between the suspended microbes and the biofilm: the biomass grows with
    the oxygen, dies, and is lost to what the calcite buries. *)
Theorem C85_biomass_balance : forall M pw K faces c e v, parameters M -> physical c ->
  let w := micpSource M pw K faces c e v in
  let source k := val (w (e + k)%nat) - val (v (e + k)%nat) in
  source 0%nat + m_rhoB M * source 3%nat ==
    biomass M c * (growthRate M c - m_death M) - m_rhoB M * at_ c BiofilmConc / (at_ c Porosity + at_ c BiofilmConc) * source 4%nat.
Proof.
  intros M pw K faces c e v PM PC. destruct (C85_sources_exact M pw K faces c e v PM PC) as (g & _ & H). cbv zeta beta in *.
  destruct H as (_ & H0 & _ & _ & H3 & _). rewrite H0, H3. unfold biomass. ring.
Qed.
Print Assumptions C85_biomass_balance.
(** Oxygen is used in proportion to the growth, calcite precipitates in proportion to the used urea; oxygen and urea
    are never produced, calcite never dissolves. *)
Theorem C85_stoichiometry : forall M pw K faces c e v, parameters M -> physical c ->
  let w := micpSource M pw K faces c e v in
  let source k := val (w (e + k)%nat) - val (v (e + k)%nat) in
  m_yield M * source 1%nat == - (m_consumption M * (growthRate M c * biomass M c)) /\
  m_rhoC M * source 4%nat == - ((167 # 10) * source 2%nat) /\
  source 1%nat <= 0 /\ source 2%nat <= 0 /\ 0 <= source 4%nat.
Proof.
  intros M pw K faces c e v PM PC. destruct (C85_sources_exact M pw K faces c e v PM PC) as (g & _ & H). cbv zeta beta in *.
  destruct H as (_ & _ & H1 & H2 & _ & H4 & _). pose proof (p_rhoC M PM) as RC.
  destruct PM as [A1 A2 A3 A4 A5 A6 A7 A8 A9 A10 A11]. destruct PC as [B1 B2 B3 B4 B5].
  assert (U : 0 < m_halfU M / 10) by (apply Qlt_shift_div_l; lra).
  assert (U2 : 0 <= m_urea M / 10) by (apply Qle_shift_div_l; lra).
  pose proof (monod_pos _ _ A3 B2) as MO. pose proof (monod_pos _ _ U B3) as MU.
  assert (BM : 0 <= biomass M c).
  { unfold biomass. apply (Qplus_le_compat 0 _ 0); apply Qmult_le_0_compat; lra. }
  assert (UU : 0 <= ureaUse M c).
  { unfold ureaUse. apply Qmult_le_0_compat; [apply Qmult_le_0_compat; [apply Qmult_le_0_compat; lra|exact U2]|exact MU]. }
  set (o := val (micpSource M pw K faces c e v (e + 1)%nat) - val (v (e + 1)%nat)) in *.
  set (u := val (micpSource M pw K faces c e v (e + 2)%nat) - val (v (e + 2)%nat)) in *.
  set (k := val (micpSource M pw K faces c e v (e + 4)%nat) - val (v (e + 4)%nat)) in *. clearbody o u k.
  split; [rewrite H1; unfold growthRate; ring|]. split; [rewrite H4, H2; ring|].
  split; [|split].
  - rewrite H1. assert (0 <= m_consumption M * m_growth M * monod (at_ c OxygenConc) (m_halfO M) * biomass M c) by (apply Qmult_le_0_compat; [apply Qmult_le_0_compat; [apply Qmult_le_0_compat; lra|exact MO]|exact BM]). lra.
  - lra.
  - apply Qnot_lt_le. intros L. assert (0 < m_rhoC M * - k) by (apply Qmult_lt_0_compat; lra). lra.
Qed.
Print Assumptions C85_stoichiometry.
(** The derivatives of the sources are right if those of the fluxes and of the mobilities are, and no two faces have
    the same gradient. *)
Theorem C85_source_derivatives_partial : forall M pw K (faces : list (Q -> ad * ad)) (c : Q -> cell) e (v : Q -> eqs) j,
  (forall x, tracks x -> 0 < val (x 0) -> tracks (fun h => pw (x h))) ->
  parameters M -> physical (c 0) -> ~ K == 0 -> faces <> [] -> apart (0 :: map (gradientOf K) (movingFaces faces 0)) ->
  (forall f, In f faces -> tracks (fun h => fst (f h)) /\ tracks (fun h => snd (f h)) /\ ~ val (snd (f 0)) == 0) ->
  cellVaries c -> (forall i, tracks (fun h => v h i)) ->
  tracks (fun h => micpSource M pw K (movingFaces faces h) (c h) e (v h) j).
Proof.
  intros M pw K faces c e v j PW [A1 A2 A3 A4 _ _ _ _ _ _ _] [B1 B2 B3 B4 B5] NK NF AP F V A.
  assert (U : 0 < m_halfU M / 10) by (apply Qlt_shift_div_l; lra).
  apply source_tracks; try assumption; try lra. exact (proj1 V).
Qed.
Print Assumptions C85_source_derivatives_partial.
Definition someMicp : micp := mkMicp (1 # 2) (1 # 5) 35 2710 (1 # 3) (2 # 100) 21 (4 # 10) (16 # 10) (1 # 2) (1 # 2).
Lemma someMicp_parameters : parameters someMicp.
Proof. split; vm_compute; try reflexivity; discriminate. Qed.
Example micp_case : parameters someMicp /\ physical plain /\
  (let w := micpSource someMicp (fun x => x) 2 [(constant 3, constant 1); (constant (-(5)), constant 1)] plain 7 (fun _ => constant 0) in
   ~ val (w 7%nat) == 0 /\ val (w 8%nat) < 0 /\ val (w 9%nat) < 0 /\ ~ val (w 10%nat) == 0 /\ 0 < val (w 11%nat)) /\
  (forall j, tracks (fun h => micpSource someMicp (fun x => x) 2 (movingFaces [(fun h => (mkAD (3 + 1 * h) 1, constant 1)); (fun _ => (constant (-(5)), constant 1))] h)
     (moving h) 7 (fun _ => constant 0) j)).
Proof.
  split; [exact someMicp_parameters|]. split; [split; vm_compute; try discriminate; reflexivity|]. split.
  - cbv zeta. repeat split; try (vm_compute; reflexivity); intros Z; vm_compute in Z; discriminate Z.
  - intros j. apply (C85_source_derivatives_partial someMicp (fun x => x) 2 [(fun h => (mkAD (3 + 1 * h) 1, constant 1)); (fun _ => (constant (-(5)), constant 1))] moving 7 (fun _ _ => constant 0) j).
    + intros x T _. exact T.
    + exact someMicp_parameters.
    + split; vm_compute; try discriminate; reflexivity.
    + discriminate.
    + discriminate.
    + repeat constructor; intros Z; vm_compute in Z; discriminate Z.
    + intros f [<-|[<-|[]]]; cbn [fst snd]; (split; [|split; [now apply T_const with 1|intros Z; vm_compute in Z; discriminate Z]]).
      * exact (ad_moves 3 1).
      * now apply T_const with (-(5)).
    + exact moving_varies.
    + intros i. now apply T_const with 0.
Qed.
(** But the mobility is that of the upstream cell with its own derivatives, also if this is another cell: then the
    derivative is wrong. *)
Theorem C85_source_derivatives_refuted : ~ forall M pw K (faces : list (Q -> ad * ad)) (c : Q -> cell) e (v : Q -> eqs) j,
  (forall x, tracks x -> 0 < val (x 0) -> tracks (fun h => pw (x h))) ->
  parameters M -> physical (c 0) -> ~ K == 0 -> faces <> [] -> apart (0 :: map (gradientOf K) (movingFaces faces 0)) ->
  (* the mobilities belong to cells which do not change *)
  (forall f, In f faces -> tracks (fun h => fst (f h)) /\ (forall h, snd (f h) = snd (f 0)) /\ ~ val (snd (f 0)) == 0) ->
  cellVaries c -> (forall i, tracks (fun h => v h i)) ->
  tracks (fun h => micpSource M pw K (movingFaces faces h) (c h) e (v h) j).
Proof.
  intros H. specialize (H someMicp (fun x => x) 1 [fun _ => (constant 1, mkAD 1 1)] (fun _ => plain) 7%nat (fun _ _ => constant 0) 7%nat).
  cbv beta in H.
  assert (T : tracks (fun h : Q => micpSource someMicp (fun x => x) 1 (movingFaces [fun _ => (constant 1, mkAD 1 1)] h) plain 7 (fun _ => constant 0) 7%nat)).
  { apply H.
    - intros x T _. exact T.
    - exact someMicp_parameters.
    - split; vm_compute; try discriminate; reflexivity.
    - discriminate.
    - discriminate.
    - repeat constructor; intros Z; vm_compute in Z; discriminate Z.
    - intros f [<-|[]]; cbn [fst snd]. split; [now apply T_const with 1|split; [reflexivity|intros Z; vm_compute in Z; discriminate Z]].
    - split; [|intros h; repeat split]. intros k. apply T_same; [reflexivity|]. destruct k; reflexivity.
    - intros i. now apply T_const with 0. }
  clear H. unfold tracks in T.
  set (f := fun h : Q => val (micpSource someMicp (fun x => x) 1 (movingFaces [fun _ => (constant 1, mkAD 1 1)] h) plain 7 (fun _ => constant 0) 7%nat)) in T.
  assert (C : derivative f 0) by (apply D_const; reflexivity).
  pose proof (D_unique f _ _ T C) as U. vm_compute in U. discriminate U.
Qed.
Print Assumptions C85_source_derivatives_refuted.
