(** C76, C77: the local residuals of the models other than the black-oil model. *)
From Verif Require Import LocResModel LocResSpec LocResProofs ResidualProofs DarcyProofs.
From Coq Require Import Lqa Qfield.

(** * C76 *)
(** The storage term of a component is what all phases hold of it in the pore space, that of energy is the inner energy
    of all phases and of the rock; nothing is stored in other equations. *)
Theorem C76_storage k phases l q : fits k phases l ->
  (forall c, (c < l_comps l)%nat -> val (computeStorage k phases l q (l_conti0 l + c)%nat) ==
     val (porosity q) * sumOver (fun a => val (saturation q a) * amount k q a c) (seq 0 phases)) /\
  (forall e, l_energy l = Some e -> val (computeStorage k phases l q e) ==
     val (porosity q) * sumOver (fun a => val (saturation q a) * val (density q a) * val (internalEnergy q a)) (seq 0 phases)
     + val (solidEnergy q)) /\
  (forall j, ~ (l_conti0 l <= j < l_conti0 l + l_comps l)%nat -> l_energy l <> Some j -> computeStorage k phases l q j = constant 0).
Proof.
  intros F. split; [|split].
  - intros c L. rewrite (proj1 (storage_comp k phases l q c F L)), asum_val, Qmult_comm, <- sumOver_scale.
    apply sumOver_ext. intros a _. unfold storeTerm, amount. destruct k; [destruct (a =? c)%nat| |]; cbn [amul constant val]; ring.
  - intros e E. rewrite (proj1 (storage_energy k phases l q e F E)). cbn [aadd val]. rewrite asum_val, Qmult_comm, <- sumOver_scale.
    apply Qplus_comp; [|reflexivity]. apply sumOver_ext. intros a _. unfold energyTerm. cbn [amul val]. ring.
  - intros j R E. now apply (storage_other k phases).
Qed.
Print Assumptions C76_storage.

(** In a sub-control volume of which the fraction [part] is filled by fractures, matrix and fractures count with the
    volumes which they fill; the energy of the rock is counted for the whole volume. *)
Theorem C76_fracture_storage phases l q f part : fits PhaseMasses phases l ->
  (forall c, (c < phases)%nat -> val (fractureStorage phases l q (Some (f, part)) (l_conti0 l + c)%nat) ==
     (1 - part) * val (computeStorage PhaseMasses phases l q (l_conti0 l + c)%nat)
     + part * val (computeStorage PhaseMasses phases l f (l_conti0 l + c)%nat)) /\
  (forall e, l_energy l = Some e -> val (fractureStorage phases l q (Some (f, part)) e) ==
     (1 - part) * (val (computeStorage PhaseMasses phases l q e) - val (solidEnergy q))
     + part * (val (computeStorage PhaseMasses phases l f e) - val (solidEnergy f)) + val (solidEnergy q)) /\
  (forall c, (c < phases)%nat -> val (fractureStorage phases l q None (l_conti0 l + c)%nat) ==
     val (computeStorage PhaseMasses phases l q (l_conti0 l + c)%nat)) /\
  (forall e, l_energy l = Some e -> val (fractureStorage phases l q None e) == val (computeStorage PhaseMasses phases l q e)).
Proof.
  intros F. pose proof (proj1 F eq_refl) as P.
  assert (SC : forall x c, (c < phases)%nat -> val (computeStorage PhaseMasses phases l x (l_conti0 l + c)%nat) == val (fracTerm x c)).
  { intros x c C. rewrite (proj1 (storage_comp PhaseMasses phases l x c F ltac:(lia))). unfold storeTerm.
    rewrite (proj1 (asum_delta (fun a => amul (amul (porosity x) (saturation x a)) (density x a)) c phases C)). reflexivity. }
  assert (SE : forall x e, l_energy l = Some e -> val (computeStorage PhaseMasses phases l x e) == sumOver (fun a => val (energyTerm x a)) (seq 0 phases) + val (solidEnergy x)).
  { intros x e E. rewrite (proj1 (storage_energy PhaseMasses phases l x e F E)). cbn [aadd val]. now rewrite asum_val. }
  assert (FC : forall fr c, (c < phases)%nat -> val (fractureStorage phases l q fr (l_conti0 l + c)%nat) ==
    val match fr with None => fracTerm q c | Some (f, part) => aadd (ascale (fracTerm q c) (1 - part)) (ascale (fracTerm f c) part) end).
  { intros fr c C. unfold fractureStorage. rewrite energySolid_other by (eapply fits_comp; eauto; lia).
    rewrite (proj1 (fold_step (fun a v => fracturePhaseStorage l q fr a v) _ _ _
      (fun a v I => fracPhase_comp l phases q fr a v c F (in_seq0 a phases I) C) zeros)).
    cbn [aadd val].
    rewrite (proj1 (asum_delta (fun a => match fr with None => fracTerm q a | Some (f, part) => aadd (ascale (fracTerm q a) (1 - part)) (ascale (fracTerm f a) part) end) c phases C)).
    cbn [zeros constant val]. ring. }
  assert (FE : forall fr e, l_energy l = Some e -> val (fractureStorage phases l q fr e) ==
    sumOver (fun a => val match fr with None => energyTerm q a | Some (f, part) => aadd (ascale (energyTerm q a) (1 - part)) (ascale (energyTerm f a) part) end) (seq 0 phases) + val (solidEnergy q)).
  { intros fr e E. unfold fractureStorage, energySolidStorage. rewrite E, addTo_same. cbn [aadd val].
    rewrite (proj1 (fold_step (fun a v => fracturePhaseStorage l q fr a v) _ _ _
      (fun a v I => fracPhase_energy l phases q fr a v e F (in_seq0 a phases I) E) zeros)).
    cbn [aadd val]. rewrite asum_val. cbn [zeros constant val]. ring. }
  split; [|split; [|split]].
  - intros c C. rewrite FC, !SC by assumption. cbn [aadd ascale val]. ring.
  - intros e E. rewrite FE, !SE by assumption. cbn [aadd ascale val]. rewrite sumOver_plus, !sumOver_scale. ring.
  - intros c C. now rewrite FC, SC by assumption.
  - intros e E. now rewrite FE, SE by assumption.
Qed.
Print Assumptions C76_fracture_storage.

(** Over the area of a face with a fracture flows what the matrix lets through where it is not cut by (half of) the
    fracture and what the fracture lets through. *)
Theorem C76_fracture_flux norm dim Kf posIn posEx width area mob (grad : vec) l phases rhoF rho h v c :
  fits PhaseMasses phases l -> (c < phases)%nat -> ~ area == 0 ->
  let dir := fun k => (posEx k - posIn k) / norm (norm2 dim (vminus posEx posIn)) in
  let vf := fun a => fractureVolumeFlux norm dim Kf posIn posEx width area (mob a) grad in
  area * fractureFlux l phases width area vf rhoF rho h v (l_conti0 l + c)%nat ==
    (area - width / 2) * v (l_conti0 l + c)%nat
    + width / 2 * (- mob c * bilinear dim dir Kf grad) * rhoF c /\
  forall e, l_energy l = Some e -> area * fractureFlux l phases width area vf rhoF rho h v e ==
    (area - width / 2) * v e + sumOver (fun a => width / 2 * (- mob a * bilinear dim dir Kf grad) * rho a * h a) (seq 0 phases).
Proof.
  intros F C NA dir vf. pose proof (proj1 F eq_refl) as P.
  assert (VF : forall a, vf a == - mob a * bilinear dim dir Kf grad * (width / 2) / area).
  { intros a. unfold vf, fractureVolumeFlux. cbv zeta.
    rewrite (fold_inner dim (fun k => vscale (mv dim Kf grad) (- mob a) k * (vminus posEx posIn k / norm (norm2 dim (vminus posEx posIn))) * (width / 2)) (fun _ => / area)).
    rewrite (inner_scale dim _ _ (fun k => dir k) (fun k => inner dim (Kf k) grad) (- mob a * (width / 2) / area)).
    - unfold bilinear, inner. field. exact NA.
    - intros k _. unfold vscale, mv, dir, vminus. rewrite dot_inner. unfold Qdiv. ring. }
  set (keep := 1 - width / (2 * area)).
  set (F1 := fun (a : nat) (w : nat -> Q) (j : nat) => if (j =? l_conti0 l + a)%nat then w j * keep + vf a * rhoF a else w j).
  assert (S1 : forall m s w, (s <= c < s + m)%nat -> fold_left (fun w a => F1 a w) (seq s m) w (l_conti0 l + c)%nat
     = w (l_conti0 l + c)%nat * keep + vf c * rhoF c).
  { assert (Z : forall m s w, ~ (s <= c < s + m)%nat -> fold_left (fun w a => F1 a w) (seq s m) w (l_conti0 l + c)%nat = w (l_conti0 l + c)%nat).
    { induction m as [|m IH]; intros s w R; [reflexivity|]. cbn [seq fold_left]. rewrite IH by lia. unfold F1.
      destruct (Nat.eqb_spec (l_conti0 l + c) (l_conti0 l + s)); [lia|reflexivity]. }
    induction m as [|m IH]; intros s w R; [lia|]. cbn [seq fold_left]. destruct (Nat.eq_dec s c) as [->|N].
    - rewrite Z by lia. unfold F1. now rewrite Nat.eqb_refl.
    - rewrite IH by lia. unfold F1 at 1. destruct (Nat.eqb_spec (l_conti0 l + c) (l_conti0 l + s)); [lia|reflexivity]. }
  assert (S2 : forall j m s w, (s + m <= phases)%nat -> ~ (l_conti0 l <= j < l_conti0 l + l_comps l)%nat -> fold_left (fun w a => F1 a w) (seq s m) w j = w j).
  { intros j. induction m as [|m IH]; intros s w L R; [reflexivity|]. cbn [seq fold_left]. rewrite IH by (lia || assumption). unfold F1.
    destruct (Nat.eqb_spec j (l_conti0 l + s)); [lia|reflexivity]. }
  assert (S3 : forall e j m w, fold_left (fun (w : nat -> Q) a => fun i => if (i =? e)%nat then w i + vf a * h a * rho a else w i) m w j
     == w j + (if (j =? e)%nat then sumOver (fun a => vf a * h a * rho a) m else 0)).
  { intros e j m; induction m as [|a m IH]; intros w; cbn [fold_left].
    - unfold sumOver. cbn. destruct (j =? e)%nat; ring.
    - rewrite IH, sumOver_cons. destruct (j =? e)%nat; ring. }
  assert (K : area * keep == area - width / 2) by (unfold keep; field; exact NA).
  split.
  - assert (E1 : fractureFlux l phases width area vf rhoF rho h v (l_conti0 l + c)%nat == v (l_conti0 l + c)%nat * keep + vf c * rhoF c).
    { unfold fractureFlux. cbv zeta. fold keep.
      change (fun (v0 : nat -> Q) a => fun j => if (j =? l_conti0 l + a)%nat then v0 j * keep + vf a * rhoF a else v0 j) with (fun w a => F1 a w).
      destruct (l_energy l) as [e|] eqn:E; [|now rewrite S1 by lia].
      pose proof (proj2 F e E) as R. rewrite S3.
      destruct (Nat.eqb_spec (l_conti0 l + c) e); [lia|]. rewrite S1 by lia. ring. }
    rewrite E1, VF. rewrite Qmult_plus_distr_r, (Qmult_comm (v _)), Qmult_assoc, K. field. exact NA.
  - intros e E. pose proof (proj2 F e E) as R.
    assert (E1 : fractureFlux l phases width area vf rhoF rho h v e == v e * keep + sumOver (fun a => vf a * h a * rho a) (seq 0 phases)).
    { unfold fractureFlux. cbv zeta. fold keep.
      change (fun (v0 : nat -> Q) a => fun j => if (j =? l_conti0 l + a)%nat then v0 j * keep + vf a * rhoF a else v0 j) with (fun w a => F1 a w).
      rewrite E, S3, Nat.eqb_refl, S2 by (lia || assumption). reflexivity. }
    rewrite E1, Qmult_plus_distr_r, (Qmult_comm (v _)), Qmult_assoc, K. apply Qplus_comp; [reflexivity|].
    rewrite Qmult_comm, <- sumOver_scale. apply sumOver_ext. intros a _. rewrite VF. field. exact NA.
Qed.
Print Assumptions C76_fracture_flux.

(** What flows over a face: every phase takes along what its upstream degree of freedom holds (per volume, as much as
    the storage term counts), plus diffusion and conduction; nothing flows in other equations. *)
Theorem C76_flux k diffusion l phases focus x s : fits k phases l -> (k = CompMoles -> forall v, consistent (s v)) ->
  (forall c, (c < l_comps l)%nat -> val (computeFlux k diffusion l phases focus x s (l_conti0 l + c)%nat) ==
     sumOver (fun a => val (x_flux x a) * amount k (s (x_up x a)) a c) (seq 0 phases)
     - (match k, diffusion with
        | PhaseMasses, _ | _, false => 0
        | _, true => sumOver (fun a => (val (molarDensity (s (x_in x)) a) + val (molarDensity (s (x_ex x)) a)) / 2
                                       * val (x_D x a c) * val (x_gradX x a c)) (seq 0 phases)
        end)) /\
  (forall e, l_energy l = Some e -> val (computeFlux k diffusion l phases focus x s e) ==
     sumOver (fun a => val (x_flux x a) * (val (density (s (x_up x a)) a) * val (enthalpy (s (x_up x a)) a))) (seq 0 phases)
     - val (x_lambda x) * val (x_gradT x)) /\
  (forall j, ~ (l_conti0 l <= j < l_conti0 l + l_comps l)%nat -> l_energy l <> Some j ->
     computeFlux k diffusion l phases focus x s j = constant 0).
Proof.
  intros F CO. split; [|split].
  - intros c L. rewrite (proj1 (flux_comp k diffusion l phases focus x s c F L)). cbn [aadd val]. rewrite asum_val.
    apply Qplus_comp.
    + apply sumOver_ext. intros a _. unfold fluxTerm, amount.
      destruct k; [destruct (a =? c)%nat| |]; cbn [amul constant val]; rewrite ?keep_val; try ring.
      pose proof (CO eq_refl (x_up x a) a c) as CC. rewrite CC. ring.
    + assert (DT : sumOver (fun a => val (diffTerm x s c a)) (seq 0 phases) ==
        - sumOver (fun a => (val (molarDensity (s (x_in x)) a) + val (molarDensity (s (x_ex x)) a)) / 2
                                       * val (x_D x a c) * val (x_gradX x a c)) (seq 0 phases)).
      { rewrite (sumOver_ext _ (fun a => ((val (molarDensity (s (x_in x)) a) + val (molarDensity (s (x_ex x)) a)) / 2
                                       * val (x_D x a c) * val (x_gradX x a c)) * (-1))), sumOver_scale; [ring|].
        intros a _. unfold diffTerm, meanMolar. cbn [amul aopp ascale aadd dropped constant val]. field. }
      destruct k, diffusion; cbn [diffuses]; try reflexivity; rewrite asum_val; exact DT.
  - intros e E. rewrite (proj1 (flux_energy k diffusion l phases focus x s e F E)). cbn [aadd val]. rewrite asum_val.
    apply Qplus_comp; [|cbn [amul aopp val]; ring].
    apply sumOver_ext. intros a _. unfold enTerm. cbn [amul val]. ring.
  - intros j R E. now apply (flux_other k diffusion l phases).
Qed.
Print Assumptions C76_flux.

(** The value of a flux does not depend on the degree of freedom with regard to which it is differentiated. *)
Theorem C76_flux_does_not_depend_on_the_focus k diffusion l phases f f' p s j : fits k phases l ->
  val (computeFlux k diffusion l phases f (extensive p f s) s j) == val (computeFlux k diffusion l phases f' (extensive p f' s) s j).
Proof. apply flux_focus. Qed.
Print Assumptions C76_flux_does_not_depend_on_the_focus.

(** What the face provides: gradients from two points or from all vertices, means of both sides. *)
Theorem C76_face p focus s a c :
  let grad := fun y k => match pl_shapes p with
    | None => let d := fromTo (pl_pos p (pl_in p)) (pl_pos p (pl_ex p)) in
        (y (pl_ex p) - y (pl_in p)) * (d k / inner (pl_dim p) d d)
    | Some (n, G) => sumOver (fun v => y v * G v k) (seq 0 n) end in
  let x := extensive p focus s in
  x_in x = pl_in p /\ x_ex x = pl_ex p /\
  val (x_gradT x) == inner (pl_dim p) (grad (fun v => val (temperature (s v)))) (pl_normal p) /\
  val (x_lambda x) == (val (conductivity (s (pl_in p))) + val (conductivity (s (pl_ex p)))) / 2 /\
  val (x_gradX x a c) == inner (pl_dim p) (grad (fun v => val (moleFraction (s v) a c))) (pl_normal p) /\
  val (x_D x a c) == (val (diffusivity (s (pl_in p)) a c) + val (diffusivity (s (pl_ex p)) a c)) / 2.
Proof.
  intros grad x.
  assert (G : forall y k, val (calculateGradient p focus y k) == grad (fun v => val (y v)) k).
  { intros y k. apply grad_value. }
  unfold x. cbn [extensive x_in x_ex x_gradT x_lambda x_gradX x_D]. split; [reflexivity|]. split; [reflexivity|].
  split; [rewrite normal_val; apply sumOver_ext; intros k _; now rewrite G|].
  split; [cbn [ascale aadd val]; field|].
  split; [rewrite normal_val; apply sumOver_ext; intros k _; now rewrite G|]. cbn [ascale aadd val]. field.
Qed.
Print Assumptions C76_face.

(** With gradients from two points the volume flux and the upstream side are those of C71. With gradients from all
    vertices the volume flux follows the gradient of the pressure, with the columns of fluid between the
    integration point and both sides. *)
Theorem C76_volume_flux p focus s a :
  let x := extensive p focus s in
  let g := match pl_gravity p with Some _ => true | None => false end in
  let i := pointOf p s (pl_in p) in let j := pointOf p s (pl_ex p) in
  (pl_shapes p = None ->
   val (x_flux x a) == darcyFlux (fun k _ => k) g (pl_dim p) (pl_normal p) (pl_ipos p) i j a /\
   x_up x a = if darcyUpstream g (pl_dim p) (pl_normal p) (pl_ipos p) i j a then pl_in p else pl_ex p) /\
  (forall n G, pl_shapes p = Some (n, G) ->
   let d := fromTo (pl_pos p (pl_in p)) (pl_pos p (pl_ex p)) in
   let column v := match pl_gravity p with
     | Some g => val (density (s v) a) * inner (pl_dim p) (g v) (fromTo (pl_pos p v) (pl_ipos p)) | None => 0 end in
   let grad k := sumOver (fun v => val (pressure (s v) a) * G v k) (seq 0 n)
     + (column (pl_ex p) - column (pl_in p)) * (d k / inner (pl_dim p) d d) in
   x_up x a = (if Qltb 0 (inner (pl_dim p) grad (pl_normal p)) then pl_ex p else pl_in p) /\
   val (x_flux x a) == - val (mobility (s (x_up x a)) a) * bilinear (pl_dim p) (pl_normal p) (pl_K p) grad).
Proof.
  intros x g i j. change (x_flux x a) with (volumeFlux p focus s a). change (x_up x a) with (upstream p focus s a). split.
  - intros SH.
    assert (P : forall k, val (adPotentialGrad p focus s a k) ==
      fromTo (p_pos i) (p_pos j) k * ((restPressure g (pl_dim p) (pl_ipos p) j a - restPressure g (pl_dim p) (pl_ipos p) i a)
        / inner (pl_dim p) (fromTo (p_pos i) (p_pos j)) (fromTo (p_pos i) (p_pos j)))).
    { intros k. rewrite pot_value. rewrite SH. unfold restPressure, g, i, j. cbn [pointOf p_pos p_press p_rho p_grav].
      destruct (pl_gravity p) as [gr|]; unfold Qdiv; ring. }
    assert (U : upstream p focus s a = if darcyUpstream g (pl_dim p) (pl_normal p) (pl_ipos p) i j a then pl_in p else pl_ex p).
    { rewrite up_eq. unfold upstream. rewrite <- (inner_times (pl_dim p)).
      rewrite (qltb_eq 0 (val (normalPart p (adPotentialGrad p focus s a))) 0
        (inner (pl_dim p) (fun k => fromTo (p_pos i) (p_pos j) k * ((restPressure g (pl_dim p) (pl_ipos p) j a - restPressure g (pl_dim p) (pl_ipos p) i a)
        / inner (pl_dim p) (fromTo (p_pos i) (p_pos j)) (fromTo (p_pos i) (p_pos j)))) (pl_normal p))).
      - destruct (Qltb 0 _); reflexivity.
      - reflexivity.
      - rewrite normal_val. apply sumOver_ext. intros k _. now rewrite P. }
    split; [|exact U]. rewrite volume_val, darcy_eq, U.
    assert (B : forall K, bilinear (pl_dim p) (pl_normal p) K (fun k => val (adPotentialGrad p focus s a k)) ==
       bilinear (pl_dim p) (pl_normal p) K (fromTo (p_pos i) (p_pos j)) * ((restPressure g (pl_dim p) (pl_ipos p) j a - restPressure g (pl_dim p) (pl_ipos p) i a)
        / inner (pl_dim p) (fromTo (p_pos i) (p_pos j)) (fromTo (p_pos i) (p_pos j)))).
    { intros K. unfold bilinear. rewrite <- sumOver_scale. apply sumOver_ext. intros r _.
      set (q := (restPressure g (pl_dim p) (pl_ipos p) j a - restPressure g (pl_dim p) (pl_ipos p) i a)
        / inner (pl_dim p) (fromTo (p_pos i) (p_pos j)) (fromTo (p_pos i) (p_pos j))) in *.
      assert (X : inner (pl_dim p) (K r) (fun k => val (adPotentialGrad p focus s a k)) == inner (pl_dim p) (K r) (fromTo (p_pos i) (p_pos j)) * q).
      { unfold inner. rewrite <- sumOver_scale. apply sumOver_ext. intros k _. rewrite P. ring. }
      rewrite X. ring. }
    rewrite B. change (facePerm (fun k _ => k) i j) with (fun r c => pl_K p r c).
    change (fun r c => pl_K p r c) with (pl_K p).
    destruct (darcyUpstream g (pl_dim p) (pl_normal p) (pl_ipos p) i j a); reflexivity.
  - intros n G SH d column grad.
    assert (P : forall k, val (adPotentialGrad p focus s a k) == grad k).
    { intros k. rewrite pot_value, SH. reflexivity. }
    split.
    + unfold upstream. rewrite (qltb_eq 0 (val (normalPart p (adPotentialGrad p focus s a))) 0 (inner (pl_dim p) grad (pl_normal p))); [reflexivity|reflexivity|].
      rewrite normal_val. apply sumOver_ext. intros k _. now rewrite P.
    + rewrite volume_val. apply Qmult_comp; [reflexivity|]. apply sumOver_ext. intros r _. apply Qmult_comp; [reflexivity|].
      apply sumOver_ext. intros k _. now rewrite P.
Qed.
Print Assumptions C76_volume_flux.

(** What leaves one side of a face arrives at the other one, in every equation, if no phase is at rest or if the
    permeability is isotropic. *)
Theorem C76_flux_from_both_sides_partial k diffusion l phases f f' p s j : fits k phases l ->
  (forall a, (a < phases)%nat -> ~ driving p s a == 0) \/ (exists kappa, scalarMatrix (pl_dim p) kappa (pl_K p)) ->
  val (computeFlux k diffusion l phases f (extensive (swapped p) f s) s j)
  == - val (computeFlux k diffusion l phases f' (extensive p f' s) s j).
Proof. apply flux_swapped_scalar. Qed.
Print Assumptions C76_flux_from_both_sides_partial.

(** Richards: the mass of the liquid. *)
Theorem C76_richards eq liquid focus x s q old :
  val (richardsStorage eq liquid q old eq) == val (porosity q) * val (saturation q liquid) * val (density q liquid) /\
  val (richardsFlux eq liquid focus x s old eq) == val (x_flux x liquid) * val (density (s (x_up x liquid)) liquid).
Proof.
  unfold richardsStorage, richardsFlux, assign. rewrite Nat.eqb_refl. split; [cbn; ring|].
  cbn [amul val]. destruct (focus =? x_up x liquid)%nat; reflexivity.
Qed.
Print Assumptions C76_richards.

(** Rates and boundary fluxes are in the unit of the equations. A boundary where the same fluid is on both sides lets
    through what a face within the domain with the same volume fluxes lets through, and a mass rate changes the
    storage by this mass. Not proved (false) for the PT flash model. *)
Theorem C76_units_partial k l phases focus x s q c : fits k phases l -> k <> CompMasses ->
  (k = CompMoles -> consistent q) -> (forall v, s v = q) -> (c < l_comps l)%nat ->
  freeFlowRate (boundaryUnit k) phases (fun a => val (x_flux x a)) (fluidOf q) (fluidOf q) c
    == val (computeFlux k false l phases focus x s (l_conti0 l + c)%nat) /\
  forall M value old, setMassRate k l M value old (l_conti0 l + c)%nat == massInUnits k M c (value (l_conti0 l + c)%nat).
Proof.
  intros F NK CO SQ L. split.
  - rewrite (proj1 (C76_flux k false l phases focus x s F (fun E v => eq_ind_r consistent (CO E) (SQ v))) c L).
    unfold freeFlowRate.
    assert (G : forall (g : nat -> Q) l0 t, fold_left (fun t a => t + g a) l0 t == t + sumOver g l0).
    { intros g l0; induction l0 as [|a l0 IH]; intros t; cbn [fold_left]; [unfold sumOver; cbn; ring|]. rewrite IH, sumOver_cons. ring. }
    rewrite (G (fun a => val (x_flux x a) * carried (boundaryUnit k)
       (if Qltb (f_press (fluidOf q) a) (f_press (fluidOf q) a) then fluidOf q else fluidOf q) a c)).
    assert (E0 : (match k, false with PhaseMasses, _ | _, false => 0
        | _, true => sumOver (fun a => (val (molarDensity (s (x_in x)) a) + val (molarDensity (s (x_ex x)) a)) / 2
                                       * val (x_D x a c) * val (x_gradX x a c)) (seq 0 phases) end) = 0) by (destruct k; reflexivity).
    rewrite E0. rewrite (sumOver_ext _ (fun a => val (x_flux x a) * amount k (s (x_up x a)) a c)).
    + ring.
    + intros a _. rewrite SQ. destruct k; cbn [boundaryUnit carried amount].
      * rewrite (Nat.eqb_sym c a). destruct (Qltb _ _), (a =? c)%nat; reflexivity.
      * destruct (Qltb _ _); reflexivity.
      * congruence.
  - intros M value old. destruct k; [reflexivity| |congruence]. cbn [setMassRate massInUnits].
    unfold flashMass, flashMolar, assignComps.
    assert (G : forall m t w, (t <= c < t + m)%nat -> fold_left (fun v0 c0 => set v0 (l_conti0 l + c0) (value (l_conti0 l + c0)%nat / M c0)) (seq t m) w (l_conti0 l + c)%nat
      = value (l_conti0 l + c)%nat / M c).
    { assert (Z : forall m t w, ~ (t <= c < t + m)%nat -> fold_left (fun v0 c0 => set v0 (l_conti0 l + c0) (value (l_conti0 l + c0)%nat / M c0)) (seq t m) w (l_conti0 l + c)%nat
         = w (l_conti0 l + c)%nat).
      { induction m as [|m IH]; intros t w R; [reflexivity|]. cbn [seq fold_left]. rewrite IH by lia. unfold set.
        destruct (Nat.eqb_spec (l_conti0 l + c) (l_conti0 l + t)); [lia|reflexivity]. }
      induction m as [|m IH]; intros t w R; [lia|]. cbn [seq fold_left]. destruct (Nat.eq_dec t c) as [->|N].
      - rewrite Z by lia. unfold set. now rewrite Nat.eqb_refl.
      - apply IH. lia. }
    rewrite G by lia. reflexivity.
Qed.
Print Assumptions C76_units_partial.

(** The PT flash model balances masses, but its rate vectors count moles: one kilogram per second is entered as 50 moles
    per second into an equation in kilograms, and a boundary lets through moles where a face lets through kilograms. *)
Definition water : quants :=
  let c := constant in
  mkQuants (c (1 # 5)) (fun _ => c 1) (fun _ => c 1) (fun _ => c 1) (fun _ => c 1000) (fun _ => c 50000)
    (fun _ _ => c 50000) (fun _ _ => c 1) (fun _ _ => c 1) (fun _ => c 1) (fun _ => c 1) (c 1) (c 1) (c 1) (fun _ _ => c 1).
Definition oneComp : layout := mkLayout 0 1 None.
Definition unitFlux : exts := mkExts 0 1 (fun _ => constant 1) (fun _ => 0%nat) (constant 0) (constant 0) (fun _ _ => constant 0) (fun _ _ => constant 0).
Theorem C76_units_refuted : exists l phases focus x q M value old,
  fits CompMasses phases l /\ consistent q /\ (forall c, 0 < M c) /\
  (forall a c, val (massFraction q a c) * val (density q a) == val (molarity q a c) * M c) /\
  ~ freeFlowRate (boundaryUnit CompMasses) phases (fun a => val (x_flux x a)) (fluidOf q) (fluidOf q) 0
     == val (computeFlux CompMasses false l phases focus x (fun _ => q) (l_conti0 l)) /\
  ~ setMassRate CompMasses l M value old (l_conti0 l) == massInUnits CompMasses M 0 (value (l_conti0 l)).
Proof.
  exists oneComp, 1%nat, 0%nat, unitFlux, water, (fun _ => 1 # 50), (fun _ => 1), (fun _ => 0).
  split; [split; [discriminate|cbn; discriminate]|].
  split; [intros a c; vm_compute; reflexivity|]. split; [intros c; vm_compute; reflexivity|].
  split; [intros a c; vm_compute; reflexivity|]. split; vm_compute; discriminate.
Qed.
Print Assumptions C76_units_refuted.

Definition line : place :=
  mkPlace 1 (fun v _ => inject_Z (Z.of_nat v)) None 0 1 (fun _ => 1) (fun _ => 1 # 2) (fun _ _ => 1) None.
(** * C77 *)
(** All storage terms carry the derivatives of their values. *)
Theorem C77_storage s focus k phases l j : variation s focus -> fits k phases l ->
  tracks (fun h => computeStorage k phases l (s h focus) j).
Proof. intros W F. exact (proj2 (err_tracks _) (err_storage s focus W line (fun _ => Nat.neq_0_succ 0) k phases l j F)). Qed.
Print Assumptions C77_storage.

(** So do the advective fluxes of mass and moles, with any degree of freedom as the focused one (one at the face or, in
    the vertex-centred scheme, another one of the element), unless a phase is at rest (where the upstream side
    changes). Not proved (false): diffusive fluxes and fluxes of energy. *)
Theorem C77_advection_partial s focus p k diffusion phases l c : variation s focus -> fits k phases l ->
  pl_in p <> pl_ex p -> k = PhaseMasses \/ diffusion = false -> (c < l_comps l)%nat ->
  (forall a, (a < phases)%nat -> ~ driving p (s 0) a == 0) ->
  tracks (fun h => computeFlux k diffusion l phases focus (extensive p focus (s h)) (s h) (l_conti0 l + c)%nat).
Proof.
  intros W F IJ ND C N. apply err_tracks.
  assert (E : diffuses k diffusion = false) by (destruct ND as [->| ->]; [reflexivity|now destruct k]).
  pose proof (err_sum0 (fun a h => fluxTerm k focus (extensive p focus (s h)) (s h) c a) (seq 0 phases)
    (fun a I => err_fluxTerm s focus W p (fun _ => IJ) k c a (N a (in_seq0 a phases I)))) as S1.
  refine (err_ext _ _ 0 0 _ (Qeq_refl 0) S1). intros h. cbv beta.
  eapply eqv_trans; [|apply eqv_sym, flux_comp; assumption]. rewrite E. split; cbn [aadd constant val der]; symmetry; apply Qplus_0_r.
Qed.
Print Assumptions C77_advection_partial.

Theorem C77_richards_partial s focus p eq liquid old : variation s focus -> pl_in p <> pl_ex p -> ~ driving p (s 0) liquid == 0 ->
  tracks (fun h => richardsFlux eq liquid focus (extensive p focus (s h)) (s h) old eq) /\
  tracks (fun h => richardsStorage eq liquid (s h focus) old eq).
Proof.
  intros W IJ N. split; apply err_tracks.
  - pose proof (err_fluxTerm s focus W p (fun _ => IJ) PhaseMasses liquid liquid N) as T.
    refine (err_ext _ _ 0 0 _ (Qeq_refl 0) T). intros h. cbv beta. unfold richardsFlux, fluxTerm, keep, assign.
    rewrite !Nat.eqb_refl, (Nat.eqb_sym focus). apply eqv_refl.
  - pose proof (err_mul0 _ _ (err_mul0 _ _ (err_focus s focus (fun q => density q liquid) (v_density _ _ W liquid))
      (err_focus s focus (fun q => saturation q liquid) (v_saturation _ _ W liquid))) (err_focus s focus porosity (v_porosity _ _ W))) as T.
    refine (err_ext _ _ 0 0 _ (Qeq_refl 0) T). intros h. unfold richardsStorage, assign. rewrite Nat.eqb_refl. apply eqv_refl.
Qed.
Print Assumptions C77_richards_partial.

(** Energy: the derivative which is carried along is too large by the derivatives of the enthalpy and density of an
    upstream side which is not the focused degree of freedom, and by the derivatives of the thermal conductivity
    of the degrees of freedom which are not the focused one. *)
Theorem C77_energy_error s focus p k diffusion phases l e : variation s focus -> fits k phases l ->
  pl_in p <> pl_ex p -> l_energy l = Some e -> (forall a, (a < phases)%nat -> ~ driving p (s 0) a == 0) ->
  let surplus (f : quants -> ad) (v : nat) := if (v =? focus)%nat then 0 else der (f (s 0 v)) in
  let x := extensive p focus (s 0) in
  let flux h := computeFlux k diffusion l phases focus (extensive p focus (s h)) (s h) e in
  derivative (fun h => val (flux h))
    (der (flux 0)
     - (sumOver (fun a => let up := s 0 (x_up x a) in
          val (x_flux x a) * (surplus (fun q => enthalpy q a) (x_up x a) * val (density up a)
                              + val (enthalpy up a) * surplus (fun q => density q a) (x_up x a))) (seq 0 phases)
        - val (x_gradT x) * (surplus conductivity (pl_in p) + surplus conductivity (pl_ex p)) / 2)).
Proof.
  intros W F IJ E N surp x flux.
  assert (SU : forall f v, LocResProofs.surplus s focus f v == surp f v).
  { intros f v. unfold LocResProofs.surplus, surp, own. destruct (v =? focus)%nat; ring. }
  pose proof (err_add _ _ _ _ (err_sum (fun a h => enTerm (extensive p focus (s h)) (s h) a) _ (seq 0 phases)
    (fun a I => err_enTerm s focus W p (fun _ => IJ) a (N a (in_seq0 a phases I)))) (err_conduction s focus W p (fun _ => IJ))) as S1.
  cbv beta in S1.
  refine (err_ext _ flux _ _ _ _ S1).
  - intros h. exact (eqv_sym _ _ (flux_energy k diffusion l phases focus (extensive p focus (s h)) (s h) e F E)).
  - apply Qplus_comp.
    + apply sumOver_ext. intros a _. cbv zeta. rewrite !SU. reflexivity.
    + rewrite !SU. unfold x. field.
Qed.
Print Assumptions C77_energy_error.

(** Where the error vanishes: every phase flows out of the focused degree of freedom and the conductivities of the
    others are constant. *)
Theorem C77_energy_partial s focus p k diffusion phases l e : variation s focus -> fits k phases l ->
  pl_in p <> pl_ex p -> l_energy l = Some e -> (forall a, (a < phases)%nat -> ~ driving p (s 0) a == 0) ->
  (forall a, (a < phases)%nat -> upstream p focus (s 0) a = focus) ->
  (forall v, v <> focus -> der (conductivity (s 0 v)) == 0) ->
  tracks (fun h => computeFlux k diffusion l phases focus (extensive p focus (s h)) (s h) e).
Proof.
  intros W F IJ E N U C. pose proof (C77_energy_error s focus p k diffusion phases l e W F IJ E N) as H. cbv zeta in H.
  refine (D_ext _ _ _ _ (fun h => Qeq_refl _) _ H). cbv beta.
  assert (Z : forall v, (if (v =? focus)%nat then 0 else der (conductivity (s 0 v))) == 0).
  { intros v. destruct (Nat.eqb_spec v focus) as [->|NV]; [reflexivity|now apply C]. }
  rewrite !Z. rewrite (sumOver_ext _ (fun _ => 0)), sumOver_zero.
  - field.
  - intros a I. cbn [extensive x_up]. rewrite (U a (in_seq0 a phases I)), Nat.eqb_refl. ring.
Qed.
Print Assumptions C77_energy_partial.

(** Diffusion: the derivative of the interior molar density is carried along whatever the focus is, that of the exterior
    one never; the derivatives of both effective diffusion coefficients are carried along. *)
Theorem C77_diffusion_error s focus p k phases l c : variation s focus -> fits k phases l -> k <> PhaseMasses ->
  pl_in p <> pl_ex p -> (c < l_comps l)%nat -> (forall a, (a < phases)%nat -> ~ driving p (s 0) a == 0) ->
  let surplus (f : quants -> ad) (v : nat) := if (v =? focus)%nat then 0 else der (f (s 0 v)) in
  let missing (f : quants -> ad) (v : nat) := if (v =? focus)%nat then der (f (s 0 v)) else 0 in
  let x := extensive p focus (s 0) in
  let rho a := (val (molarDensity (s 0 (pl_in p)) a) + val (molarDensity (s 0 (pl_ex p)) a)) / 2 in
  let flux h := computeFlux k true l phases focus (extensive p focus (s h)) (s h) (l_conti0 l + c)%nat in
  derivative (fun h => val (flux h))
    (der (flux 0)
     + sumOver (fun a =>
         (surplus (fun q => molarDensity q a) (pl_in p) - missing (fun q => molarDensity q a) (pl_ex p)) / 2
           * val (x_gradX x a c) * val (x_D x a c)
         + rho a * val (x_gradX x a c)
           * (surplus (fun q => diffusivity q a c) (pl_in p) + surplus (fun q => diffusivity q a c) (pl_ex p)) / 2) (seq 0 phases)).
Proof.
  intros W F NK IJ C N surp miss x rho flux.
  assert (SU : forall f v, LocResProofs.surplus s focus f v == surp f v).
  { intros f v. unfold LocResProofs.surplus, surp, own. destruct (v =? focus)%nat; ring. }
  pose proof (err_add _ _ _ _
    (err_sum0 (fun a h => fluxTerm k focus (extensive p focus (s h)) (s h) c a) (seq 0 phases)
      (fun a I => err_fluxTerm s focus W p (fun _ => IJ) k c a (N a (in_seq0 a phases I))))
    (err_sum (fun a h => diffTerm (extensive p focus (s h)) (s h) c a) _ (seq 0 phases)
      (fun a I => err_diffTerm s focus W p (fun _ => IJ) c a))) as S1.
  cbv beta in S1.
  assert (S2 : err flux (0 + sumOver (fun a => - ((der (molarDensity (s 0 (pl_in p)) a) - own focus (pl_in p) (molarDensity (s 0 (pl_in p)) a)
           - own focus (pl_ex p) (molarDensity (s 0 (pl_ex p)) a)) * (1 # 2))
         * val (x_gradX (extensive p focus (s 0)) a c) * val (x_D (extensive p focus (s 0)) a c)
       + - val (meanMolar (extensive p focus (s 0)) (s 0) a) * val (x_gradX (extensive p focus (s 0)) a c)
         * ((LocResProofs.surplus s focus (fun q => diffusivity q a c) (pl_in p) + LocResProofs.surplus s focus (fun q => diffusivity q a c) (pl_ex p)) * (1 # 2))) (seq 0 phases))).
  { refine (err_ext _ flux _ _ _ (Qeq_refl _) S1). intros h. pose proof (flux_comp k true l phases focus (extensive p focus (s h)) (s h) c F C) as X.
    assert (ED : diffuses k true = true) by (destruct k; [congruence|reflexivity|reflexivity]). rewrite ED in X. exact (eqv_sym _ _ X). }
  refine (D_ext _ _ _ _ (fun h => Qeq_refl _) _ S2). unfold Qminus. apply Qplus_comp; [reflexivity|].
  match goal with |- - (0 + sumOver ?g ?m) == sumOver ?g' ?m =>
    rewrite (sumOver_ext g' (fun a => g a * (-1))), sumOver_scale; [ring|] end.
  intros a _. rewrite !SU. unfold meanMolar, miss, surp, rho, x, own. cbn [extensive x_in x_ex ascale aadd dropped constant val].
  destruct (pl_in p =? focus)%nat, (pl_ex p =? focus)%nat; field.
Qed.
Print Assumptions C77_diffusion_error.

Theorem C77_diffusion_partial s focus p k phases l c : variation s focus -> fits k phases l -> k <> PhaseMasses ->
  pl_in p <> pl_ex p -> (c < l_comps l)%nat -> (forall a, (a < phases)%nat -> ~ driving p (s 0) a == 0) ->
  focus = pl_in p -> (forall v a, v <> focus -> der (diffusivity (s 0 v) a c) == 0) ->
  tracks (fun h => computeFlux k true l phases focus (extensive p focus (s h)) (s h) (l_conti0 l + c)%nat).
Proof.
  intros W F NK IJ C N FO D0. pose proof (C77_diffusion_error s focus p k phases l c W F NK IJ C N) as H. cbv zeta in H.
  refine (D_ext _ _ _ _ (fun h => Qeq_refl _) _ H). cbv beta.
  rewrite (sumOver_ext _ (fun _ => 0)), sumOver_zero; [ring|]. intros a _.
  assert (E1 : (pl_in p =? focus)%nat = true) by (apply Nat.eqb_eq; congruence).
  assert (E2 : (pl_ex p =? focus)%nat = false) by (apply Nat.eqb_neq; congruence).
  rewrite E1, E2, (D0 (pl_ex p)) by congruence. field.
Qed.
Print Assumptions C77_diffusion_partial.

(** ** Cases *)
(** Two cells; the pressures and the derivatives of the second one's enthalpy and diffusivity are given. *)
Definition cell (p0 dp dh dD : Q) : quants :=
  let c := constant in
  mkQuants (c (1 # 5)) (fun _ => mkAD p0 dp) (fun _ => c 1) (fun _ => c 1) (fun _ => c 2) (fun _ => c 3)
    (fun _ _ => c 3) (fun _ _ => c 1) (fun _ _ => c 1) (fun _ => c 1) (fun _ => mkAD 1 dh) (c 1) (c 1) (c 1) (fun _ _ => mkAD 1 dD).
Definition withEnergy : layout := mkLayout 0 1 (Some 1%nat).
Lemma fits_withEnergy k : fits k 1 withEnergy.
Proof. split; [reflexivity|]. intros e E. injection E as <-. cbn. lia. Qed.

(** The pressure of the focused cell changes. *)
Definition pushed (h : Q) (v : nat) : quants := if (v =? 0)%nat then cell (2 + h) 1 0 0 else cell 1 1 1 1.
Lemma pushed_varies : variation pushed 0.
Proof.
  constructor.
  1: { intros h v N. unfold pushed. destruct (Nat.eqb_spec v 0); [congruence|reflexivity]. }
  all: intros; apply tracks_affine; intros h; cbn; ring.
Qed.
Example pushed_advection : tracks (fun h => computeFlux PhaseMasses false withEnergy 1 0 (extensive line 0 (pushed h)) (pushed h) 0%nat)
  /\ der (computeFlux PhaseMasses false withEnergy 1 0 (extensive line 0 (pushed 0)) (pushed 0) 0%nat) == 2.
Proof.
  split; [|vm_compute; reflexivity].
  apply (C77_advection_partial pushed 0 line PhaseMasses false 1 withEnergy 0 pushed_varies (fits_withEnergy _)).
  - discriminate.
  - now left.
  - cbn. lia.
  - intros a _. vm_compute. discriminate.
Qed.
Example pushed_energy : tracks (fun h => computeFlux PhaseMasses false withEnergy 1 0 (extensive line 0 (pushed h)) (pushed h) 1%nat).
Proof.
  apply (C77_energy_partial pushed 0 line PhaseMasses false 1 withEnergy 1 pushed_varies (fits_withEnergy _)).
  - discriminate.
  - reflexivity.
  - intros a _. vm_compute. discriminate.
  - intros a _. vm_compute. reflexivity.
  - intros v N. unfold pushed. destruct (Nat.eqb_spec v 0); [congruence|reflexivity].
Qed.

(** The fluid flows into the focused cell: the derivative of the neighbour's enthalpy with regard to the neighbour's
    variables is taken for one with regard to the focused cell's variables. *)
Definition pulled (h : Q) (v : nat) : quants := if (v =? 0)%nat then cell 1 0 0 0 else cell 2 0 1 1.
Lemma pulled_varies : variation pulled 0.
Proof.
  constructor.
  1: { intros h v N. unfold pulled. destruct (Nat.eqb_spec v 0); [congruence|reflexivity]. }
  all: intros; apply tracks_affine; intros h; cbn; ring.
Qed.
Theorem C77_energy_refuted : exists s focus p phases l e, variation s focus /\ fits PhaseMasses phases l /\ focus = pl_in p /\
  pl_in p <> pl_ex p /\ l_energy l = Some e /\ (forall a, (a < phases)%nat -> ~ driving p (s 0) a == 0) /\
  ~ tracks (fun h => computeFlux PhaseMasses false l phases focus (extensive p focus (s h)) (s h) e).
Proof.
  exists pulled, 0%nat, line, 1%nat, withEnergy, 1%nat. split; [apply pulled_varies|]. split; [apply fits_withEnergy|].
  split; [reflexivity|]. split; [discriminate|]. split; [reflexivity|]. split; [intros a _; vm_compute; discriminate|].
  intros T. pose proof (D_of_constant _ _ T (fun h => Qeq_refl _)) as Z. vm_compute in Z. discriminate.
Qed.
Print Assumptions C77_energy_refuted.

(** Diffusion: the same for the derivative of the neighbour's diffusion coefficient. *)
Definition salt (x0 dx dD : Q) : quants :=
  let c := constant in
  mkQuants (c (1 # 5)) (fun _ => c x0) (fun _ => c 1) (fun _ => c 1) (fun _ => c 2) (fun _ => c 3)
    (fun _ _ => c (3 * x0)) (fun _ _ => mkAD x0 dx) (fun _ _ => c 1) (fun _ => c 1) (fun _ => c 1) (c 1) (c 1) (c 1) (fun _ _ => mkAD 1 dD).
Definition salty (h : Q) (v : nat) : quants := if (v =? 0)%nat then salt (1 # 2) 0 0 else salt (1 # 4) 0 1.
Lemma salty_varies : variation salty 0.
Proof.
  constructor.
  1: { intros h v N. unfold salty. destruct (Nat.eqb_spec v 0); [congruence|reflexivity]. }
  all: intros; apply tracks_affine; intros h; cbn; ring.
Qed.
Theorem C77_diffusion_refuted : exists s focus p phases l c, variation s focus /\ fits CompMoles phases l /\ focus = pl_in p /\
  pl_in p <> pl_ex p /\ (c < l_comps l)%nat /\ (forall a, (a < phases)%nat -> ~ driving p (s 0) a == 0) /\
  ~ tracks (fun h => computeFlux CompMoles true l phases focus (extensive p focus (s h)) (s h) (l_conti0 l + c)%nat).
Proof.
  exists salty, 0%nat, line, 1%nat, oneComp, 0%nat. split; [apply salty_varies|]. split; [split; [discriminate|cbn; discriminate]|].
  split; [reflexivity|]. split; [discriminate|]. split; [cbn; lia|]. split; [intros a _; vm_compute; discriminate|].
  intros T. pose proof (D_of_constant _ _ T (fun h => Qeq_refl _)) as Z. vm_compute in Z. discriminate.
Qed.
Print Assumptions C77_diffusion_refuted.

(** ** Cases of C76 *)
Example oil_and_water : fits PhaseMasses 2 (mkLayout 0 2 (Some 2%nat)) /\
  val (computeStorage PhaseMasses 2 (mkLayout 0 2 (Some 2%nat)) water 1%nat) == 200 /\
  val (computeStorage PhaseMasses 2 (mkLayout 0 2 (Some 2%nat)) water 2%nat) == 401.
Proof.
  split; [split; [reflexivity|intros e E; injection E as <-; cbn; lia]|]. split; vm_compute; reflexivity.
Qed.
Example fractured : val (fractureStorage 2 (mkLayout 0 2 (Some 2%nat)) water (Some (cell 1 0 0 0, 1 # 4)) 1%nat) == 1501 # 10.
Proof. vm_compute. reflexivity. Qed.
Example both_sides : val (computeFlux CompMoles true withEnergy 1 0 (extensive line 0 (salty 0)) (salty 0) 0%nat) == 9 # 8 /\
  val (computeFlux CompMoles true withEnergy 1 1 (extensive (swapped line) 1 (salty 0)) (salty 0) 0%nat) == - (9 # 8) /\
  exists kappa, scalarMatrix 1 kappa (pl_K line).
Proof.
  split; [vm_compute; reflexivity|]. split; [vm_compute; reflexivity|]. exists 1. intros r c R C. cbn.
  assert (r = 0%nat) by lia. assert (c = 0%nat) by lia. subst. reflexivity.
Qed.
