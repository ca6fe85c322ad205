(** Properties C41, C42, C43 and C67. *)
From Coq Require Import Permutation.
From Verif Require Import FluxModel ResidualModel FluxSpec FluxProofs ResidualProofs FluxGridProofs.

(** ** C41 *)
(** Within an element, the fluxes over its interior faces cancel. *)
Theorem C41_interior_fluxes_cancel : forall e, wellFormed e ->
  sumOver (evalFluxes e (fun _ => 0)) (seq 0 (length (e_dofs e))) == 0.
Proof.
  intros e (P & B & F). rewrite fluxes_sum, sumOver_zero, faces_cancel by auto. lra.
Qed.

(** Summed over all degrees of freedom, the residual is the balance: storage change minus sources plus
    what leaves over the boundary. Vertex-centred: any faces and any fluxes. *)
Theorem C41_vertex_centred_balance : forall dt n elems, ~ dt == 0 ->
  Forall (fun e => wellFormed e /\ vertexCentred e /\ Forall (fun d => (d_global d < n)%nat) (primaries e)) elems ->
  sumOver (globalResidual false dt elems) (seq 0 n) == balance dt elems.
Proof.
  intros dt n elems D F. rewrite <- (vertex_balance false dt n (fun _ => 1) elems D).
  - apply sumOver_ext. intros; lra.
  - eapply Forall_impl; [|exact F]. cbn. intros e (A & B & C). repeat split; try apply A; auto.
    apply Forall_forall. intros; reflexivity.
Qed.
(** With residuals per volume, the sum weighted with the volumes of the degrees of freedom. *)
Theorem C41_volumetric_balance : forall dt n (volume : nat -> Q) elems, ~ dt == 0 ->
  Forall (fun e => wellFormed e /\ vertexCentred e /\
    Forall (fun d => (d_global d < n)%nat /\ volume (d_global d) == d_total d /\ 0 < d_total d) (primaries e)) elems ->
  sumOver (fun i => volume i * globalResidual true dt elems i) (seq 0 n) == balance dt elems.
Proof.
  intros dt n w elems D F. apply (vertex_balance true dt n w elems D).
  eapply Forall_impl; [|exact F]. cbn. intros e (A & B & C). split; [exact A|]. split; [exact B|]. split;
  (eapply Forall_impl; [|exact C]); cbn; intros d (X & Y & Z); auto.
Qed.

(** Cell-centred: each face is looked at from both sides, so the fluxes cancel iff both sides agree. *)
Theorem C41_cell_centred_balance : forall dt n elems, ~ dt == 0 ->
  Forall (fun e => wellFormed e /\ cellCentred e /\ Forall (fun d => (d_global d < n)%nat) (primaries e)) elems ->
  faces_match (flat_map sides elems) ->
  sumOver (globalResidual false dt elems) (seq 0 n) == balance dt elems.
Proof.
  intros dt n elems D F M. rewrite <- (cell_balance false dt n (fun _ => 1) elems D).
  - apply sumOver_ext. intros; lra.
  - eapply Forall_impl; [|exact F]. cbn. intros e (A & B & C). split; [exact A|]. split; [exact B|]. split; auto.
    apply Forall_forall. intros; reflexivity.
  - exact M.
Qed.
(** In particular the black-oil model with transmissibilities conserves every component on every
    cell-centred grid. *)
Theorem C41_transmissibility_scheme_conserves :
  forall fs g c cells data bnd conns n dt, ~ dt == 0 ->
  (forall i j, c_idx (cells i) = c_idx (cells j) -> i = j) ->
  (forall i, d_global (data i) = i) ->
  (forall i, Forall (fun b => b_dof b = 0%nat) (bnd i)) ->
  Forall (fun k => (k_a k < n)%nat /\ (k_b k < n)%nat /\ k_a k <> k_b k) conns ->
  let elems := map (gridElement fs g c cells data bnd conns) (seq 0 n) in
  sumOver (globalResidual false dt elems) (seq 0 n) == balance dt elems.
Proof.
  intros fs g c cells data bnd conns n dt D I G B K elems. apply C41_cell_centred_balance; auto.
  - apply Forall_forall. intros e E. apply in_map_iff in E as (i & <- & E). apply in_seq in E.
    destruct (grid_wellFormed fs g c cells data bnd conns i (B i)) as [W C]. split; [exact W|]. split; [exact C|].
    unfold primaries, gridElement. cbn. constructor; [|constructor]. rewrite G. lia.
  - apply grid_match; auto.
Qed.

(** checkConservativeness accepts iff the balance is within its tolerance; so it accepts whenever all
    residuals vanish. The extrusion factors must not change during the step. *)
Theorem C41_check_exact : forall tol dt elems, ~ dt == 0 ->
  Forall (fun e => wellFormed e /\ Forall (fun d => d_ext1 d == d_ext d) (primaries e)) elems ->
  (conservative tol dt elems = true <->
   let m := qabs ((globalStorage1 elems - globalStorage elems) / dt) + totalRate elems in
   qabs (balance dt elems) <= tol \/ qabs (balance dt elems) <= m * tol).
Proof.
  intros tol dt elems D F. apply conservative_exact; auto; (eapply Forall_impl; [|exact F]); cbn.
  - intros e ((P & _) & _). exact P.
  - intros e (_ & E). exact E.
Qed.
Theorem C41_converged_step_passes_check : forall tol dt n elems, ~ dt == 0 -> 0 <= tol ->
  Forall (fun e => wellFormed e /\ vertexCentred e /\ Forall (fun d => (d_global d < n)%nat /\ d_ext1 d == d_ext d) (primaries e)) elems ->
  (forall i, (i < n)%nat -> globalResidual false dt elems i == 0) ->
  conservative tol dt elems = true.
Proof.
  intros tol dt n elems D T F Z. apply C41_check_exact; auto.
  - eapply Forall_impl; [|exact F]. cbn. intros e (A & _ & B). split; auto. eapply Forall_impl; [|exact B]. cbn. intros d [_ X]; exact X.
  - cbn zeta. left. rewrite <- (C41_vertex_centred_balance dt n elems D).
    + rewrite (sumOver_ext _ (fun _ => 0)).
      * rewrite sumOver_zero. exact T.
      * intros i I. apply in_seq in I. apply Z. lia.
    + eapply Forall_impl; [|exact F]. cbn. intros e (A & V & B). split; [exact A|]. split; [exact V|].
      eapply Forall_impl; [|exact B]. cbn. intros d [X _]; exact X.
Qed.
(** With an extrusion factor which changes in time the check rejects steps whose residuals vanish: the
    residual uses the new factor for the old amount, the check the old one. *)
Definition stretching : element := mkElem [mkDof 0 1 1 2 1 3 3 0] 1 [] [].
Theorem C41_check_with_changing_extrusion_refuted :
  ~ (forall tol dt n elems, ~ dt == 0 -> 0 <= tol ->
     Forall (fun e => wellFormed e /\ vertexCentred e /\ Forall (fun d => (d_global d < n)%nat) (primaries e)) elems ->
     (forall i, (i < n)%nat -> globalResidual false dt elems i == 0) -> conservative tol dt elems = true).
Proof.
  intros H. specialize (H (1#10) 1 1%nat [stretching]).
  assert (E : conservative (1#10) 1 [stretching] = false) by (vm_compute; reflexivity).
  rewrite H in E; [discriminate| | | |]; try (intro C; vm_compute in C; discriminate).
  - constructor; [|constructor]. unfold wellFormed, vertexCentred, stretching. cbn. repeat split; auto.
  - intros i I. replace i with 0%nat by lia. vm_compute. reflexivity.
Qed.

(** ** C42 *)
(** What leaves one cell enters the other one, for every phase, ties included. *)
Theorem C42_volume_flux_antisymmetric : forall g trans a b ph,
  vflux (volumeFlux g trans a b ph) == - vflux (volumeFlux g trans b a ph).
Proof. apply vflux_antisym. Qed.
(** The same cell is upstream seen from both sides, if the phase is mobile in one of them. *)
Theorem C42_same_upstream_cell_partial : forall g trans a b ph, c_idx a <> c_idx b ->
  0 < c_mob a ph \/ 0 < c_mob b ph ->
  (if upInterior (volumeFlux g trans a b ph) then a else b) = (if upInterior (volumeFlux g trans b a ph) then b else a).
Proof. intros g t a b ph N M. rewrite (same_upstream g t a b ph N M). destruct (upInterior (volumeFlux g t b a ph)); reflexivity. Qed.
(** The direction and the size of the flux: down the potential, with the mobility of the upstream
    cell. *)
Theorem C42_flux_follows_potential : forall g trans a b ph,
  0 <= c_mob a ph -> 0 <= c_mob b ph ->
  let P x := potential (meanDensity ph a b) g x ph in
  (P b < P a -> vflux (volumeFlux g trans a b ph) == trans * c_mob a ph * (P a - P b)) /\
  (P a < P b -> vflux (volumeFlux g trans a b ph) == - (trans * c_mob b ph * (P b - P a))) /\
  (P a == P b -> vflux (volumeFlux g trans a b ph) == 0).
Proof. apply vflux_potential. Qed.
(** Component and enthalpy fluxes: also the same from both sides, and what they carry is what the
    upstream cell holds, in the units of its region. *)
Theorem C42_component_flux_antisymmetric : forall fs g trans a b c, c_idx a <> c_idx b ->
  advective fs (volumeFlux g trans a b) a b c == - advective fs (volumeFlux g trans b a) b a c.
Proof. intros. apply advective_antisym. intros ph. apply volumeFlux_opposite. auto. Qed.
Theorem C42_enthalpy_flux_antisymmetric : forall fs g trans a b, c_idx a <> c_idx b ->
  enthalpyFlux fs (volumeFlux g trans a b) a b == - enthalpyFlux fs (volumeFlux g trans b a) b a.
Proof. intros. apply enthalpy_antisym. intros ph. apply volumeFlux_opposite. auto. Qed.
Theorem C42_component_flux_composition : forall fs pf a b c,
  advective fs pf a b c ==
  sumOver (fun ph => if active fs ph then
             let up := if upInterior (pf ph) then a else b in
             vflux (pf ph) * c_invB up ph * content fs up ph c * unitOf fs (c_region up) c
           else 0) phases.
Proof. apply advective_content. Qed.
(** The TPFA local residual: given pressure differences which are the same from both sides. *)
Theorem C42_tpfa_flux_antisymmetric : forall fs trans area a b (dp dp' : phase -> Q) (up up' : phase -> bool) c,
  ~ area == 0 -> (forall ph, dp ph == - dp' ph) -> (forall ph, up ph = negb (up' ph)) ->
  advective fs (fun ph => tpfaDarcy trans area a b (up ph) (dp ph) ph) a b c ==
  - advective fs (fun ph => tpfaDarcy trans area b a (up' ph) (dp' ph) ph) b a c.
Proof. intros. apply advective_antisym. intros ph. apply tpfa_opposite; auto. Qed.
(** The transmissibility does not depend on the side either, and it is the harmonic one. *)
Theorem C42_transmissibility_symmetric : forall normal facePos posA posB permA permB,
  same (transmissibility normal facePos posA posB permA permB)
       (transmissibility (map Qopp normal) facePos posB posA permB permA).
Proof. apply trans_sym. Qed.
Theorem C42_transmissibility_harmonic : forall normal facePos posA posB permA permB x y t,
  half_trans permA normal facePos posA = Some x -> half_trans permB normal facePos posB = Some y ->
  0 < x -> 0 < y -> transmissibility normal facePos posA posB permA permB = Some t ->
  1 / t == 1 / x + 1 / y /\ 0 < t /\ t < x /\ t < y.
Proof.
  intros n f a b Ka Kb x y t X Y PX PY T. unfold transmissibility in T. rewrite X, Y in T.
  apply (harmonic x y t PX PY T).
Qed.

Definition plain (p rho mob z : Q) (i : nat) : cell :=
  mkCell (fun _ => p) (fun _ => rho) (fun _ => mob) (fun _ => 1#3) (fun _ => 1) (fun _ => 1) (fun _ => 1)
    0 0 0 0 0 z 1 i 1 300 1 (fun _ _ => 1) (fun _ => 1) 0 1.
(** If the phase is immobile in both cells, each side names itself as upstream. *)
Theorem C42_same_upstream_cell_refuted :
  ~ (forall g trans a b ph, c_idx a <> c_idx b ->
     (if upInterior (volumeFlux g trans a b ph) then a else b) = (if upInterior (volumeFlux g trans b a ph) then b else a)).
Proof.
  intros H. specialize (H 0 1 (plain 1 1 0 0 0) (plain 2 1 0 0 1) Oil ltac:(discriminate)).
  cbn in H. assert (C : c_idx (plain 1 1 0 0 0) = c_idx (plain 2 1 0 0 1)) by (rewrite H; reflexivity). discriminate.
Qed.
(** Two impermeable cells: the transmissibility is 0/0. *)
Theorem C42_transmissibility_defined_refuted :
  ~ (forall normal facePos posA posB permA permB,
     Forall (fun k => 0 <= k) permA -> Forall (fun k => 0 <= k) permB ->
     ~ dot (minus facePos posA) (minus facePos posA) == 0 -> ~ dot (minus facePos posB) (minus facePos posB) == 0 ->
     exists t, transmissibility normal facePos posA posB permA permB = Some t).
Proof.
  intros H. destruct (H [1] [1#2] [0] [1] [0] [0]) as [t T];
    try (repeat constructor; discriminate); try (intro C; vm_compute in C; discriminate).
Qed.

(** ** C43 *)
(** Convective mixing and heat conduction: always the same from both sides. The distance in depth
    changes its sign. *)
Theorem C43_convective_mixing_antisymmetric : forall fs m distZg trans area a b, ~ area == 0 ->
  (forall c, c = a \/ c = b -> ~ c_visc c (liquid fs) == 0) ->
  fst (mixingFlux fs m distZg trans area a b) == - fst (mixingFlux fs m (- distZg) trans area b a) /\
  snd (mixingFlux fs m distZg trans area a b) == - snd (mixingFlux fs m (- distZg) trans area b a).
Proof. intros. apply mixing_antisym; auto. lra. Qed.
Theorem C43_heat_flux_antisymmetric : forall alphaA alphaB area a b, ~ area == 0 ->
  heatFlux alphaA alphaB area a b == - heatFlux alphaB alphaA area b a.
Proof. apply heat_antisym. Qed.
Theorem C43_heat_flows_from_hot_to_cold : forall alphaA alphaB area a b, 0 < area -> c_T b <= c_T a ->
  0 <= heatFlux alphaA alphaB area a b.
Proof. apply heat_direction. Qed.
(** Diffusion and dispersion: if the conversion factors of the two regions agree (in particular within
    a region). *)
Theorem C43_diffusion_antisymmetric_partial : forall fs diffusivity a b c,
  toFractionGasOil fs (c_region a) == toFractionGasOil fs (c_region b) ->
  toFractionGasWater fs (c_region a) == toFractionGasWater fs (c_region b) ->
  diffusive fs diffusivity a b c == - diffusive fs diffusivity b a c.
Proof. intros fs D a b c H K. apply (diffusive_antisym fs D a b H K c). Qed.
Theorem C43_dispersion_antisymmetric_partial : forall fs dispersivity a b c,
  toMassFractionGasOil fs (c_region a) == toMassFractionGasOil fs (c_region b) ->
  toMassFractionGasWater fs (c_region a) == toMassFractionGasWater fs (c_region b) ->
  dispersive fs dispersivity a b c == - dispersive fs dispersivity b a c.
Proof. intros fs D a b c H K. apply (dispersive_antisym fs D a b H K c). Qed.
(** Across regions with different surface densities mass is created. *)
Definition twoRegions : fluidsys :=
  mkFS (fun _ => true) true false false false
    (fun ph r => match ph, r with Gas, _ => 1 | _, O => 800 | _, _ => 900 end)
    (fun _ _ => 1) true false (fun ph => match ph with Oil => CGas | Gas => COil | Water => CGas end).
Definition withRs (Rs : Q) (region i : nat) : cell :=
  mkCell (fun _ => 1) (fun _ => 1) (fun _ => 1) (fun _ => 1#3) (fun _ => 1) (fun _ => 1) (fun _ => 1)
    Rs 0 0 0 region 0 1 i 1 300 1 (fun _ _ => 1) (fun _ => 1) 0 1.
Theorem C43_diffusion_across_regions_refuted :
  ~ (forall fs diffusivity a b c, diffusive fs diffusivity a b c == - diffusive fs diffusivity b a c).
Proof.
  intros H. specialize (H twoRegions 1 (withRs 100 0 0) (withRs 50 1 1) CGas).
  vm_compute in H. discriminate.
Qed.
Theorem C43_dispersion_across_regions_refuted :
  ~ (forall fs dispersivity a b c, dispersive fs dispersivity a b c == - dispersive fs dispersivity b a c).
Proof.
  intros H. specialize (H twoRegions 1 (withRs 100 0 0) (withRs 50 1 1) CGas).
  vm_compute in H. discriminate.
Qed.

(** ** C67 *)
(** Surface volumes conserved, no gravity between cell centre and face: the rate is what the flux
    takes along from the side it comes from. *)
Theorem C67_free_flow_upstream_partial : forall fs trans zFace g inn bnd c,
  conserveSurfaceVolume fs = true -> (c_z inn - zFace) * g == 0 ->
  0 < trans -> (forall ph, 0 <= c_mob inn ph /\ 0 <= c_mob bnd ph) ->
  let pf := boundaryFlux g trans zFace inn bnd in
  freeFlow fs pf inn bnd c ==
  sumOver (fun ph => if active fs ph then
             let up := if Qltb (vflux (pf ph)) 0 then bnd else inn in
             vflux (pf ph) * c_invB up ph * content fs up ph c
           else 0) phases.
Proof.
  intros fs trans zFace g inn bnd c CS G T M pf. unfold freeFlow, adaptMass. rewrite CS.
  assert (H : forall ph,
    (if Qltb (c_p bnd ph) (c_p inn ph)
     then evalPhaseFluxes fs (c_region inn) ph (c_invB inn ph * vflux (pf ph)) inn (fun _ => 0)
     else if Qltb (c_p inn ph) (c_p bnd ph)
     then evalPhaseFluxes fs (c_region inn) ph (c_invB bnd ph * vflux (pf ph)) bnd (fun _ => 0)
     else (fun _ => 0)) c ==
    let up := if Qltb (vflux (pf ph)) 0 then bnd else inn in vflux (pf ph) * c_invB up ph * content fs up ph c).
  { intros ph.
    assert (E : forall x sv, evalPhaseFluxes fs (c_region inn) ph sv x (fun _ => 0) c == sv * content fs x ph c).
    { intros x sv. unfold evalPhaseFluxes, content, add. rewrite CS.
      destruct (dissolvedGas fs), (dissolvedGasInWater fs), (vaporizedOil fs), (vaporizedWater fs); destruct ph, c; cbn; ring. }
    destruct (M ph) as [MI MB].
    assert (DP : pdiff (pf ph) == c_p bnd ph - c_p inn ph).
    { unfold pf, boundaryFlux. cbn zeta. destruct (Qltb 0 _); cbn [pdiff]; rewrite G; field. }
    assert (VF : (0 < pdiff (pf ph) /\ vflux (pf ph) == pdiff (pf ph) * c_mob bnd ph * - trans) \/
                 (pdiff (pf ph) <= 0 /\ vflux (pf ph) == pdiff (pf ph) * c_mob inn ph * - trans)).
    { unfold pf, boundaryFlux. cbn zeta. destruct (Qltb 0 _) eqn:L; cbn [pdiff vflux].
      - left. apply Qltb_lt in L. split; [exact L|reflexivity].
      - right. apply Qltb_ge in L. split; [exact L|reflexivity]. }
    set (v := vflux (pf ph)) in *. set (d := pdiff (pf ph)) in *. clearbody v d.
    cbn zeta. destruct VF as [[D V]|[D V]].
    - replace (Qltb (c_p bnd ph) (c_p inn ph)) with false by (symmetry; apply Qltb_ge; lra).
      replace (Qltb (c_p inn ph) (c_p bnd ph)) with true by (symmetry; apply Qltb_lt; lra).
      rewrite E. destruct (Qltb v 0) eqn:N; [ring|]. apply Qltb_ge in N.
      assert (A : 0 <= d * c_mob bnd ph) by nra. assert (A' : 0 <= (d * c_mob bnd ph) * trans) by nra.
      assert (Z : v == 0) by lra. rewrite Z. ring.
    - destruct (Qltb (c_p bnd ph) (c_p inn ph)) eqn:L.
      + rewrite E. assert (N : 0 <= v).
        { rewrite V. assert (A : 0 <= (- d) * c_mob inn ph) by nra. assert (A' : 0 <= ((- d) * c_mob inn ph) * trans) by nra. lra. }
        replace (Qltb v 0) with false by (symmetry; apply Qltb_ge; lra). ring.
      + apply Qltb_ge in L. assert (Z : v == 0) by (rewrite V; assert (D0 : d == 0) by lra; rewrite D0; ring).
        replace (Qltb (c_p inn ph) (c_p bnd ph)) with false by (symmetry; apply Qltb_ge; lra).
        replace (Qltb v 0) with false by (symmetry; apply Qltb_ge; lra). rewrite Z. ring. }
  unfold sumOver, phases, qsum. cbn [fold_left map].
  destruct (active fs Water), (active fs Oil), (active fs Gas); cbn beta iota zeta; rewrite ?H; cbn zeta; ring.
Qed.
(** The in- and outflow variants split the free-flow rate into its two directions. *)
Theorem C67_in_and_outflow : forall f c,
  inFlow f c <= 0 /\ 0 <= outFlow f c /\ inFlow f c + outFlow f c == f c /\
  (f c <= 0 -> inFlow f c == f c) /\ (0 <= f c -> outFlow f c == f c).
Proof.
  intros f c. unfold inFlow, outFlow, qmin, qmax.
  destruct (Qltb (f c) 0) eqn:A; destruct (Qltb 0 (f c)) eqn:B;
    try apply Qltb_lt in A; try apply Qltb_ge in A; try apply Qltb_lt in B; try apply Qltb_ge in B; repeat split; intros; lra.
Qed.
(** If mass is conserved instead of surface volume, the reference density is applied twice. *)
Definition massSystem : fluidsys :=
  mkFS (fun ph => match ph with Water => true | _ => false end) false false false false (fun _ _ => 1000) (fun _ _ => 1)
    false false (fun _ => CGas).
Theorem C67_free_flow_mass_refuted :
  ~ (forall fs trans zFace g inn bnd c, (c_z inn - zFace) * g == 0 -> 0 < trans ->
     (forall ph, 0 <= c_mob inn ph /\ 0 <= c_mob bnd ph) ->
     let pf := boundaryFlux g trans zFace inn bnd in
     freeFlow fs pf inn bnd c ==
     sumOver (fun ph => if active fs ph then
                let up := if Qltb (vflux (pf ph)) 0 then bnd else inn in
                vflux (pf ph) * c_invB up ph * content fs up ph c * unitOf fs (c_region inn) c
              else 0) phases).
Proof.
  intros H. specialize (H massSystem 1 0 0 (plain 2 1 1 0 0) (plain 1 1 1 0 0) CWater).
  assert (E : freeFlow massSystem (boundaryFlux 0 1 0 (plain 2 1 1 0 0) (plain 1 1 1 0 0)) (plain 2 1 1 0 0) (plain 1 1 1 0 0) CWater == 1000000)
    by (vm_compute; reflexivity).
  rewrite H in E.
  - vm_compute in E. discriminate.
  - reflexivity.
  - reflexivity.
  - intros ph. split; discriminate.
Qed.
(** With gravity, the side the rate is taken from is chosen by the bare pressures: fluid leaves the
    domain with the composition of the boundary state. *)
Definition gasWater : fluidsys :=
  mkFS (fun ph => match ph with Oil => true | _ => false end) true false false false (fun _ _ => 1) (fun _ _ => 1)
    true false (fun _ => CGas).
Definition bndState : cell :=
  mkCell (fun _ => 3) (fun _ => 1) (fun _ => 1) (fun _ => 1) (fun _ => 1) (fun _ => 1) (fun _ => 1)
    7 0 0 0 0 0 1 0 1 300 1 (fun _ _ => 1) (fun _ => 1) 0 1.
Theorem C67_free_flow_gravity_refuted :
  ~ (forall fs trans zFace g inn bnd c, conserveSurfaceVolume fs = true -> 0 < trans ->
     (forall ph, 0 <= c_mob inn ph /\ 0 <= c_mob bnd ph) ->
     let pf := boundaryFlux g trans zFace inn bnd in
     freeFlow fs pf inn bnd c ==
     sumOver (fun ph => if active fs ph then
                let up := if Qltb (vflux (pf ph)) 0 then bnd else inn in
                vflux (pf ph) * c_invB up ph * content fs up ph c
              else 0) phases).
Proof.
  intros H. specialize (H gasWater 1 1 10 (plain 2 1 1 0 0) bndState CGas eq_refl eq_refl).
  assert (E : vflux (boundaryFlux 10 1 1 (plain 2 1 1 0 0) bndState Oil) == 9) by (vm_compute; reflexivity).
  assert (F : freeFlow gasWater (boundaryFlux 10 1 1 (plain 2 1 1 0 0) bndState) (plain 2 1 1 0 0) bndState CGas == 63) by (vm_compute; reflexivity).
  rewrite H in F.
  - vm_compute in F. discriminate.
  - intros ph. split; discriminate.
Qed.

(** ** Concrete cases *)
(** Three cells in a row of different depth and mobility, a source in the first and a boundary segment
    at the last one. *)
Definition exampleCells (i : nat) : cell :=
  plain (nth i [10; 7; 12] 0) (nth i [2; 1; 3] 0) (nth i [1#2; 1; 2] 1) (nth i [0; 1; 2] 0) i.
Definition exampleData (i : nat) : dof :=
  mkDof i (nth i [1; 2; 3] 1) (nth i [1; 2; 3] 1) (nth i [1; 1#2; 2] 1) (nth i [1; 1#2; 2] 1) (nth i [5; 6; 7] 0) (nth i [4; 6; 8] 0) (nth i [1; 0; 0] 0).
Definition exampleBnd (i : nat) : list bface := if (i =? 2)%nat then [mkBface 0 3 (1#3)] else [].
Definition exampleConns : list connection := [mkConn 0 1 2 (1#2); mkConn 2 1 1 3].
Definition exampleGrid : list element :=
  map (gridElement gasWater 10 COil exampleCells exampleData exampleBnd exampleConns) (seq 0 3).
Example ex_grid_flux : ~ amount (nth 0 exampleGrid stretching) (nth 0 (e_faces (nth 0 exampleGrid stretching)) (mkFace 0 0 0 0)) == 0.
Proof. vm_compute. discriminate. Qed.
Example ex_grid_balance : sumOver (globalResidual false 2 exampleGrid) (seq 0 3) == balance 2 exampleGrid /\ ~ balance 2 exampleGrid == 0.
Proof. split; vm_compute; [reflexivity|discriminate]. Qed.
Example ex_grid_hyps :
  (forall i, d_global (exampleData i) = i) /\ (forall i j, c_idx (exampleCells i) = c_idx (exampleCells j) -> i = j) /\
  (forall i, Forall (fun b => b_dof b = 0%nat) (exampleBnd i)) /\
  Forall (fun k => (k_a k < 3)%nat /\ (k_b k < 3)%nat /\ k_a k <> k_b k) exampleConns.
Proof.
  split; [reflexivity|]. split; [intros i j H; exact H|]. split.
  - intros i. unfold exampleBnd. destruct (i =? 2)%nat; auto.
  - unfold exampleConns. constructor; [cbn; lia|constructor; [cbn; lia|constructor]].
Qed.
(** A vertex-centred element with three degrees of freedom. *)
Definition triangle : element :=
  mkElem [mkDof 4 1 2 1 1 3 2 0; mkDof 1 2 3 1 1 1 2 1; mkDof 0 1 1 2 2 1 1 0] 3
    [mkFace 0 1 2 5; mkFace 1 2 1 (-3); mkFace 2 0 (1#2) 7] [mkBface 1 2 (1#4)].
Example ex_triangle : wellFormed triangle /\ vertexCentred triangle /\ Forall (fun d => (d_global d < 5)%nat) (primaries triangle).
Proof.
  unfold wellFormed, vertexCentred, triangle, primaries; cbn. repeat split; auto; try lia;
    repeat constructor; cbn; lia.
Qed.
(** A converged step: what flows out was stored before. *)
Definition drained : element := mkElem [mkDof 0 2 2 1 1 3 5 0; mkDof 1 1 1 1 1 3 4 1] 2 [mkFace 0 1 1 4] [mkBface 1 2 3].
Example ex_drained : (forall i, (i < 2)%nat -> globalResidual false 1 [drained] i == 0).
Proof. intros i H. destruct i as [|[|i]]; [vm_compute; reflexivity|vm_compute; reflexivity|lia]. Qed.
Example ex_hydrostatic : potential 2 10 (plain 10 2 1 0 0) Oil == potential 2 10 (plain 30 2 1 1 1) Oil.
Proof. vm_compute. reflexivity. Qed.
Example ex_trans : same (transmissibility [0; -1] [1; 1] [1; 0] [1; 3] [9; 4] [9; 8]) (Some 2).
Proof. vm_compute. reflexivity. Qed.
Example ex_diffusion : ~ diffusive twoRegions 1 (withRs 100 0 0) (withRs 50 0 1) CGas == 0.
Proof. vm_compute. discriminate. Qed.
Example ex_mixing : ~ fst (mixingFlux twoRegions (mkMix (fun _ => true) (fun _ => 1) (fun _ => 2)) (-5) 1 1
   (mkCell (fun _ => 1) (fun _ => 1) (fun _ => 1) (fun _ => 1) (fun _ => 1) (fun _ => 1) (fun _ => 1) 3 3 3 3 0 0 1 0 1 300 1 (fun _ _ => 1) (fun _ => 1) 4 (6#5)) (withRs 2 1 1)) == 0.
Proof. vm_compute. discriminate. Qed.
Example ex_heat : heatFlux 2 1 1 (plain 1 1 1 0 0) (plain 1 1 1 0 1) == 0.
Proof. vm_compute. reflexivity. Qed.
Example ex_free_flow : freeFlow gasWater (boundaryFlux 0 1 1 (plain 2 1 1 0 0) bndState) (plain 2 1 1 0 0) bndState CGas == -7.
Proof. vm_compute. reflexivity. Qed.

Print Assumptions C41_interior_fluxes_cancel.
Print Assumptions C41_vertex_centred_balance.
Print Assumptions C41_volumetric_balance.
Print Assumptions C41_cell_centred_balance.
Print Assumptions C41_transmissibility_scheme_conserves.
Print Assumptions C41_check_exact.
Print Assumptions C41_converged_step_passes_check.
Print Assumptions C41_check_with_changing_extrusion_refuted.
Print Assumptions C42_volume_flux_antisymmetric.
Print Assumptions C42_same_upstream_cell_partial.
Print Assumptions C42_flux_follows_potential.
Print Assumptions C42_component_flux_antisymmetric.
Print Assumptions C42_enthalpy_flux_antisymmetric.
Print Assumptions C42_component_flux_composition.
Print Assumptions C42_tpfa_flux_antisymmetric.
Print Assumptions C42_transmissibility_symmetric.
Print Assumptions C42_transmissibility_harmonic.
Print Assumptions C42_same_upstream_cell_refuted.
Print Assumptions C42_transmissibility_defined_refuted.
Print Assumptions C43_convective_mixing_antisymmetric.
Print Assumptions C43_heat_flux_antisymmetric.
Print Assumptions C43_heat_flows_from_hot_to_cold.
Print Assumptions C43_diffusion_antisymmetric_partial.
Print Assumptions C43_dispersion_antisymmetric_partial.
Print Assumptions C43_diffusion_across_regions_refuted.
Print Assumptions C43_dispersion_across_regions_refuted.
Print Assumptions C67_free_flow_upstream_partial.
Print Assumptions C67_in_and_outflow.
Print Assumptions C67_free_flow_mass_refuted.
Print Assumptions C67_free_flow_gravity_refuted.
