(** Properties C71 (Darcy fluxes), C72 (approximated values and gradients) and C67 (free-flow boundaries of the
    models other than the black-oil model). *)
From Verif Require Import DarcyModel DarcySpec DarcyProofs.

(** ** C71 *)
(** The flux of a phase for a permeability without preferred direction: the Darcy law between the pressures
    which both sides have at the face when at rest, with the mobility of the side of higher potential. *)
Theorem C71_darcy_law : forall mean gravity dim n x s t a k,
  scalarMatrix dim k (facePerm mean s t) -> 0 < inner dim (fromTo (p_pos s) (p_pos t)) n ->
  let drop := restPressure gravity dim x s a - restPressure gravity dim x t a in
  darcyFlux mean gravity dim n x s t a ==
  (if Qltb drop 0 then p_mob t a else p_mob s a) * k * drop *
  (inner dim (fromTo (p_pos s) (p_pos t)) n / inner dim (fromTo (p_pos s) (p_pos t)) (fromTo (p_pos s) (p_pos t))).
Proof.
  intros mean gravity dim n x s t a k S D drop. rewrite darcy_eq, (bilinear_scalar dim k _ n _ S), up_eq.
  set (d := fromTo (p_pos s) (p_pos t)) in *. assert (N : 0 < inner dim d d) by (apply (square_pos dim d n); lra).
  replace (Qltb drop 0) with (Qltb 0 (inner dim d n * ((restPressure gravity dim x t a - restPressure gravity dim x s a) / inner dim d d))).
  - destruct (Qltb 0 _); cbn [negb]; unfold drop; field; lra.
  - assert (E : inner dim d n * ((restPressure gravity dim x t a - restPressure gravity dim x s a) / inner dim d d) == (inner dim d n / inner dim d d) * (- drop))
      by (unfold drop; field; lra).
    assert (W : 0 < inner dim d n / inner dim d d) by (unfold Qdiv; assert (0 < / inner dim d d) by (apply Qinv_lt_0_compat; exact N); nra).
    set (w := inner dim d n / inner dim d d) in *. clearbody drop. clearbody w.
    rewrite (qltb_eq 0 _ 0 (w * - drop) (Qeq_refl 0) E).
    destruct (Qltb 0 (w * - drop)) eqn:A, (Qltb drop 0) eqn:B; try reflexivity.
    + apply Qltb_lt in A. apply Qltb_ge in B. nra.
    + apply Qltb_ge in A. apply Qltb_lt in B. nra.
Qed.
(** Nothing flows if both sides agree about the pressure at the face: the fluids are at rest (for every
    permeability tensor). *)
Theorem C71_no_flux_at_rest : forall mean gravity dim n x s t a,
  restPressure gravity dim x s a == restPressure gravity dim x t a -> darcyFlux mean gravity dim n x s t a == 0.
Proof. exact rest_no_flux. Qed.
(** What leaves one side enters the other one: for every tensor unless the connection of the centres or the
    driving force is orthogonal to the normal, and always for permeabilities without preferred direction. *)
Theorem C71_flux_from_both_sides_partial : forall mean gravity dim n x s t a, symmetricMean mean ->
  (~ inner dim (fromTo (p_pos s) (p_pos t)) n * (restPressure gravity dim x t a - restPressure gravity dim x s a) == 0
   \/ exists k, scalarMatrix dim k (facePerm mean s t)) ->
  ~ inner dim (fromTo (p_pos s) (p_pos t)) (fromTo (p_pos s) (p_pos t)) == 0 ->
  darcyFlux mean gravity dim (opposite n) x t s a == - darcyFlux mean gravity dim n x s t a.
Proof. exact opposite_flux. Qed.

Definition plane (x y : Q) : vec := fun k => match k with O => x | 1%nat => y | _ => 0 end.
Definition tensor (p q r : Q) : mat := fun i j => match i, j with O, O => p | 1%nat, 1%nat => r | O, 1%nat | 1%nat, O => q | _, _ => 0 end.
Definition takeMean (x y : Q) : Q := (x + y) / 2.
Definition place (x y : Q) (K : mat) (p m : Q) : point :=
  mkPoint (plane x y) (plane 0 (-10)) K (fun _ => p) (fun _ => 1) (fun _ => m).
Definition positiveDefinite (dim : nat) (K : mat) : Prop :=
  (forall i j, K i j == K j i) /\ forall d, (exists k, (k < dim)%nat /\ ~ d k == 0) -> 0 < bilinear dim d K d.

(** A full permeability tensor: the flux is not the same seen from both sides if the line between the centres
    is parallel to the face. *)
Theorem C71_flux_from_both_sides_refuted :
  ~ (forall mean gravity dim n x s t a, symmetricMean mean ->
     positiveDefinite dim (facePerm mean s t) ->
     ~ inner dim (fromTo (p_pos s) (p_pos t)) (fromTo (p_pos s) (p_pos t)) == 0 ->
     darcyFlux mean gravity dim (opposite n) x t s a == - darcyFlux mean gravity dim n x s t a).
Proof.
  intros H.
  specialize (H takeMean false 2%nat (plane 0 1) (plane 0 0) (place (-1) 0 (tensor 2 1 2) 1 1) (place 1 0 (tensor 2 1 2) 3 5) 0%nat).
  assert (B : darcyFlux takeMean false 2 (opposite (plane 0 1)) (plane 0 0) (place 1 0 (tensor 2 1 2) 3 5) (place (-1) 0 (tensor 2 1 2) 1 1) 0 == 5) by (vm_compute; reflexivity).
  assert (C : darcyFlux takeMean false 2 (plane 0 1) (plane 0 0) (place (-1) 0 (tensor 2 1 2) 1 1) (place 1 0 (tensor 2 1 2) 3 5) 0 == - (1)) by (vm_compute; reflexivity).
  rewrite B, C in H.
  assert (F : 5 == - - (1)); [|vm_compute in F; discriminate F].
  apply H.
  - intros p q. unfold takeMean. field.
  - split.
    + intros i j. destruct i as [|[|i]], j as [|[|j]]; reflexivity.
    + intros d [k [L Z]]. unfold bilinear, inner, facePerm, place, sumOver, qsum, takeMean, tensor. cbn [seq map p_perm].
      assert (G : d 0%nat * (((2 + 2) / 2 * d 0%nat + ((1 + 1) / 2 * d 1%nat + 0))) + (d 1%nat * ((1 + 1) / 2 * d 0%nat + ((2 + 2) / 2 * d 1%nat + 0)) + 0)
                  == d 0%nat * d 0%nat + d 1%nat * d 1%nat + (d 0%nat + d 1%nat) * (d 0%nat + d 1%nat)) by field.
      rewrite G. clear G. destruct k as [|[|k]]; [| |lia].
      * assert (0 < d 0%nat * d 0%nat) by (destruct (Qlt_le_dec 0 (d 0%nat)); [nra|apply Qle_lteq in q; destruct q; [nra|contradiction]]). nra.
      * assert (0 < d 1%nat * d 1%nat) by (destruct (Qlt_le_dec 0 (d 1%nat)); [nra|apply Qle_lteq in q; destruct q; [nra|contradiction]]). nra.
  - vm_compute. discriminate.
Qed.
(** The side which is treated as upstream is the one the phase comes from, for permeabilities without
    preferred direction. *)
Theorem C71_upstream_side_partial : forall mean gravity dim n x s t a k,
  scalarMatrix dim k (facePerm mean s t) -> 0 < k -> 0 <= p_mob s a -> 0 <= p_mob t a ->
  let v := darcyFlux mean gravity dim n x s t a in
  (0 < v -> darcyUpstream gravity dim n x s t a = true) /\ (v < 0 -> darcyUpstream gravity dim n x s t a = false).
Proof.
  intros mean gravity dim n x s t a k S K MS MT v.
  assert (E := darcy_eq mean gravity dim n x s t a). fold v in E. rewrite (bilinear_scalar dim k _ n _ S) in E. rewrite up_eq in *.
  set (d := fromTo (p_pos s) (p_pos t)) in *.
  assert (E' : v == - (if negb (Qltb 0 (inner dim d n * ((restPressure gravity dim x t a - restPressure gravity dim x s a) / inner dim d d))) then p_mob s a else p_mob t a)
     * k * (inner dim d n * ((restPressure gravity dim x t a - restPressure gravity dim x s a) / inner dim d d))) by (rewrite E; ring).
  clear E. set (w := inner dim d n * ((restPressure gravity dim x t a - restPressure gravity dim x s a) / inner dim d d)) in *.
  clearbody w v. destruct (Qltb 0 w) eqn:L; cbn [negb] in *.
  - apply Qltb_lt in L. split; intros V; [|reflexivity]. exfalso. assert (0 <= p_mob t a * k) by nra. nra.
  - apply Qltb_ge in L. split; intros V; [reflexivity|]. exfalso. assert (0 <= p_mob s a * k) by nra. nra.
Qed.
(** With a full tensor, the phase can leave the interior side although the exterior one is taken for upstream:
    the direction is decided by the gradient without the tensor. *)
Theorem C71_upstream_side_refuted :
  ~ (forall mean gravity dim n x s t a,
     positiveDefinite dim (facePerm mean s t) -> 0 <= p_mob s a -> 0 <= p_mob t a ->
     0 < darcyFlux mean gravity dim n x s t a -> darcyUpstream gravity dim n x s t a = true).
Proof.
  intros H.
  specialize (H takeMean false 2%nat (plane 1 (-3)) (plane 0 0) (place (-1) 0 (tensor 2 1 2) 1 1) (place 1 0 (tensor 2 1 2) 3 5) 0%nat).
  assert (F : darcyUpstream false 2 (plane 1 (-3)) (plane 0 0) (place (-1) 0 (tensor 2 1 2) 1 1) (place 1 0 (tensor 2 1 2) 3 5) 0 = false) by (vm_compute; reflexivity).
  rewrite F in H.
  assert (G : false = true); [|discriminate G].
  apply H.
  - split.
    + intros i j. destruct i as [|[|i]], j as [|[|j]]; reflexivity.
    + intros d [k [L Z]]. unfold bilinear, inner, facePerm, place, sumOver, qsum, takeMean, tensor. cbn [seq map p_perm].
      assert (G : d 0%nat * (((2 + 2) / 2 * d 0%nat + ((1 + 1) / 2 * d 1%nat + 0))) + (d 1%nat * ((1 + 1) / 2 * d 0%nat + ((2 + 2) / 2 * d 1%nat + 0)) + 0)
                  == d 0%nat * d 0%nat + d 1%nat * d 1%nat + (d 0%nat + d 1%nat) * (d 0%nat + d 1%nat)) by field.
      rewrite G. clear G. destruct k as [|[|k]]; [| |lia].
      * assert (0 < d 0%nat * d 0%nat) by (destruct (Qlt_le_dec 0 (d 0%nat)); [nra|apply Qle_lteq in q; destruct q; [nra|contradiction]]). nra.
      * assert (0 < d 1%nat * d 1%nat) by (destruct (Qlt_le_dec 0 (d 1%nat)); [nra|apply Qle_lteq in q; destruct q; [nra|contradiction]]). nra.
  - discriminate.
  - discriminate.
  - vm_compute. reflexivity.
Qed.
(** The same law at the boundary of the domain: between the prescribed pressure and the one which the fluid of
    the interior has at the face when at rest. *)
Theorem C71_darcy_law_at_the_boundary : forall gravity dim n x s pB mobB a k,
  scalarMatrix dim k (p_perm s) -> 0 < inner dim (fromTo (p_pos s) x) n ->
  let drop := restPressure gravity dim x s a - pB in
  darcyBoundaryFlux gravity dim n x s pB mobB a ==
  (if Qltb drop 0 then mobB else p_mob s a) * k * drop *
  (inner dim (fromTo (p_pos s) x) n / inner dim (fromTo (p_pos s) x) (fromTo (p_pos s) x)).
Proof.
  intros gravity dim n x s pB mobB a k S D drop. rewrite boundary_eq, (bilinear_scalar dim k _ n _ S), boundary_up.
  set (d := fromTo (p_pos s) x) in *. assert (N : 0 < inner dim d d) by (apply (square_pos dim d n); lra).
  replace (Qltb drop 0) with (Qltb 0 (inner dim d n * ((pB - restPressure gravity dim x s a) / inner dim d d))).
  - destruct (Qltb 0 _); cbn [negb]; unfold drop; field; lra.
  - assert (E : inner dim d n * ((pB - restPressure gravity dim x s a) / inner dim d d) == (inner dim d n / inner dim d d) * (- drop))
      by (unfold drop; field; lra).
    assert (W : 0 < inner dim d n / inner dim d d) by (unfold Qdiv; assert (0 < / inner dim d d) by (apply Qinv_lt_0_compat; exact N); nra).
    set (w := inner dim d n / inner dim d d) in *. clearbody drop. clearbody w.
    rewrite (qltb_eq 0 _ 0 (w * - drop) (Qeq_refl 0) E).
    destruct (Qltb 0 (w * - drop)) eqn:A, (Qltb drop 0) eqn:B; try reflexivity.
    + apply Qltb_lt in A. apply Qltb_ge in B. nra.
    + apply Qltb_ge in A. apply Qltb_lt in B. nra.
Qed.

(** ** C72 *)
(** Two-point gradients of an affine quantity are exact in the direction between the two points. *)
Theorem C72_two_point_gradient : forall dim x y c G,
  ~ inner dim (fromTo x y) (fromTo x y) == 0 ->
  inner dim (gradient dim x y (affine dim c G x) (affine dim c G y)) (fromTo x y) == inner dim G (fromTo x y) /\
  inner dim (boundaryGradient dim x y (affine dim c G x) (affine dim c G y)) (fromTo x y) == inner dim G (fromTo x y) /\
  (forall w, inner dim (fromTo x y) w == 0 -> inner dim (gradient dim x y (affine dim c G x) (affine dim c G y)) w == 0).
Proof.
  intros dim x y c G N. split; [|split].
  - rewrite gradient_along by exact N. apply affine_difference.
  - change (inner dim (gradient dim x y (affine dim c G x) (affine dim c G y)) (fromTo x y) == inner dim G (fromTo x y)).
    rewrite gradient_along by exact N. apply affine_difference.
  - intros w Z. rewrite (inner_scale dim _ w (fromTo x y) w ((affine dim c G y - affine dim c G x) / inner dim (fromTo x y) (fromTo x y))).
    + rewrite Z. ring.
    + intros k _. rewrite gradient_eq. unfold Qdiv. ring.
Qed.
(** Values at a face half way between the two points are exact. *)
Theorem C72_value_half_way_partial : forall root dim n x y z c G,
  let d := fst (distances root dim n x y z) in
  snd (distances root dim n x y z) == d -> ~ d == 0 ->
  (forall k, (k < dim)%nat -> y k + z k == 2 * x k) ->
  scalarValue root dim n x y z (affine dim c G y) (affine dim c G z) == affine dim c G x.
Proof. exact equidistant. Qed.
(** At other faces they are not: the nearer point gets the smaller weight. *)
Theorem C72_value_at_the_face_refuted :
  ~ (forall root dim n x y z c G, (forall q, 0 <= q -> 0 <= root q) ->
     root (Qabs (inner dim (fromTo x y) n)) * root (Qabs (inner dim (fromTo x y) n)) == Qabs (inner dim (fromTo x y) n) ->
     root (Qabs (inner dim (fromTo x z) n)) * root (Qabs (inner dim (fromTo x z) n)) == Qabs (inner dim (fromTo x z) n) ->
     (exists s, 0 < s /\ s < 1 /\ forall k, x k == y k + s * (z k - y k)) ->
     ~ fst (distances root dim n x y z) + snd (distances root dim n x y z) == 0 ->
     scalarValue root dim n x y z (affine dim c G y) (affine dim c G z) == affine dim c G x).
Proof.
  intros H.
  assert (V : forall root, scalarValue root 1 (plane 1 0) (plane 0 0) (plane (-1) 0) (plane 4 0)
                (affine 1 0 (plane 1 0) (plane (-1) 0)) (affine 1 0 (plane 1 0) (plane 4 0)) ==
              (- root 1 + 4 * root 4) / (root 1 + root 4)).
  { intros root. unfold scalarValue, distances. cbv [fst snd].
    replace (Qabs (fold_left (fun (s : Q) (k : nat) => s + (plane (-1) 0 k - plane 0 0 k) * plane 1 0 k) (seq 0 1) 0)) with 1 by (vm_compute; reflexivity).
    replace (Qabs (fold_left (fun (s : Q) (k : nat) => s + (plane 4 0 k - plane 0 0 k) * plane 1 0 k) (seq 0 1) 0)) with 4 by (vm_compute; reflexivity).
    assert (A1 : affine 1 0 (plane 1 0) (plane (-1) 0) == -1) by (vm_compute; reflexivity).
    assert (A2 : affine 1 0 (plane 1 0) (plane 4 0) == 4) by (vm_compute; reflexivity).
    rewrite A1, A2. unfold Qdiv. ring. }
  (* a function which is a square root where it is used *)
  specialize (H (fun q => if Qeq_bool q 4 then 2 else q) 1%nat (plane 1 0) (plane 0 0) (plane (-1) 0) (plane 4 0) 0 (plane 1 0)).
  rewrite V in H.
  assert (Z : affine 1 0 (plane 1 0) (plane 0 0) == 0) by (vm_compute; reflexivity). rewrite Z in H.
  assert (F : (- (1) + 4 * 2) / (1 + 2) == 0); [|vm_compute in F; discriminate F].
  change (Qeq_bool 1 4) with false in H. change (Qeq_bool 4 4) with true in H. cbv iota in H. apply H.
  - intros q P. destruct (Qeq_bool q 4); [discriminate|exact P].
  - vm_compute. reflexivity.
  - vm_compute. reflexivity.
  - exists (1 # 5). split; [reflexivity|]. split; [reflexivity|]. intros k. destruct k as [|[|k]]; reflexivity.
  - vm_compute. discriminate.
Qed.
(** The finite element approximations are exact for affine quantities. *)
Theorem C72_finite_element_values_and_gradients : forall dim vertices corner x shape jacInvT local c G,
  (shapeValues dim vertices corner x shape ->
   p1Value vertices shape (fun v => affine dim c G (corner v)) == affine dim c G x) /\
  (shapeGradients dim vertices corner jacInvT local -> forall k, (k < dim)%nat ->
   p1Gradient dim vertices jacInvT local (fun v => affine dim c G (corner v)) k == G k).
Proof.
  intros. split.
  - apply p1_value.
  - intros H k L. apply p1_gradient; assumption.
Qed.

(** ** C67, models other than the black-oil model *)
(** Without gravity every phase takes along what the side holds it comes from: mass, moles and energy. *)
Theorem C67_free_flow_of_the_other_models_partial : forall dim n x s k mobB phases inside bnd,
  scalarMatrix dim k (p_perm s) -> 0 <= k -> (forall a, 0 <= p_mob s a /\ 0 <= mobB a) ->
  0 < inner dim (fromTo (p_pos s) x) n -> holds s inside ->
  let vf a := darcyBoundaryFlux false dim n x s (f_press bnd a) (mobB a) a in
  (forall c, freeFlowRate PhaseMass phases vf inside bnd c == upstreamRate (fun f a => if (c =? a)%nat then f_rho f a else 0) phases vf inside bnd) /\
  (forall c, freeFlowRate Moles phases vf inside bnd c == upstreamRate (fun f a => f_molarity f a c) phases vf inside bnd) /\
  freeFlowEnergy phases vf inside bnd == upstreamRate (fun f a => f_rho f a * f_h f a) phases vf inside bnd /\
  forall liquid, richardsFreeFlow liquid vf inside bnd == vf liquid * f_rho (if Qltb (vf liquid) 0 then bnd else inside) liquid.
Proof.
  intros dim n x s k mobB phases inside bnd S K M D P vf.
  assert (H : forall a, (f_press inside a < f_press bnd a -> vf a <= 0) /\ (f_press bnd a <= f_press inside a -> 0 <= vf a)).
  { intros a. destruct (M a) as [MS MB]. destruct (boundary_sign dim n x s k (f_press bnd a) (mobB a) a S K MS MB D) as [A B].
    split; intros L; [apply A|apply B]; rewrite (P a); exact L. }
  split; [|split; [|split]].
  - intros c. rewrite rate_eq. apply (upstream_rate_eq (fun f a => if (c =? a)%nat then f_rho f a else 0)). intros a _. apply H.
  - intros c. rewrite rate_eq. apply (upstream_rate_eq (fun f a => f_molarity f a c)). intros a _. apply H.
  - rewrite energy_eq. rewrite <- (upstream_rate_eq (fun f a => f_rho f a * f_h f a)); [|intros a _; apply H].
    apply ResidualProofs.sumOver_ext. intros a _. ring.
  - intros l. unfold richardsFreeFlow. destruct (H l) as [A B].
    destruct (Qltb (f_press inside l) (f_press bnd l)) eqn:E.
    + apply Qltb_lt in E. specialize (A E). destruct (Qltb (vf l) 0) eqn:V; [reflexivity|].
      apply Qltb_ge in V. assert (Z : vf l == 0) by lra. rewrite Z. ring.
    + apply Qltb_ge in E. specialize (B E). replace (Qltb (vf l) 0) with false by (symmetry; apply Qltb_ge; exact B). reflexivity.
Qed.
(** With gravity the side is chosen by the bare pressures: fluid which leaves the domain is accounted for with the
    composition of the boundary state. *)
Definition below : point := mkPoint (plane 0 0) (plane 0 (-10)) (tensor 1 0 1) (fun _ => 2) (fun _ => 1) (fun _ => 1).
Theorem C67_free_flow_of_the_other_models_refuted :
  ~ (forall gravity dim n x s k mobB phases inside bnd c,
     scalarMatrix dim k (p_perm s) -> 0 <= k -> (forall a, 0 <= p_mob s a /\ 0 <= mobB a) ->
     0 < inner dim (fromTo (p_pos s) x) n -> holds s inside ->
     let vf a := darcyBoundaryFlux gravity dim n x s (f_press bnd a) (mobB a) a in
     freeFlowRate Moles phases vf inside bnd c == upstreamRate (fun f a => f_molarity f a c) phases vf inside bnd).
Proof.
  intros H.
  specialize (H true 2%nat (plane 0 (-1)) (plane 0 (-1)) below 1 (fun _ => 1) 1%nat
                (mkFluid (fun _ => 2) (fun _ => 1) (fun _ => 1) (fun _ _ => 3)) (mkFluid (fun _ => 3) (fun _ => 1) (fun _ => 1) (fun _ _ => 7)) 0%nat).
  cbv zeta in H.
  assert (F : freeFlowRate Moles 1 (fun a => darcyBoundaryFlux true 2 (plane 0 (-1)) (plane 0 (-1)) below 3 1 a)
     (mkFluid (fun _ => 2) (fun _ => 1) (fun _ => 1) (fun _ _ => 3)) (mkFluid (fun _ => 3) (fun _ => 1) (fun _ => 1) (fun _ _ => 7)) 0 == 63) by (vm_compute; reflexivity).
  cbn [f_press] in H. rewrite H in F.
  - vm_compute in F. discriminate F.
  - intros r c Lr Lc. destruct r as [|[|r]], c as [|[|c]]; try lia; reflexivity.
  - discriminate.
  - intros a. split; discriminate.
  - vm_compute. reflexivity.
  - intros a. reflexivity.
Qed.
(** In- and outflow conditions split the rate into its two directions. *)
Theorem C67_in_and_outflow_of_the_other_models : forall rate e,
  inFlowRate rate e <= 0 /\ 0 <= outFlowRate rate e /\ inFlowRate rate e + outFlowRate rate e == rate e.
Proof.
  intros rate e. unfold inFlowRate, outFlowRate.
  destruct (Qltb (rate e) 0) eqn:A, (Qltb 0 (rate e)) eqn:B;
    try apply Qltb_lt in A; try apply Qltb_ge in A; try apply Qltb_lt in B; try apply Qltb_ge in B; repeat split; lra.
Qed.

(** ** Concrete cases *)
(** Two cells above each other at rest: the weight of the fluid balances the pressures. *)
Definition lower : point := mkPoint (plane 0 0) (plane 0 (-10)) (tensor 3 0 3) (fun _ => 100) (fun _ => 2) (fun _ => 1).
Definition upper (p : Q) : point := mkPoint (plane 0 4) (plane 0 (-10)) (tensor 3 0 3) (fun _ => p) (fun _ => 2) (fun _ => 5).
Example column_at_rest : restPressure true 2 (plane 0 1) lower 0 == restPressure true 2 (plane 0 1) (upper 20) 0 /\
  darcyFlux takeMean true 2 (plane 0 1) (plane 0 1) lower (upper 20) 0 == 0.
Proof. split; vm_compute; reflexivity. Qed.
Example column_meets_the_hypotheses :
  scalarMatrix 2 3 (facePerm takeMean lower (upper 12)) /\ 0 < inner 2 (fromTo (p_pos lower) (p_pos (upper 12))) (plane 0 1) /\
  darcyFlux takeMean true 2 (plane 0 1) (plane 0 1) lower (upper 12) 0 == 6 /\
  darcyFlux takeMean true 2 (opposite (plane 0 1)) (plane 0 1) (upper 12) lower 0 == - (6) /\
  darcyFlux takeMean true 2 (plane 0 1) (plane 0 1) lower (upper 24) 0 == - (15).
Proof.
  split.
  - intros r c Lr Lc. destruct r as [|[|r]], c as [|[|c]]; try lia; vm_compute; reflexivity.
  - repeat split; vm_compute; reflexivity.
Qed.
(** The linear shape functions of a triangle with the corners (1,1), (3,1) and (1,5), at the image of the local
    point (1/4, 1/2). *)
Definition corners (v : nat) : vec := match v with O => plane 1 1 | 1%nat => plane 3 1 | _ => plane 1 5 end.
Definition triangleShape (v : nat) : Q := match v with O => 1 # 4 | 1%nat => 1 # 4 | _ => 1 # 2 end.
Definition triangleGrad (v : nat) : vec := match v with O => plane (-1) (-1) | 1%nat => plane 1 0 | _ => plane 0 1 end.
Example triangle_shape_functions :
  shapeValues 2 3 corners (plane (3 # 2) 3) triangleShape /\ shapeGradients 2 3 corners (tensor (1 # 2) 0 (1 # 4)) triangleGrad.
Proof.
  split; split.
  - vm_compute; reflexivity.
  - intros k L. destruct k as [|[|k]]; [| |lia]; vm_compute; reflexivity.
  - intros k L. destruct k as [|[|k]]; [| |lia]; vm_compute; reflexivity.
  - intros k l L M. destruct k as [|[|k]], l as [|[|l]]; try lia; vm_compute; reflexivity.
Qed.
Example half_way : scalarValue (fun q => q) 1 (plane 1 0) (plane 2 0) (plane 1 0) (plane 3 0) 10 20 == 15.
Proof. vm_compute; reflexivity. Qed.
(** A boundary with in- and outflow of two phases. *)
Example boundary_without_gravity :
  let inside := mkFluid (fun a => match a with O => 5 | _ => 1 end) (fun _ => 10) (fun _ => 1) (fun a c => match c with O => 2 | _ => 3 end) in
  let bnd := mkFluid (fun a => 3) (fun _ => 20) (fun _ => 1) (fun a c => match c with O => 4 | _ => 7 end) in
  let s := mkPoint (plane 0 0) (plane 0 0) (tensor 1 0 1) (f_press inside) (f_rho inside) (fun _ => 1) in
  let vf a := darcyBoundaryFlux false 2 (plane 1 0) (plane 1 0) s (f_press bnd a) 1 a in
  freeFlowRate Moles 2 vf inside bnd 0 == - (4) /\ freeFlowRate PhaseMass 2 vf inside bnd 1 == - (40).
Proof. split; vm_compute; reflexivity. Qed.

Print Assumptions C71_darcy_law.
Print Assumptions C71_no_flux_at_rest.
Print Assumptions C71_flux_from_both_sides_partial.
Print Assumptions C71_flux_from_both_sides_refuted.
Print Assumptions C71_upstream_side_partial.
Print Assumptions C71_upstream_side_refuted.
Print Assumptions C71_darcy_law_at_the_boundary.
Print Assumptions C72_two_point_gradient.
Print Assumptions C72_value_half_way_partial.
Print Assumptions C72_value_at_the_face_refuted.
Print Assumptions C72_finite_element_values_and_gradients.
Print Assumptions C67_free_flow_of_the_other_models_partial.
Print Assumptions C67_free_flow_of_the_other_models_refuted.
Print Assumptions C67_in_and_outflow_of_the_other_models.
