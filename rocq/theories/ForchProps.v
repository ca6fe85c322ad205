(** Forchheimer's relation: C95 (the velocity), C96 (the iteration in one dimension), C97
    (faces between control volumes and at the boundary). *)
From Coq Require Import Reals Lra Lia Psatz List.
From Verif Require Import ForchModel ForchSpec ForchProofs ForchLine.
Import ListNotations.
Local Open Scope R_scope.

(* ----- C95 ----- *)

(** The equation that is solved is the one of the manual: with the ratio of mobility and
    passability that its name says, and with the default ratio if the passability is the
    relative permeability. *)
Theorem C95_documented_equation : forall n p eta v,
  physical n p -> 0 < p_mob p -> 0 < eta -> p_ratio p = p_mob p / eta ->
  (forchheimerEquation n (p_mob p) (p_dens p) (p_ergun p) eta (p_K p) (p_grad p) v <-> forall i, (i < n)%nat -> resid n p v i = 0) /\
  forall kr mu, 0 < kr -> 0 < mu -> defaultRatio mu = (kr / mu) / kr.
Proof.
  intros n p eta v PH M E RT. split.
  - split.
    + intros H i l. specialize (H i l). rewrite resid_eq. unfold turb. rewrite RT, H.
      destruct PH as (_ & _ & _ & _ & K). specialize (K i l). pose proof (sqrt_lt_R0 _ K) as S.
      set (s := sqrt (p_K p i)) in *. assert (KS : p_K p i = s * s) by (unfold s; rewrite sqrt_def; lra).
      rewrite KS. field. repeat split; lra.
    + intros H i l. specialize (H i l). rewrite resid_eq in H. unfold turb in H. rewrite RT in H.
      destruct PH as (_ & _ & _ & _ & K). specialize (K i l). pose proof (sqrt_lt_R0 _ K) as S. set (s := sqrt (p_K p i)) in *.
      assert (KS : p_K p i = s * s) by (unfold s; rewrite sqrt_def; lra). rewrite KS in *.
      apply Rmult_eq_reg_l with (p_mob p * (s * s)); [|apply Rgt_not_eq; apply Rmult_lt_0_compat; [exact M|nra]].
      transitivity (- v i - p_dens p * (p_mob p / eta) * p_ergun p * s * norm n v * v i); [lra|field; repeat split; lra].
  - intros kr mu A B. unfold defaultRatio. field. split; lra.
Qed.

(** There is exactly one velocity. *)
Theorem C95_unique_velocity : forall n p, physical n p ->
  (exists v, isVelocity n p v) /\
  (forall v w, isVelocity n p v -> isVelocity n p w -> forall i, (i < n)%nat -> v i = w i).
Proof.
  intros n p PH. split; [apply velocity_exists; exact PH|]. intros. eapply velocity_unique; eassumption.
Qed.

(** It has the direction of Darcy's velocity in every component and is not faster; it is
    slower where there is turbulence and flow. *)
Theorem C95_slower_than_darcy : forall n p v i, physical n p -> isVelocity n p v -> (i < n)%nat ->
  0 <= v i * darcyVelocity p i /\ Rabs (v i) <= Rabs (darcyVelocity p i) /\
  (0 < p_dens p * p_ratio p * p_ergun p -> darcyVelocity p i <> 0 -> 0 < Rabs (v i) < Rabs (darcyVelocity p i)).
Proof.
  intros n p v i PH H l. pose proof (velocity_shape n p v i PH H l) as E.
  pose proof (turb_nonneg n p PH) as T. pose proof (sqrt_pos (p_K p i)) as S. pose proof (norm_nonneg n v) as N.
  assert (Q : 0 <= turb p * sqrt (p_K p i) * norm n v) by (apply Rmult_le_pos; [apply Rmult_le_pos|]; assumption).
  set (f := turb p * sqrt (p_K p i) * norm n v) in *. rewrite <- E.
  split; [pose proof (pow2_ge_0 (v i)); nra|]. rewrite Rabs_mult, (Rabs_pos_eq (1 + f)) by lra.
  pose proof (Rabs_pos (v i)). split; [nra|]. intros TP NZ.
  assert (VZ : v i <> 0) by (intro Z; rewrite Z in NZ; lra).
  pose proof (Rabs_pos_lt _ VZ) as VP. split; [exact VP|].
  assert (0 < f).
  { unfold f. pose proof (component_le n v i l). destruct PH as (_ & _ & _ & _ & K).
    apply Rmult_lt_0_compat; [apply Rmult_lt_0_compat; [exact TP|apply sqrt_lt_R0, K, l]|lra]. }
  nra.
Qed.

(** Whatever is returned is close to this velocity, in any number of dimensions. *)
Theorem C95_error : forall solve n p u v smin smax, solverSound n solve -> (0 < n)%nat -> physical n p ->
  0 < smin -> (forall i, (i < n)%nat -> smin <= sqrt (p_K p i) <= smax) ->
  forchheimerVelocity solve n p = Done u -> isVelocity n p v ->
  dist n u v <= (smax / smin * sqrt (INR n) * (7 + p_dens p * p_ratio p * p_ergun p * smax / 10 ^ 11) + 1) / 10 ^ 11.
Proof.
  intros solve n p u v smin smax SS NP PH SP S E V.
  destruct (loop_last solve n p 50 (fun _ => 0) _ u SS (start_norm n NP) E) as (v0 & d & A & B & ->).
  pose proof (step_error n p v0 d v smin smax NP PH SP S A B V) as H. unfold turb, tol in H. unfold Rdiv in *. exact H.
Qed.

(** Without turbulence the result is Darcy's velocity. *)
Theorem C95_darcy : forall solve n p, solverSound n solve -> solverComplete n solve -> (0 < n)%nat -> physical n p ->
  p_ergun p = 0 ->
  exists u, forchheimerVelocity solve n p = Done u /\ forall i, (i < n)%nat -> u i = darcyVelocity p i.
Proof.
  intros solve n p SS SC NP PH Z.
  assert (T0 : turb p = 0) by (unfold turb; rewrite Z; ring).
  assert (RES : forall v i, resid n p v i = v i - darcyVelocity p i).
  { intros. rewrite resid_eq, T0. unfold darcyVelocity. ring. }
  assert (ID : forall v i k, (i < n)%nat -> gradResid n p v i k = if Nat.eqb i k then 1 else 0).
  { intros v i k li. unfold gradResid. rewrite !RES. unfold bump. rewrite (Nat.eqb_sym k i).
    destruct (coordEps_bounds n v i li). destruct (Nat.eqb i k); field; lra. }
  assert (PICK : forall m (x : vec) i, (i < m)%nat -> sum m (fun k => (if Nat.eqb i k then 1 else 0) * x k) = x i).
  { induction m as [|m IH]; intros x i l; [lia|]. cbn [sum]. destruct (Nat.eqb_spec i m) as [->|NE].
    - rewrite (sum_ext m _ (fun _ => 0)); [rewrite sum_zero; ring|]. intros k lk. destruct (Nat.eqb_spec m k); [lia|ring].
    - rewrite IH by lia. ring. }
  assert (STEP : forall v, exists d, solve n (gradResid n p v) (resid n p v) = Some d /\ forall i, (i < n)%nat -> d i = v i - darcyVelocity p i).
  { intros v. destruct (SC (gradResid n p v) (resid n p v)) as (d & E).
    - exists (fun i k => if Nat.eqb i k then 1 else 0). intros i j li lj.
      rewrite (sum_ext n _ (fun k => (if Nat.eqb i k then 1 else 0) * (if Nat.eqb k j then 1 else 0))) by (intros k lk; rewrite ID by exact li; reflexivity).
      rewrite (PICK n (fun k => if Nat.eqb k j then 1 else 0)) by exact li. reflexivity.
    - exists d. split; [exact E|]. intros i li. rewrite <- RES. rewrite <- (SS _ _ _ E i li).
      rewrite (sum_ext n _ (fun k => (if Nat.eqb i k then 1 else 0) * d k)) by (intros k lk; rewrite ID by exact li; reflexivity).
      symmetry. apply PICK. exact li. }
  unfold forchheimerVelocity. set (v0 := fun _ : nat => 0).
  assert (LS : forall k v dn, newtonLoop solve n p (Datatypes.S k) v dn =
     if Rle_dec dn tol then Done v else
     match solve n (gradResid n p v) (resid n p v) with
     | None => Singular | Some d => newtonLoop solve n p k (fun i => v i - d i) (oneNorm n d) end) by reflexivity.
  rewrite LS. destruct (Rle_dec _ tol) as [L|_]; [pose proof (start_norm n NP); lra|].
  destruct (STEP v0) as (d & E & D). rewrite E. rewrite LS. destruct (Rle_dec (oneNorm n d) tol) as [L|L].
  - exists (fun i => v0 i - d i). split; [reflexivity|]. intros i l. rewrite D by exact l. ring.
  - destruct (STEP (fun i => v0 i - d i)) as (d2 & E2 & D2). rewrite E2. rewrite LS.
    assert (D0 : forall i, (i < n)%nat -> d2 i = 0) by (intros i l; rewrite D2, D by exact l; ring).
    assert (O : oneNorm n d2 = 0).
    { unfold oneNorm. rewrite (sum_ext n _ (fun _ => 0)); [apply sum_zero|]. intros i l. rewrite D0 by exact l. apply Rabs_R0. }
    rewrite O. destruct (Rle_dec 0 tol) as [_|Q]; [|pose proof tol_pos; lra].
    exists (fun i => v0 i - d i - d2 i). split; [reflexivity|]. intros i l. rewrite D0, D by exact l. ring.
Qed.

(* ----- C96 ----- *)

(** In one dimension, the velocity as a root. *)
Lemma line_root : forall p, physical 1 p -> exists root, 0 <= root /\ root * (1 + lineC p * root) = Rabs (lineB p).
Proof.
  intros p PH. destruct (velocity_exists 1 p PH) as (v & V). exists (Rabs (v 0%nat)). split; [apply Rabs_pos|].
  pose proof (velocity_shape 1 p v 0%nat PH V ltac:(lia)) as E. rewrite norm_line in E. fold (lineC p) in E.
  pose proof (lineC_nonneg p PH). pose proof (Rabs_pos (v 0%nat)).
  rewrite <- (Rabs_pos_eq (1 + lineC p * Rabs (v 0%nat))) by nra. rewrite <- Rabs_mult, E. unfold darcyVelocity. rewrite Rabs_Ropp. unfold lineB. reflexivity.
Qed.

Lemma line_outcome : forall solve p, physical 1 p -> solverSound 1 solve -> solverComplete 1 solve ->
  (forall dn, lineLoop (lineB p) (lineC p) 50 0 dn <> None) -> exists u, forchheimerVelocity solve 1 p = Done u.
Proof.
  intros solve p PH SS SC H. unfold forchheimerVelocity. set (dn := oneNorm 1 _).
  pose proof (line_loop solve p 50 (fun _ => 0) dn PH SS SC) as L. cbv beta in L.
  destruct (newtonLoop solve 1 p 50 (fun _ => 0) dn) as [u| |] eqn:E.
  - exists u. reflexivity.
  - exfalso. apply (H dn). exact L.
  - contradiction.
Qed.

Lemma pow_half_48 : (/ 2) ^ 48 * 1000 <= tol.
Proof. unfold tol. rewrite pow_inv. simpl. lra. Qed.

Lemma pow_two_thirds_48 : / 400 * (667 / 1000) ^ 48 <= tol.
Proof.
  assert (SQ : forall x k a b, 0 <= x -> x ^ k <= a -> a * a <= b -> x ^ (k + k) <= b).
  { intros x k a b X A B. rewrite pow_add. pose proof (pow_le x k X). apply Rle_trans with (a * a); [apply Rmult_le_compat; assumption|exact B]. }
  assert (A3 : (667 / 1000) ^ 3 <= 29675 / 100000) by (simpl; lra).
  assert (A6 : (667 / 1000) ^ 6 <= 88061 / 1000000) by (apply (SQ (667 / 1000) 3%nat _ _ ltac:(lra) A3); lra).
  assert (A12 : (667 / 1000) ^ 12 <= 7755 / 1000000) by (apply (SQ (667 / 1000) 6%nat _ _ ltac:(lra) A6); lra).
  assert (A24 : (667 / 1000) ^ 24 <= 6015 / 100000000) by (apply (SQ (667 / 1000) 12%nat _ _ ltac:(lra) A12); lra).
  assert (A48 : (667 / 1000) ^ 48 <= 362 / 100000000000) by (apply (SQ (667 / 1000) 24%nat _ _ ltac:(lra) A24); lra).
  unfold tol. replace (/ 10 ^ 11) with (1 / 100000000000) by (simpl; field). lra.
Qed.

(** The iteration ends with a velocity if the Darcy velocity is at most 2.5 mm/s; if it is at
    most 1000 m/s and the quadratic term small; and if it is at most 1000 m/s and the flow
    against the direction of the coordinate. *)
Theorem C96_converges_partial : forall solve p, solverSound 1 solve -> solverComplete 1 solve -> physical 1 p ->
  let speed := Rabs (darcyVelocity p 0%nat) in
  speed <= / 400 \/
  (speed <= 1000 /\ drag p (p_K p 0%nat) * speed <= 2) \/
  (speed <= 1000 /\ darcyVelocity p 0%nat <= 0) ->
  exists u, forchheimerVelocity solve 1 p = Done u.
Proof.
  intros solve p SS SC PH speed H. apply line_outcome; try assumption. intros dn.
  assert (SB : speed = Rabs (lineB p)) by (unfold speed, darcyVelocity; rewrite Rabs_Ropp; reflexivity).
  destruct (line_root p PH) as (root & RP & RE). pose proof (lineC_nonneg p PH) as C. rewrite <- SB in RE.
  pose proof tol_pos as T. pose proof tol_small as TS. pose proof pow_half_48 as PW.
  change (drag p (p_K p 0%nat)) with (lineC p) in H.
  assert (DV : darcyVelocity p 0%nat = - lineB p) by reflexivity. rewrite DV in H.
  assert (SP : 0 <= speed) by apply Rabs_pos.
  assert (NEG : speed <= 1000 -> lineB p = speed -> lineLoop (lineB p) (lineC p) 50 0 dn <> None).
  { intros S E. rewrite E. apply (negAll speed (lineC p) root C RP RE 48); [lia|].
    apply Rle_trans with (1000 * (/ 2) ^ 48); [|rewrite Rmult_comm; exact PW]. apply Rmult_le_compat_r; [apply pow_le; lra|exact S]. }
  destruct (Rle_lt_dec 0 (lineB p)) as [P|N].
  - apply NEG; [destruct H as [?|[[? _]|[? _]]]; lra|]. rewrite SB, Rabs_pos_eq by exact P. reflexivity.
  - assert (E : lineB p = - speed) by (rewrite SB, Rabs_left by exact N; ring). rewrite E.
    destruct H as [H | [(H1 & H2) | (_ & H)]]; [| |lra].
    + apply (posConverges speed (lineC p) root C RP RE (667 / 1000) 48); [lra|lia| |].
      * intros y (Y1 & Y2). assert (0 <= lineC p * y) by (apply Rmult_le_pos; lra). assert (0 <= lineC p * root) by (apply Rmult_le_pos; assumption).
        replace (lineC p * ((2 + tol) * y - root)) with ((2 + tol) * (lineC p * y) - lineC p * root) by ring. nra.
      * apply Rle_trans with (/ 400 * (667 / 1000) ^ 48); [|exact pow_two_thirds_48]. apply Rmult_le_compat_r; [apply pow_le; lra|exact H].
    + apply (posConverges speed (lineC p) root C RP RE (/ 2) 48); [lra|lia| |].
      * intros y (Y1 & Y2). set (z := lineC p * root).
        assert (Z0 : 0 <= z) by (apply Rmult_le_pos; assumption).
        assert (ZZ : z * (1 + z) <= 2) by (unfold z at 1; rewrite Rmult_assoc; unfold z; rewrite RE; exact H2).
        assert (Z1 : z <= 1) by nra.
        assert (CY : lineC p * y <= 2 * z).
        { apply Rle_trans with (lineC p * speed); [apply Rmult_le_compat_l; assumption|]. rewrite <- RE. rewrite <- Rmult_assoc. fold z. nra. }
        assert (0 <= lineC p * y) by (apply Rmult_le_pos; lra).
        replace (lineC p * ((2 + tol) * y - root)) with ((2 + tol) * (lineC p * y) - z) by (unfold z; ring). nra.
      * apply Rle_trans with (1000 * (/ 2) ^ 48); [|rewrite Rmult_comm; exact PW]. apply Rmult_le_compat_r; [apply pow_le; lra|exact H1].
Qed.

(** What is found is then within 8e-11 of the velocity. *)
Theorem C96_line_error : forall solve p u v, solverSound 1 solve -> physical 1 p -> isVelocity 1 p v ->
  forchheimerVelocity solve 1 p = Done u ->
  Rabs (u 0%nat - v 0%nat) <= (8 + drag p (p_K p 0%nat) / 10 ^ 11) / 10 ^ 11.
Proof.
  intros solve p u v SS PH V E. assert (K : 0 < sqrt (p_K p 0%nat)) by (apply sqrt_lt_R0; apply PH; lia).
  assert (KK : forall i, (i < 1)%nat -> sqrt (p_K p 0%nat) <= sqrt (p_K p i) <= sqrt (p_K p 0%nat)).
  { intros i l. assert (i = 0%nat) as -> by lia. lra. }
  pose proof (C95_error solve 1 p u v _ _ SS ltac:(lia) PH K KK E V) as H.
  unfold dist in H. rewrite norm_line in H. eapply Rle_trans; [exact H|]. right. change (INR 1) with 1. rewrite sqrt_1.
  unfold drag. field. apply Rgt_not_eq; exact K.
Qed.

(** A fast flow in the direction of the coordinate. *)
Definition fast (sign : R) : point := mkPoint 1 1 1 1 (fun _ => 1) (fun _ => sign * 10 ^ 20).

Lemma fast_physical : forall s n, physical n (fast s).
Proof. intros. unfold physical, fast. cbn [p_mob p_dens p_ratio p_ergun p_K]. repeat split; try lra. intros. lra. Qed.

Lemma fast_c : forall s, lineC (fast s) = 1.
Proof. intros. unfold lineC, turb, fast. cbn [p_dens p_ratio p_ergun p_K]. rewrite sqrt_1. ring. Qed.

Lemma fast_b : forall s, lineB (fast s) = s * 10 ^ 20.
Proof. intros. unfold lineB, fast. cbn [p_mob p_K p_grad]. ring. Qed.

Lemma fast_root : forall root, 0 <= root -> root * (1 + 1 * root) = 10 ^ 20 -> 9000000000 <= root <= 10000000000.
Proof.
  intros root P E. assert (E2 : root * (1 + root) = 100000000000000000000) by (rewrite Rmult_1_l in E; rewrite E; simpl; lra).
  clear E. split.
  - apply Rnot_lt_le. intro L. nra.
  - apply Rnot_lt_le. intro L. nra.
Qed.

Lemma fast_forward : forall root, 0 <= root -> root * (1 + 1 * root) = 10 ^ 20 ->
  forall k x dn, root <= x -> tol < dn -> tol * 5 * 4 ^ k < x - root -> lineLoop (- 10 ^ 20) 1 k x dn = None.
Proof.
  intros root RP RE. destruct (fast_root root RP RE) as (R1 & _). pose proof tol_pos as T. pose proof tol_small as TS.
  induction k as [|k IH]; intros x dn X D G; cbn [lineLoop].
  - destruct (Rle_dec dn tol); [lra|reflexivity].
  - destruct (Rle_dec dn tol); [lra|].
    destruct (posStep (10 ^ 20) 1 root ltac:(lra) RP RE x X) as (A & B).
    pose proof (posD (10 ^ 20) 1 root ltac:(lra) RE x ltac:(lra)) as PD. pose proof (posNext (10 ^ 20) 1 root ltac:(lra) RE x ltac:(lra)) as PN.
    assert (H : lineH x = x * (1 + tol)) by (unfold lineH; apply Rmax_right; nra). rewrite H in PD, PN.
    set (D0 := lineD (- 10 ^ 20) 1 x) in *.
    assert (TX : 0 <= tol * x <= x) by (split; [apply Rmult_le_pos; lra|nra]).
    assert (GG : 0 < 1 + 1 * (2 * x + x * (1 + tol)) <= 5 * x) by (split; nra).
    assert (DG : (x - root) / 5 <= D0).
    { apply Rmult_le_reg_r with (1 + 1 * (2 * x + x * (1 + tol))); [lra|]. rewrite PD.
      replace ((x - root) / 5 * (1 + 1 * (2 * x + x * (1 + tol)))) with ((x - root) * ((1 + 1 * (2 * x + x * (1 + tol))) / 5)) by field.
      apply Rmult_le_compat_l; lra. }
    assert (GN : (x - root) / 4 <= x - D0 - root).
    { apply Rmult_le_reg_r with (1 + 1 * (2 * x + x * (1 + tol))); [lra|]. rewrite PN.
      replace ((x - root) / 4 * (1 + 1 * (2 * x + x * (1 + tol)))) with ((x - root) * ((1 + 1 * (2 * x + x * (1 + tol))) / 4)) by field.
      apply Rmult_le_compat_l; lra. }
    assert (P4 : 1 <= 4 ^ k) by (apply pow_R1_Rle; lra). rewrite <- tech_pow_Rmult in G.
    assert (W : tol * 5 * 4 <= tol * 5 * (4 * 4 ^ k)) by (apply Rmult_le_compat_l; lra).
    apply IH; [lra| |lra]. rewrite Rabs_pos_eq by lra. lra.
Qed.

Lemma fast_backward : forall root, 0 <= root -> root * (1 + 1 * root) = 10 ^ 20 -> forall dn, tol < dn ->
  lineLoop (10 ^ 20) 1 50 0 dn <> None.
Proof.
  intros root RP RE dn DN. destruct (fast_root root RP RE) as (R1 & R2). pose proof tol_pos as T. pose proof tol_small as TS.
  assert (C1 : 0 <= 1) by lra.
  assert (CLOSE : forall k u dn, root <= u -> u - root <= tol -> lineLoop (10 ^ 20) 1 (Datatypes.S k) (- u) dn <> None).
  { intros k u dn0 A B. apply (negConverges (10 ^ 20) 1 root C1 RP RE 0); [lia|exact A|]. rewrite pow_O. lra. }
  assert (HALF : forall X k u dn, (forall u dn, root <= u -> u - root <= X -> lineLoop (10 ^ 20) 1 k (- u) dn <> None) ->
     root <= u -> u - root <= 2 * X -> lineLoop (10 ^ 20) 1 (Datatypes.S k) (- u) dn <> None).
  { intros X k u dn0 N A B. destruct (Rle_lt_dec (root + tol) u) as [F|F]; [|apply CLOSE; lra].
    rewrite (negUnfold (10 ^ 20) 1 root C1 RE) by lra. destruct (Rle_dec dn0 tol); [discriminate|].
    destruct (negFar (10 ^ 20) 1 root C1 RP u F) as (P & Q & _). apply N; lra. }
  assert (HALVES : forall j X k, (forall u dn, root <= u -> u - root <= X -> lineLoop (10 ^ 20) 1 k (- u) dn <> None) ->
     forall u dn, root <= u -> u - root <= X * 2 ^ j -> lineLoop (10 ^ 20) 1 (j + k) (- u) dn <> None).
  { induction j as [|j IH]; intros X k N u dn0 A B.
    - apply N; [exact A|]. rewrite pow_O in B. lra.
    - apply (HALF (X * 2 ^ j) (j + k)%nat); [intros; apply (IH X k N); assumption|exact A|]. rewrite <- tech_pow_Rmult in B. lra. }
  assert (SQUARE : forall X Y k, 0 <= X -> X * X <= Y * 18000000000 -> (forall u dn, root <= u -> u - root <= Y -> lineLoop (10 ^ 20) 1 k (- u) dn <> None) ->
     forall u dn, root <= u -> u - root <= X -> lineLoop (10 ^ 20) 1 (Datatypes.S k) (- u) dn <> None).
  { intros X Y k XP XY N u dn0 A B. destruct (Rle_lt_dec (root + tol) u) as [F|F]; [|apply CLOSE; lra].
    rewrite (negUnfold (10 ^ 20) 1 root C1 RE) by lra. destruct (Rle_dec dn0 tol); [discriminate|].
    destruct (negFar (10 ^ 20) 1 root C1 RP u F) as (P & _ & Q & _). apply N; [exact P|].
    assert (1 * (u - root) * (u - root) <= X * X) by nra. nra. }
  rewrite (negStart (10 ^ 20) 1 root C1 RE) by exact DN.
  destruct (negFirst_bounds (10 ^ 20) 1 root C1 RP RE ltac:(lra)) as (A & B).
  set (u := 10 ^ 20 / (1 + 1 * tol)) in *.
  assert (E5 : forall u dn, root <= u -> u - root <= tol -> lineLoop (10 ^ 20) 1 5 (- u) dn <> None) by (intros; apply CLOSE; assumption).
  assert (TV : tol = 1 / 100000000000) by (unfold tol; simpl; field).
  assert (E6 : forall u dn, root <= u -> u - root <= / 40000000 -> lineLoop (10 ^ 20) 1 6 (- u) dn <> None).
  { apply (SQUARE _ tol); [lra|rewrite TV; lra|exact E5]. }
  assert (E7 : forall u dn, root <= u -> u - root <= 20 -> lineLoop (10 ^ 20) 1 7 (- u) dn <> None) by (apply (SQUARE _ (/ 40000000)); [lra|lra|exact E6]).
  assert (E8 : forall u dn, root <= u -> u - root <= 600000 -> lineLoop (10 ^ 20) 1 8 (- u) dn <> None) by (apply (SQUARE _ 20); [lra|lra|exact E7]).
  assert (E9 : forall u dn, root <= u -> u - root <= 100000000 -> lineLoop (10 ^ 20) 1 9 (- u) dn <> None) by (apply (SQUARE _ 600000); [lra|lra|exact E8]).
  apply (HALVES 40%nat 100000000 9%nat E9); [exact A|].
  apply Rle_trans with (10 ^ 20); [lra|]. simpl. lra.
Qed.

Lemma fast_throws : forall solve, solverSound 1 solve -> solverComplete 1 solve ->
  forchheimerVelocity solve 1 (fast (-1)) = NoConvergence.
Proof.
  intros solve SS SC. unfold forchheimerVelocity. pose proof (start_norm 1 ltac:(lia)) as D. set (dn := oneNorm 1 _) in *.
  pose proof (line_loop solve (fast (-1)) 50 (fun _ => 0) dn (fast_physical _ _) SS SC) as L. cbv beta in L.
  rewrite fast_b, fast_c in L. replace (-1 * 10 ^ 20) with (- 10 ^ 20) in L by ring.
  destruct (line_root (fast (-1)) (fast_physical _ _)) as (root & RP & RE).
  rewrite fast_c, fast_b in RE. replace (-1 * 10 ^ 20) with (- 10 ^ 20) in RE by ring. rewrite Rabs_Ropp, Rabs_pos_eq in RE by (apply pow_le; lra).
  assert (N : lineLoop (- 10 ^ 20) 1 50 0 dn = None).
  { rewrite lineLoop_S. destruct (Rle_dec dn tol); [lra|]. rewrite (posFirst (10 ^ 20) 1).
    destruct (fast_root root RP RE) as (R1 & R2). pose proof tol_pos as T. pose proof tol_small as TS.
    set (x := 10 ^ 20 / (1 + 1 * tol)).
    replace (0 - - 10 ^ 20 / (1 + 1 * tol)) with x by (unfold x, Rdiv; ring).
    assert (XE : x * (1 + tol) = 100000000000000000000) by (unfold x; rewrite Rmult_1_l; replace 100000000000000000000 with (10 ^ 20) by (simpl; lra); field; lra).
    assert (X : 90000000000000000000 <= x) by nra.
    apply (fast_forward root RP RE); [lra| |].
    - replace (- 10 ^ 20 / (1 + 1 * tol)) with (- x) by (unfold x, Rdiv; ring). rewrite Rabs_Ropp, Rabs_pos_eq by lra. lra.
    - assert (TV : tol = 1 / 100000000000) by (unfold tol; simpl; field). rewrite TV. apply Rlt_le_trans with 20000000000000000000; [|lra].
      simpl. lra. }
  rewrite N in L. destruct (newtonLoop solve 1 (fast (-1)) 50 (fun _ => 0) dn); [discriminate L|reflexivity|contradiction].
Qed.

(** There are flows whose velocity exists and is not found: the 50 iterations run out ... *)
Theorem C96_velocity_found_refuted :
  exists p, physical 1 p /\ (exists v, isVelocity 1 p v) /\
  forall solve, solverSound 1 solve -> solverComplete 1 solve -> forchheimerVelocity solve 1 p = NoConvergence.
Proof.
  exists (fast (-1)). split; [apply fast_physical|]. split; [apply velocity_exists, fast_physical|].
  exact fast_throws.
Qed.

(** ... and whether a velocity is found depends on the direction: the same flow is computed
    one way and fails the other way. *)
Theorem C96_direction_refuted :
  exists p q, physical 1 p /\ physical 1 q /\
  (p_mob p, p_dens p, p_ratio p, p_ergun p, p_K p) = (p_mob q, p_dens q, p_ratio q, p_ergun q, p_K q) /\
  p_grad q 0%nat = - p_grad p 0%nat /\
  forall solve, solverSound 1 solve -> solverComplete 1 solve ->
    forchheimerVelocity solve 1 p = NoConvergence /\ exists u, forchheimerVelocity solve 1 q = Done u.
Proof.
  exists (fast (-1)), (fast 1). split; [apply fast_physical|]. split; [apply fast_physical|]. split; [reflexivity|].
  split; [cbn [fast p_grad]; ring|]. intros solve SS SC. split.
  - apply fast_throws; assumption.
  - unfold forchheimerVelocity. pose proof (start_norm 1 ltac:(lia)) as D. set (dn := oneNorm 1 _) in *.
    pose proof (line_loop solve (fast 1) 50 (fun _ => 0) dn (fast_physical _ _) SS SC) as L. cbv beta in L.
    rewrite fast_b, fast_c in L. rewrite Rmult_1_l in L.
    destruct (line_root (fast 1) (fast_physical _ _)) as (root & RP & RE).
    rewrite fast_c, fast_b, (Rmult_1_l (10 ^ 20)), Rabs_pos_eq in RE by (try apply pow_le; lra).
    pose proof (fast_backward root RP RE dn D) as N.
    destruct (newtonLoop solve 1 (fast 1) 50 (fun _ => 0) dn) as [u| |]; [exists u; reflexivity|contradiction|contradiction].
Qed.

(* ----- C97 ----- *)

Definition isotropic (f : face) : Prop := exists k, forall i, (i < f_dim f)%nat -> f_K f i = k.
Definition flux (f : face) (v : vec) : R := sum (f_dim f) (fun d => v d * f_normal f d).

Lemma phaseLoop_nth : forall solve f at_ phases l, phaseLoop solve f at_ phases = Done l ->
  length l = length phases /\
  forall k phase r, nth_error phases k = Some phase -> nth_error l k = Some r ->
    (f_considered f phase = false -> snd r = 0 /\ forall i, fst r i = 0) /\
    (f_considered f phase = true -> forchheimerVelocity solve (f_dim f) (at_ phase) = Done (fst r) /\ snd r = flux f (fst r)).
Proof.
  intros solve f at_. induction phases as [|ph rest IH]; intros l E; cbn [phaseLoop] in E.
  - injection E as <-. split; [reflexivity|]. intros k phase r A. destruct k; discriminate A.
  - destruct (f_considered f ph) eqn:C.
    + destruct (forchheimerVelocity solve (f_dim f) (at_ ph)) as [v| |] eqn:V; [|discriminate E|discriminate E].
      destruct (phaseLoop solve f at_ rest) as [l'| |] eqn:L; [|discriminate E|discriminate E]. injection E as <-.
      destruct (IH l' eq_refl) as (A & B). split; [cbn [length]; rewrite A; reflexivity|].
      intros [|k] phase r N1 N2; cbn [nth_error] in N1, N2; [|apply (B k); assumption].
      injection N1 as <-. injection N2 as <-. rewrite C. split; [discriminate|]. intros _. split; [exact V|reflexivity].
    + destruct (phaseLoop solve f at_ rest) as [l'| |] eqn:L; [|discriminate E|discriminate E]. injection E as <-.
      destruct (IH l' eq_refl) as (A & B). split; [cbn [length]; rewrite A; reflexivity|].
      intros [|k] phase r N1 N2; cbn [nth_error] in N1, N2; [|apply (B k); assumption].
      injection N1 as <-. injection N2 as <-. rewrite C. split; [|discriminate]. intros _. split; [reflexivity|intros; reflexivity].
Qed.

Lemma seq_nth : forall n k phase, nth_error (seq 0 n) k = Some phase -> phase = k.
Proof.
  intros n k phase H. assert (k < length (seq 0 n))%nat by (apply nth_error_Some; congruence).
  rewrite seq_length in H0. rewrite (nth_error_nth' (seq 0 n) 0%nat) in H by (rewrite seq_length; exact H0).
  rewrite seq_nth in H by exact H0. injection H as <-. reflexivity.
Qed.

(** The volume fluxes of a face are those of the velocities, up to the tolerance times the
    area; a phase that is not considered does not flow. *)
Theorem C97_volume_fluxes : forall solve numPhases f inner outer l, solverSound (f_dim f) solve -> (0 < f_dim f)%nat ->
  interiorFluxes solve numPhases f inner outer = Done l ->
  length l = numPhases /\
  forall phase, (phase < numPhases)%nat ->
    exists u q, nth_error l phase = Some (u, q) /\
    (f_considered f phase = false -> q = 0) /\
    (f_considered f phase = true -> forall v smin smax,
       physical (f_dim f) (interiorPoint f inner outer phase) ->
       0 < smin -> (forall i, (i < f_dim f)%nat -> smin <= sqrt (f_K f i) <= smax) ->
       isVelocity (f_dim f) (interiorPoint f inner outer phase) v ->
       Rabs (q - flux f v) <=
       (smax / smin * sqrt (INR (f_dim f)) *
        (7 + drag (interiorPoint f inner outer phase) (smax * smax) / 10 ^ 11) + 1) / 10 ^ 11 * norm (f_dim f) (f_normal f)).
Proof.
  intros solve m f inner outer l SS NP E. unfold interiorFluxes in E. destruct (phaseLoop_nth _ _ _ _ _ E) as (A & B).
  rewrite seq_length in A. split; [exact A|]. intros phase L.
  destruct (nth_error l phase) as [[u q]|] eqn:N; [|apply nth_error_None in N; lia].
  exists u, q. split; [reflexivity|].
  assert (N1 : nth_error (seq 0 m) phase = Some phase).
  { rewrite (nth_error_nth' _ 0%nat) by (rewrite seq_length; exact L). rewrite List.seq_nth by exact L. reflexivity. }
  destruct (B phase phase (u, q) N1 N) as (F & T). split; [intros C; apply F; exact C|].
  intros C v smin smax PH SP S V. destruct (T C) as (FV & Q). cbn [fst snd] in FV, Q. rewrite Q.
  pose proof (C95_error solve (f_dim f) _ u v smin smax SS NP PH SP S FV V) as D.
  assert (SM : 0 <= smax) by (pose proof (S 0%nat NP); lra).
  assert (DR : drag (interiorPoint f inner outer phase) (smax * smax) =
     p_dens (interiorPoint f inner outer phase) * p_ratio (interiorPoint f inner outer phase) * p_ergun (interiorPoint f inner outer phase) * smax).
  { unfold drag. rewrite sqrt_square by exact SM. reflexivity. }
  rewrite DR. unfold flux.
  assert (EQ : sum (f_dim f) (fun d => u d * f_normal f d) - sum (f_dim f) (fun d => v d * f_normal f d) =
     sum (f_dim f) (fun d => (u d - v d) * f_normal f d)).
  { rewrite (sum_ext _ (fun d => (u d - v d) * f_normal f d) (fun d => u d * f_normal f d + (-1) * (v d * f_normal f d))) by (intros; ring).
    rewrite sum_plus, sum_scal. ring. }
  rewrite EQ. pose proof (norm_nonneg (f_dim f) (f_normal f)) as NN.
  apply Rle_trans with (dist (f_dim f) u v * norm (f_dim f) (f_normal f)).
  - apply Rabs_le. split.
    + pose proof (inner_le (f_dim f) (fun i => - (u i - v i)) (f_normal f)) as H. rewrite norm_opp in H.
      rewrite (sum_ext _ _ (fun d => (-1) * ((u d - v d) * f_normal f d))) in H by (intros; ring). rewrite sum_scal in H. unfold dist. lra.
    + apply (inner_le (f_dim f) (fun i => u i - v i) (f_normal f)).
  - apply Rmult_le_compat_r; [exact NN|exact D].
Qed.

(** In isotropic rock the properties of a phase are those of the side it comes from. *)
Theorem C97_upstream : forall f inner outer phase v,
  isotropic f -> physical (f_dim f) (interiorPoint f inner outer phase) ->
  isVelocity (f_dim f) (interiorPoint f inner outer phase) v ->
  let p := interiorPoint f inner outer phase in
  let from side := (p_mob p, p_dens p, p_ratio p) = (c_mob side phase, c_dens side phase, c_ratio side phase) in
  (0 < flux f v -> from inner) /\ (flux f v < 0 -> from outer) /\
  p_ergun p = (c_ergun inner + c_ergun outer) / 2.
Proof.
  intros f inner outer phase v (k & K) PH V p from.
  assert (E : flux f v * (1 + turb p * sqrt k * norm (f_dim f) v) = - (p_mob p * k) * sum (f_dim f) (fun d => f_grad f phase d * f_normal f d)).
  { unfold flux. rewrite Rmult_comm, <- !sum_scal. apply sum_ext. intros i l.
    pose proof (velocity_shape (f_dim f) p v i PH V l) as S. unfold p in S at 2. cbn [interiorPoint p_K] in S. rewrite (K i l) in S.
    unfold darcyVelocity in S. unfold p in S at 3 4. cbn [interiorPoint p_K p_grad] in S. rewrite (K i l) in S.
    replace ((1 + turb p * sqrt k * norm (f_dim f) v) * (v i * f_normal f i)) with (v i * (1 + turb p * sqrt k * norm (f_dim f) v) * f_normal f i) by ring.
    rewrite S. ring. }
  pose proof (turb_nonneg _ p PH) as T. pose proof (sqrt_pos k) as SK. pose proof (norm_nonneg (f_dim f) v) as N.
  assert (G : 0 < 1 + turb p * sqrt k * norm (f_dim f) v).
  { assert (0 <= turb p * sqrt k * norm (f_dim f) v) by (apply Rmult_le_pos; [apply Rmult_le_pos|]; assumption). lra. }
  set (s := sum (f_dim f) (fun d => f_grad f phase d * f_normal f d)) in *.
  assert (MK : flux f v <> 0 -> 0 <= p_mob p * k).
  { intros NZ. destruct (f_dim f) as [|n] eqn:Dim; [exfalso; apply NZ; unfold flux; rewrite Dim; reflexivity|].
    apply Rmult_le_pos; [apply PH|]. destruct PH as (_ & _ & _ & _ & KP). specialize (KP 0%nat ltac:(lia)).
    cbn [interiorPoint p_K] in KP. rewrite (K 0%nat ltac:(lia)) in KP. lra. }
  split; [|split; [|reflexivity]].
  - intros FP. specialize (MK ltac:(lra)). unfold from, p, interiorPoint, exteriorUpstream. fold s.
    destruct (Rlt_dec 0 s) as [L|L]; [|reflexivity]. exfalso. nra.
  - intros FN. specialize (MK ltac:(lra)). unfold from, p, interiorPoint, exteriorUpstream. fold s.
    destruct (Rlt_dec 0 s) as [L|L]; [reflexivity|]. exfalso. nra.
Qed.

(** Where the permeability depends on the direction, a phase can leave with the properties
    of the other side. *)
Theorem C97_upstream_refuted :
  exists f inner outer v, physical (f_dim f) (interiorPoint f inner outer 0) /\
  isVelocity (f_dim f) (interiorPoint f inner outer 0) v /\ 0 < flux f v /\
  p_dens (interiorPoint f inner outer 0) = c_dens outer 0%nat /\ c_dens outer 0%nat <> c_dens inner 0%nat.
Proof.
  set (f := mkFace 2 (fun _ => 1) (fun i => if Nat.eqb i 0 then 1 else 100) (fun _ i => if Nat.eqb i 0 then 2 else -1) (fun _ => true)).
  set (inner := mkVolume 0 (fun _ => 1) (fun _ => 1) (fun _ => 1)). set (outer := mkVolume 0 (fun _ => 2) (fun _ => 1) (fun _ => 1)).
  exists f, inner, outer, (fun i => if Nat.eqb i 0 then -2 else 100).
  assert (UP : exteriorUpstream f 0 = true).
  { unfold exteriorUpstream, f. cbn [f_dim f_grad f_normal sum Nat.eqb]. destruct (Rlt_dec 0 _) as [_|Q]; [reflexivity|lra]. }
  split; [|split; [|split; [|split]]].
  - unfold physical, interiorPoint. rewrite UP. cbn [p_mob p_dens p_ratio p_ergun p_K outer inner c_ergun c_mob c_dens c_ratio f f_K].
    repeat split; try lra. intros i _. destruct (Nat.eqb i 0); lra.
  - intros i _. unfold interiorPoint. rewrite UP. cbn [p_mob p_dens p_ratio p_ergun p_K p_grad outer inner c_ergun c_mob c_dens c_ratio f f_K f_grad].
    destruct (Nat.eqb i 0); lra.
  - unfold flux, f. cbn [f_dim f_normal sum Nat.eqb]. lra.
  - unfold interiorPoint. rewrite UP. reflexivity.
  - cbn [outer inner c_dens]. lra.
Qed.

(** The same face seen from the other side has the same velocities and the opposite fluxes. *)
Theorem C97_both_sides_agree : forall solve numPhases f inner outer l,
  (forall phase, (phase < numPhases)%nat -> f_considered f phase = true ->
     sum (f_dim f) (fun d => f_grad f phase d * f_normal f d) <> 0) ->
  interiorFluxes solve numPhases f inner outer = Done l ->
  interiorFluxes solve numPhases (mkFace (f_dim f) (fun d => - f_normal f d) (f_K f) (f_grad f) (f_considered f)) outer inner
  = Done (map (fun r => (fst r, - snd r)) l).
Proof.
  intros solve m f inner outer l NZ E.
  set (f' := mkFace (f_dim f) (fun d => - f_normal f d) (f_K f) (f_grad f) (f_considered f)).
  assert (OPP : forall g : nat -> R, sum (f_dim f) (fun d => g d * - f_normal f d) = - sum (f_dim f) (fun d => g d * f_normal f d)).
  { intros g. rewrite (sum_ext _ _ (fun d => (-1) * (g d * f_normal f d))) by (intros; ring). rewrite sum_scal. ring. }
  assert (PT : forall phase, (phase < m)%nat -> f_considered f phase = true -> interiorPoint f' outer inner phase = interiorPoint f inner outer phase).
  { intros phase L C. specialize (NZ phase L C). unfold interiorPoint, exteriorUpstream, f'. cbn [f_dim f_normal f_K f_grad].
    rewrite (OPP (f_grad f phase)). set (s := sum (f_dim f) _) in *. rewrite (Rplus_comm (c_ergun outer)).
    destruct (Rlt_dec 0 (- s)), (Rlt_dec 0 s); try reflexivity; exfalso; lra. }
  unfold interiorFluxes in *.
  assert (ALL : forall phase, In phase (seq 0 m) -> (phase < m)%nat) by (intros phase H; apply in_seq in H; lia).
  revert l E ALL. generalize (seq 0 m) as ps. induction ps as [|ph rest IH]; intros l E ALL; cbn [phaseLoop] in *.
  - injection E as <-. reflexivity.
  - change (f_considered f' ph) with (f_considered f ph). change (f_dim f') with (f_dim f). destruct (f_considered f ph) eqn:C.
    + rewrite (PT ph (ALL ph (or_introl eq_refl)) C).
      destruct (forchheimerVelocity solve (f_dim f) (interiorPoint f inner outer ph)) as [v| |]; [|discriminate E|discriminate E].
      destruct (phaseLoop solve f (interiorPoint f inner outer) rest) as [l'| |] eqn:L; [|discriminate E|discriminate E]. injection E as <-.
      rewrite (IH l' eq_refl) by (intros; apply ALL; right; assumption). cbn [map fst snd]. unfold f' at 1. cbn [f_normal].
      rewrite (OPP v). reflexivity.
    + destruct (phaseLoop solve f (interiorPoint f inner outer) rest) as [l'| |] eqn:L; [|discriminate E|discriminate E]. injection E as <-.
      rewrite (IH l' eq_refl) by (intros; apply ALL; right; assumption). cbn [map fst snd]. rewrite Ropp_0. reflexivity.
Qed.

(** At the boundary an entering phase is slowed down as if it had the density of the fluid
    inside. *)
Theorem C97_boundary_inflow_refuted :
  exists f inner outer v w, let p := boundaryPoint f inner outer 0 in
  physical (f_dim f) p /\ isVelocity (f_dim f) p v /\ flux f v < 0 /\
  isVelocity (f_dim f) (mkPoint (p_mob p) (c_dens outer 0%nat) (c_ratio outer 0%nat) (p_ergun p) (p_K p) (p_grad p)) w /\
  flux f w = flux f v / 2.
Proof.
  set (f := mkFace 1 (fun _ => 1) (fun _ => 1) (fun _ _ => 2) (fun _ => true)).
  set (inner := mkVolume 1 (fun _ => 0) (fun _ => 1) (fun _ => 1)). set (outer := mkVolume 1 (fun _ => 1) (fun _ => 1) (fun _ => 1)).
  exists f, inner, outer, (fun _ => -2), (fun _ => -1).
  assert (UP : exteriorUpstream f 0 = true).
  { unfold exteriorUpstream, f. cbn [f_dim f_grad f_normal sum]. destruct (Rlt_dec 0 _) as [_|Q]; [reflexivity|lra]. }
  cbv zeta. unfold boundaryPoint. rewrite UP. cbn [p_mob p_dens p_ratio p_ergun p_K p_grad outer inner c_ergun c_mob c_dens c_ratio f f_K f_grad f_dim].
  split; [|split; [|split; [|split]]].
  - unfold physical. cbn [p_mob p_dens p_ratio p_ergun p_K]. repeat split; try lra. intros; lra.
  - intros i _. cbn [p_mob p_dens p_ratio p_ergun p_K p_grad]. ring.
  - unfold flux, f. cbn [f_dim f_normal sum]. lra.
  - intros i _. cbn [p_mob p_dens p_ratio p_ergun p_K p_grad]. rewrite norm_line, sqrt_1. rewrite Rabs_left by lra. ring.
  - unfold flux, f. cbn [f_dim f_normal sum]. lra.
Qed.

(** A phase that leaves over the boundary has the properties of the inside, all of them. *)
Theorem C97_boundary_outflow : forall f inner outer phase, isotropic f -> forall v,
  physical (f_dim f) (boundaryPoint f inner outer phase) -> isVelocity (f_dim f) (boundaryPoint f inner outer phase) v ->
  0 < flux f v ->
  boundaryPoint f inner outer phase =
  mkPoint (c_mob inner phase) (c_dens inner phase) (c_ratio inner phase) (c_ergun inner) (f_K f) (f_grad f phase).
Proof.
  intros f inner outer phase (k & K) v PH V FP. unfold boundaryPoint. destruct (exteriorUpstream f phase) eqn:UP; [|reflexivity]. exfalso.
  unfold exteriorUpstream in UP. set (s := sum (f_dim f) (fun d => f_grad f phase d * f_normal f d)) in *. destruct (Rlt_dec 0 s) as [L|L]; [|discriminate UP].
  set (p := boundaryPoint f inner outer phase) in *.
  assert (E : flux f v * (1 + turb p * sqrt k * norm (f_dim f) v) = - (p_mob p * k) * s).
  { unfold flux, s. rewrite Rmult_comm, <- !sum_scal. apply sum_ext. intros i l.
    pose proof (velocity_shape (f_dim f) p v i PH V l) as S. unfold p in S at 2. cbn [boundaryPoint p_K] in S. rewrite (K i l) in S.
    unfold darcyVelocity in S. unfold p in S at 3 4. cbn [boundaryPoint p_K p_grad] in S. rewrite (K i l) in S.
    replace ((1 + turb p * sqrt k * norm (f_dim f) v) * (v i * f_normal f i)) with (v i * (1 + turb p * sqrt k * norm (f_dim f) v) * f_normal f i) by ring.
    rewrite S. ring. }
  pose proof (turb_nonneg _ p PH) as T. pose proof (sqrt_pos k) as SK. pose proof (norm_nonneg (f_dim f) v) as N.
  assert (G : 0 <= turb p * sqrt k * norm (f_dim f) v) by (apply Rmult_le_pos; [apply Rmult_le_pos|]; assumption).
  destruct (f_dim f) as [|n] eqn:Dim; [unfold flux in FP; rewrite Dim in FP; cbn [sum] in FP; lra|].
  assert (MK : 0 <= p_mob p * k).
  { apply Rmult_le_pos; [apply PH|]. destruct PH as (_ & _ & _ & _ & KP). specialize (KP 0%nat ltac:(lia)).
    unfold p in KP. cbn [boundaryPoint p_K] in KP. rewrite (K 0%nat ltac:(lia)) in KP. lra. }
  nra.
Qed.

(* ----- examples ----- *)

(** Cramer's rule in one and two dimensions. *)
Definition cramer : smallSolver := fun n A b =>
  match n with
  | 1%nat => if Req_EM_T (A 0 0)%nat 0 then None else Some (fun _ => b 0%nat / A 0%nat 0%nat)
  | 2%nat =>
      let det := A 0%nat 0%nat * A 1%nat 1%nat - A 0%nat 1%nat * A 1%nat 0%nat in
      if Req_EM_T det 0 then None
      else Some (fun i => if Nat.eqb i 0 then (b 0%nat * A 1%nat 1%nat - A 0%nat 1%nat * b 1%nat) / det
                          else (A 0%nat 0%nat * b 1%nat - A 1%nat 0%nat * b 0%nat) / det)
  | _ => None
  end.

Example cramer_one : solverSound 1 cramer /\ solverComplete 1 cramer.
Proof.
  split.
  - intros A b x E i l. assert (i = 0%nat) as -> by lia. cbn [cramer] in E. destruct (Req_EM_T (A 0%nat 0%nat) 0); [discriminate E|].
    injection E as <-. cbn [sum]. field. assumption.
  - intros A b (B & H). specialize (H 0%nat 0%nat ltac:(lia) ltac:(lia)). cbn [sum Nat.eqb] in H. cbn [cramer].
    destruct (Req_EM_T (A 0%nat 0%nat) 0) as [Z|Z]; [rewrite Z in H; lra|]. eexists. reflexivity.
Qed.

Example cramer_two : solverSound 2 cramer /\ solverComplete 2 cramer.
Proof.
  split.
  - intros A b x E i l. cbn [cramer] in E. destruct (Req_EM_T _ 0) as [|NZ]; [discriminate E|]. injection E as <-. cbn [sum Nat.eqb].
    assert (i = 0%nat \/ i = 1%nat) as [-> | ->] by lia; field; assumption.
  - intros A b (B & H). pose proof (H 0%nat 0%nat ltac:(lia) ltac:(lia)) as H00. pose proof (H 0%nat 1%nat ltac:(lia) ltac:(lia)) as H01.
    pose proof (H 1%nat 0%nat ltac:(lia) ltac:(lia)) as H10. pose proof (H 1%nat 1%nat ltac:(lia) ltac:(lia)) as H11.
    cbn [sum Nat.eqb] in H00, H01, H10, H11. cbn [cramer]. destruct (Req_EM_T _ 0) as [Z|NZ]; [exfalso|eexists; reflexivity].
    set (a := A 0%nat 0%nat) in *. set (c := A 0%nat 1%nat) in *. set (d := A 1%nat 0%nat) in *. set (e := A 1%nat 1%nat) in *.
    set (p := B 0%nat 0%nat) in *. set (q := B 0%nat 1%nat) in *. set (r := B 1%nat 0%nat) in *. set (s := B 1%nat 1%nat) in *.
    assert (Q : (a * e - c * d) * (p * s - q * r) = (0 + a * p + c * r) * (0 + d * q + e * s) - (0 + a * q + c * s) * (0 + d * p + e * r)) by ring.
    rewrite H00, H01, H10, H11, Z in Q. lra.
Qed.

(** A flow of one metre per second in a coarse gravel: found in both directions. *)
Example gravel : forall s, s = 1 \/ s = -1 ->
  exists u, forchheimerVelocity cramer 1 (mkPoint 1 1 1 1 (fun _ => 1) (fun _ => 2 * s)) = Done u /\
  Rabs (u 0%nat - - s) <= 9 / 10 ^ 11.
Proof.
  intros s S. set (p := mkPoint 1 1 1 1 (fun _ => 1) (fun _ => 2 * s)).
  assert (PH : physical 1 p) by (unfold physical, p; cbn [p_mob p_dens p_ratio p_ergun p_K]; repeat split; try lra; intros; lra).
  assert (DR : drag p (p_K p 0%nat) = 1) by (unfold drag, p; cbn [p_dens p_ratio p_ergun p_K]; rewrite sqrt_1; ring).
  assert (DV : Rabs (darcyVelocity p 0%nat) = 2).
  { unfold darcyVelocity, p; cbn [p_mob p_K p_grad]. destruct S as [-> | ->]; [rewrite Rabs_left by lra|rewrite Rabs_pos_eq by lra]; ring. }
  assert (V : isVelocity 1 p (fun _ => - s)).
  { intros i _. rewrite norm_line. unfold p. cbn [p_mob p_dens p_ratio p_ergun p_K p_grad]. rewrite sqrt_1.
    destruct S as [-> | ->]; [rewrite Rabs_left by lra|rewrite Rabs_pos_eq by lra]; ring. }
  destruct (C96_converges_partial cramer p (proj1 cramer_one) (proj2 cramer_one) PH) as (u & E).
  { right; left. rewrite DV, DR. lra. }
  exists u. split; [exact E|]. pose proof (C96_line_error cramer p u _ (proj1 cramer_one) PH V E) as H. rewrite DR in H. cbv beta in H.
  eapply Rle_trans; [exact H|]. simpl. lra.
Qed.

Print Assumptions C95_documented_equation.
Print Assumptions C95_unique_velocity.
Print Assumptions C95_slower_than_darcy.
Print Assumptions C95_error.
Print Assumptions C95_darcy.
Print Assumptions C96_converges_partial.
Print Assumptions C96_line_error.
Print Assumptions C96_velocity_found_refuted.
Print Assumptions C96_direction_refuted.
Print Assumptions C97_volume_fluxes.
Print Assumptions C97_upstream.
Print Assumptions C97_upstream_refuted.
Print Assumptions C97_both_sides_agree.
Print Assumptions C97_boundary_inflow_refuted.
Print Assumptions C97_boundary_outflow.
