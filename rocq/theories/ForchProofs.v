From Coq Require Import Reals Lra Lia Psatz List FunctionalExtensionality.
From Verif Require Import ForchModel ForchSpec.
Import ListNotations.
Local Open Scope R_scope.

(* ----- sums ----- *)

Lemma sum_ext : forall n f g, (forall i, (i < n)%nat -> f i = g i) -> sum n f = sum n g.
Proof.
  induction n as [|n IH]; intros f g H; cbn [sum]; [reflexivity|].
  rewrite (IH f g) by (intros; apply H; lia). rewrite H by lia. reflexivity.
Qed.

Lemma sum_plus : forall n f g, sum n (fun i => f i + g i) = sum n f + sum n g.
Proof. induction n as [|n IH]; intros; cbn [sum]; [lra|]. rewrite IH. lra. Qed.

Lemma sum_scal : forall n c f, sum n (fun i => c * f i) = c * sum n f.
Proof. induction n as [|n IH]; intros; cbn [sum]; [lra|]. rewrite IH. lra. Qed.

Lemma sum_le : forall n f g, (forall i, (i < n)%nat -> f i <= g i) -> sum n f <= sum n g.
Proof.
  induction n as [|n IH]; intros f g H; cbn [sum]; [lra|].
  pose proof (IH f g (fun i l => H i (Nat.lt_lt_succ_r _ _ l))). pose proof (H n (Nat.lt_succ_diag_r n)). lra.
Qed.

Lemma sum_zero : forall n, sum n (fun _ => 0) = 0.
Proof. induction n as [|n IH]; cbn [sum]; [reflexivity|]. rewrite IH. lra. Qed.

Lemma sum_nonneg : forall n f, (forall i, (i < n)%nat -> 0 <= f i) -> 0 <= sum n f.
Proof. intros n f H. rewrite <- (sum_zero n). apply sum_le. exact H. Qed.

Lemma sum_term : forall n f i, (forall i, (i < n)%nat -> 0 <= f i) -> (i < n)%nat -> f i <= sum n f.
Proof.
  induction n as [|n IH]; intros f i H l; [lia|]. cbn [sum].
  pose proof (H n (Nat.lt_succ_diag_r n)).
  pose proof (sum_nonneg n f (fun j q => H j (Nat.lt_lt_succ_r _ _ q))).
  destruct (Nat.eq_dec i n) as [->|E]; [lra|].
  pose proof (IH f i (fun j q => H j (Nat.lt_lt_succ_r _ _ q)) ltac:(lia)). lra.
Qed.

Lemma sum_const : forall n c, sum n (fun _ => c) = INR n * c.
Proof. induction n as [|n IH]; intros c; [cbn; lra|]. cbn [sum]. rewrite IH, S_INR. lra. Qed.

Lemma sum_abs : forall n f, Rabs (sum n f) <= sum n (fun i => Rabs (f i)).
Proof.
  induction n as [|n IH]; intros f; cbn [sum]; [rewrite Rabs_R0; lra|].
  eapply Rle_trans; [apply Rabs_triang|]. pose proof (IH f). lra.
Qed.

(** Cauchy and Schwarz. *)
Lemma schwarz : forall n f g,
  (sum n (fun i => f i * g i)) ^ 2 <= sum n (fun i => f i ^ 2) * sum n (fun i => g i ^ 2).
Proof.
  intros n f g.
  set (A := sum n (fun i => f i ^ 2)). set (B := sum n (fun i => g i ^ 2)). set (C := sum n (fun i => f i * g i)).
  assert (Q : forall s t, 0 <= s ^ 2 * A - 2 * s * t * C + t ^ 2 * B).
  { intros s t.
    assert (E : sum n (fun i => (s * f i - t * g i) ^ 2) = s ^ 2 * A - 2 * s * t * C + t ^ 2 * B).
    { unfold A, B, C. rewrite (sum_ext n _ (fun i => (s ^ 2 * f i ^ 2 + (- (2 * s * t)) * (f i * g i)) + t ^ 2 * g i ^ 2)) by (intros; ring).
      rewrite !sum_plus, !sum_scal. ring. }
    rewrite <- E. apply sum_nonneg. intros. apply pow2_ge_0. }
  assert (HA : 0 <= A) by (apply sum_nonneg; intros; apply pow2_ge_0).
  assert (HB : 0 <= B) by (apply sum_nonneg; intros; apply pow2_ge_0).
  pose proof (Q B C) as H. replace (B ^ 2 * A - 2 * B * C * C + C ^ 2 * B) with (B * (A * B - C ^ 2)) in H by ring.
  destruct (Rle_lt_or_eq_dec 0 B HB) as [P|E].
  - assert (0 <= A * B - C ^ 2) by (apply Rmult_le_reg_l with B; [exact P|rewrite Rmult_0_r; exact H]). lra.
  - pose proof (Q C A) as H1. pose proof (Q 1 C) as H2. rewrite <- E in *. pose proof (pow2_ge_0 C).
    pose proof (Q 1 ((A + 1) * C)) as H3. nra.
Qed.

Lemma norm_nonneg : forall n v, 0 <= norm n v.
Proof. intros. apply sqrt_pos. Qed.

Lemma norm_sq : forall n v, norm n v ^ 2 = sum n (fun i => v i ^ 2).
Proof.
  intros. unfold norm. rewrite <- Rsqr_pow2. apply Rsqr_sqrt. apply sum_nonneg. intros. apply pow2_ge_0.
Qed.

Lemma norm_ext : forall n v w, (forall i, (i < n)%nat -> v i = w i) -> norm n v = norm n w.
Proof. intros n v w H. unfold norm. f_equal. apply sum_ext. intros i l. rewrite H by exact l. reflexivity. Qed.

Lemma sq_le : forall x y, 0 <= y -> x ^ 2 <= y ^ 2 -> x <= y.
Proof. intros. nra. Qed.

Lemma inner_le : forall n f g, sum n (fun i => f i * g i) <= norm n f * norm n g.
Proof.
  intros. apply sq_le.
  - apply Rmult_le_pos; apply norm_nonneg.
  - rewrite Rpow_mult_distr, !norm_sq. apply schwarz.
Qed.

Lemma norm_plus : forall n f g, norm n (fun i => f i + g i) <= norm n f + norm n g.
Proof.
  intros. pose proof (norm_nonneg n f). pose proof (norm_nonneg n g). apply sq_le; [lra|].
  rewrite norm_sq. rewrite (sum_ext n _ (fun i => (f i ^ 2 + 2 * (f i * g i)) + g i ^ 2)) by (intros; ring).
  rewrite !sum_plus, sum_scal. pose proof (inner_le n f g). pose proof (norm_sq n f). pose proof (norm_sq n g). nra.
Qed.

Lemma norm_opp : forall n f, norm n (fun i => - f i) = norm n f.
Proof. intros. unfold norm. f_equal. apply sum_ext. intros. ring. Qed.

Lemma dist_sym : forall n f g, dist n f g = dist n g f.
Proof. intros. unfold dist. rewrite <- norm_opp. apply norm_ext. intros. ring. Qed.

Lemma dist_triangle : forall n f g h, dist n f h <= dist n f g + dist n g h.
Proof.
  intros. unfold dist. rewrite (norm_ext n (fun i => f i - h i) (fun i => (f i - g i) + (g i - h i))) by (intros; ring).
  apply norm_plus.
Qed.

Lemma norm_dist : forall n f g, norm n f <= norm n g + dist n f g.
Proof.
  intros. unfold dist. rewrite (norm_ext n f (fun i => g i + (f i - g i))) at 1 by (intros; ring). apply norm_plus.
Qed.

Lemma component_le : forall n f i, (i < n)%nat -> Rabs (f i) <= norm n f.
Proof.
  intros n f i l. apply sq_le; [apply norm_nonneg|]. rewrite norm_sq, pow2_abs.
  apply (sum_term n (fun i => f i ^ 2)); [intros; apply pow2_ge_0|exact l].
Qed.

Lemma norm_zero_inv : forall n f, norm n f = 0 -> forall i, (i < n)%nat -> f i = 0.
Proof.
  intros n f E i l. pose proof (component_le n f i l) as H. rewrite E in H.
  pose proof (Rabs_pos (f i)). destruct (Req_dec (f i) 0) as [Z|Z]; [exact Z|].
  pose proof (Rabs_pos_lt _ Z). lra.
Qed.

Lemma norm_zero : forall n f, (forall i, (i < n)%nat -> f i = 0) -> norm n f = 0.
Proof.
  intros n f H. unfold norm. rewrite (sum_ext n _ (fun _ => 0)).
  - rewrite sum_zero. apply sqrt_0.
  - intros i l. rewrite H by exact l. ring.
Qed.

Lemma norm_le_one : forall n f, norm n f <= oneNorm n f.
Proof.
  intros n f. unfold oneNorm. apply sq_le; [apply sum_nonneg; intros; apply Rabs_pos|]. rewrite norm_sq.
  induction n as [|n IH]; cbn [sum]; [lra|].
  assert (0 <= sum n (fun i => Rabs (f i))) by (apply sum_nonneg; intros; apply Rabs_pos).
  pose proof (Rabs_pos (f n)). pose proof (pow2_abs (f n)). nra.
Qed.

Lemma norm_bound : forall n f b, 0 <= b -> (forall i, (i < n)%nat -> Rabs (f i) <= b) -> norm n f <= sqrt (INR n) * b.
Proof.
  intros n f b B H. apply sq_le.
  - apply Rmult_le_pos; [apply sqrt_pos|exact B].
  - rewrite norm_sq, Rpow_mult_distr. rewrite <- (Rsqr_pow2 (sqrt (INR n))), Rsqr_sqrt by apply pos_INR.
    rewrite <- sum_const. apply sum_le. intros i l. pose proof (H i l). pose proof (Rabs_pos (f i)). pose proof (pow2_abs (f i)). nra.
Qed.

Lemma absVel_norm : forall n v, absVel n v = norm n v.
Proof.
  intros. unfold absVel, norm. rewrite (sum_ext n (fun i => v i * v i) (fun i => v i ^ 2)) by (intros; ring).
  destruct (Rle_dec _ 0) as [L|L]; [|reflexivity].
  symmetry. apply sqrt_neg_0. exact L.
Qed.

(* ----- the residual ----- *)

(** The turbulent factor without the permeability. *)
Definition turb (p : point) : R := p_dens p * p_ratio p * p_ergun p.

Lemma turb_nonneg : forall n p, physical n p -> 0 <= turb p.
Proof. intros n p (_ & A & B & C & _). unfold turb. repeat apply Rmult_le_pos; assumption. Qed.

Lemma resid_eq : forall n p v i,
  resid n p v i = v i + p_mob p * p_grad p i * p_K p i + turb p * sqrt (p_K p i) * norm n v * v i.
Proof. intros. unfold resid, turb. rewrite absVel_norm. ring. Qed.

Lemma resid_zero : forall n p v, isVelocity n p v <-> forall i, (i < n)%nat -> resid n p v i = 0.
Proof.
  intros. unfold isVelocity. split; intros H i l; specialize (H i l); rewrite ?resid_eq in *; unfold turb in *; lra.
Qed.

(** The quadratic term is monotone. *)
Lemma quadratic_monotone : forall n v w,
  (norm n v + norm n w) / 2 * dist n v w ^ 2 <=
  sum n (fun i => (norm n v * v i - norm n w * w i) * (v i - w i)).
Proof.
  intros. set (p := norm n v). set (q := norm n w). set (s := sum n (fun i => v i * w i)).
  assert (P : 0 <= p) by apply norm_nonneg. assert (Q : 0 <= q) by apply norm_nonneg.
  assert (D : dist n v w ^ 2 = p ^ 2 + q ^ 2 - 2 * s).
  { unfold dist. rewrite norm_sq. unfold p, q, s. rewrite !norm_sq.
    rewrite (sum_ext n _ (fun i => (v i ^ 2 + w i ^ 2) + (-2) * (v i * w i))) by (intros; ring).
    rewrite !sum_plus, sum_scal. ring. }
  assert (E : sum n (fun i => (p * v i - q * w i) * (v i - w i)) = p * p ^ 2 + q * q ^ 2 - (p + q) * s).
  { rewrite (sum_ext n _ (fun i => (p * v i ^ 2 + q * w i ^ 2) + (- (p + q)) * (v i * w i))) by (intros; ring).
    rewrite !sum_plus, !sum_scal. rewrite <- (norm_sq n v), <- (norm_sq n w). fold p q s. ring. }
  rewrite E, D. pose proof (pow2_ge_0 (p - q)). nra.
Qed.

(** The quadratic term varies with the velocity at most like this. *)
Lemma quadratic_lipschitz : forall n x y k, (k < n)%nat ->
  Rabs (norm n x * x k - norm n y * y k) <= (norm n x + norm n y) * dist n x y.
Proof.
  intros n x y k l.
  replace (norm n x * x k - norm n y * y k) with (norm n x * (x k - y k) + y k * (norm n x - norm n y)) by ring.
  eapply Rle_trans; [apply Rabs_triang|]. rewrite !Rabs_mult.
  rewrite (Rabs_pos_eq (norm n x)) by apply norm_nonneg.
  assert (A : Rabs (x k - y k) <= dist n x y) by (apply (component_le n (fun i => x i - y i)); exact l).
  pose proof (component_le n y k l) as B.
  assert (C : Rabs (norm n x - norm n y) <= dist n x y).
  { apply Rabs_le. pose proof (norm_dist n x y). pose proof (norm_dist n y x). rewrite (dist_sym n y x) in *. lra. }
  pose proof (norm_nonneg n x). pose proof (norm_nonneg n y). pose proof (Rabs_pos (y k)). pose proof (Rabs_pos (norm n x - norm n y)).
  pose proof (Rabs_pos (x k - y k)). nra.
Qed.

(** The distance of two velocities is controlled by that of their residuals. *)
Lemma residual_controls : forall n p v w smin smax,
  physical n p -> 0 < smin -> (forall i, (i < n)%nat -> smin <= sqrt (p_K p i) <= smax) ->
  dist n v w * (1 + turb p * smax * ((norm n v + norm n w) / 2)) <=
  smax / smin * dist n (resid n p v) (resid n p w).
Proof.
  intros n p v w smin smax PH SP S.
  destruct n as [|n0].
  { unfold dist. rewrite !(norm_zero 0) by (intros; lia). lra. }
  set (n := Datatypes.S n0) in *.
  assert (SM : 0 < smax) by (pose proof (S 0%nat ltac:(unfold n; lia)); lra).
  pose proof (turb_nonneg n p PH) as T.
  set (d := dist n v w). set (m := (norm n v + norm n w) / 2).
  assert (M : 0 <= m) by (pose proof (norm_nonneg n v); pose proof (norm_nonneg n w); unfold m; lra).
  assert (D : 0 <= d) by apply norm_nonneg.
  set (rr := fun i => resid n p v i - resid n p w i).
  set (dd := fun i => v i - w i).
  assert (W : forall i, (i < n)%nat -> rr i * dd i / sqrt (p_K p i) =
     dd i ^ 2 / sqrt (p_K p i) + turb p * ((norm n v * v i - norm n w * w i) * (v i - w i))).
  { intros i l. unfold rr, dd. rewrite !resid_eq. pose proof (S i l). field. lra. }
  assert (L : d ^ 2 / smax + turb p * (m * d ^ 2) <= sum n (fun i => rr i * dd i / sqrt (p_K p i))).
  { rewrite (sum_ext n _ _ W). rewrite sum_plus. apply Rplus_le_compat.
    - unfold d, dist. rewrite norm_sq. unfold Rdiv. rewrite Rmult_comm, <- sum_scal. apply sum_le. intros i l.
      pose proof (S i l). rewrite Rmult_comm. apply Rmult_le_compat_l; [apply pow2_ge_0|]. apply Rinv_le_contravar; lra.
    - rewrite sum_scal. apply Rmult_le_compat_l; [exact T|]. apply quadratic_monotone. }
  assert (U : sum n (fun i => rr i * dd i / sqrt (p_K p i)) <= norm n rr * d / smin).
  { apply Rle_trans with (sum n (fun i => (/ smin) * (Rabs (rr i) * Rabs (dd i)))).
    - apply sum_le. intros i l. pose proof (S i l). rewrite <- Rabs_mult. unfold Rdiv. rewrite (Rmult_comm (/ smin)).
      apply Rle_trans with (Rabs (rr i * dd i) * / sqrt (p_K p i)).
      + apply Rmult_le_compat_r; [left; apply Rinv_0_lt_compat; lra|apply Rle_abs].
      + apply Rmult_le_compat_l; [apply Rabs_pos|]. apply Rinv_le_contravar; lra.
    - rewrite sum_scal. unfold Rdiv. rewrite (Rmult_comm (norm n rr * d)). apply Rmult_le_compat_l; [left; apply Rinv_0_lt_compat; lra|].
      eapply Rle_trans; [apply (inner_le n (fun i => Rabs (rr i)) (fun i => Rabs (dd i)))|].
      assert (AB : forall f, norm n (fun i => Rabs (f i)) = norm n f).
      { intros f. unfold norm. f_equal. apply sum_ext. intros. apply pow2_abs. }
      rewrite !AB. unfold d, dist. apply Rle_refl. }
  assert (B : d ^ 2 / smax + turb p * (m * d ^ 2) <= norm n rr * d / smin) by lra.
  assert (B2 : d * (d * (1 + turb p * smax * m)) <= d * (smax / smin * norm n rr)).
  { replace (d * (d * (1 + turb p * smax * m))) with (smax * (d ^ 2 / smax + turb p * (m * d ^ 2))) by (field; lra).
    replace (d * (smax / smin * norm n rr)) with (smax * (norm n rr * d / smin)) by (field; lra).
    apply Rmult_le_compat_l; [lra|exact B]. }
  change (dist n (resid n p v) (resid n p w)) with (norm n rr).
  destruct (Rle_lt_or_eq_dec 0 d D) as [P|E].
  - apply Rmult_le_reg_l with d; assumption.
  - rewrite <- E, Rmult_0_l. apply Rmult_le_pos; [|apply norm_nonneg]. left. apply Rdiv_lt_0_compat; assumption.
Qed.

(* ----- existence ----- *)

Section Exists.
Variable n : nat.
Variable p : point.
Hypothesis PH : physical n p.

Definition candidate (t : R) : vec := fun i => darcyVelocity p i / (1 + turb p * sqrt (p_K p i) * Rabs t).

Lemma den_pos : forall t i, 1 <= 1 + turb p * sqrt (p_K p i) * Rabs t.
Proof.
  intros. pose proof (turb_nonneg n p PH). pose proof (sqrt_pos (p_K p i)). pose proof (Rabs_pos t).
  assert (0 <= turb p * sqrt (p_K p i) * Rabs t) by (apply Rmult_le_pos; [apply Rmult_le_pos|]; assumption). lra.
Qed.

Lemma candidate_cont : forall m, continuity (fun t => sum m (fun i => candidate t i ^ 2)).
Proof.
  induction m as [|m IH]; cbn [sum].
  - apply continuity_const. intros ? ?. reflexivity.
  - apply continuity_plus; [exact IH|]. intros t. unfold candidate.
    apply (continuity_pt_comp (fun t => darcyVelocity p m / (1 + turb p * sqrt (p_K p m) * Rabs t)) (fun x => x ^ 2)).
    + apply continuity_pt_div.
      * apply continuity_const. intros ? ?. reflexivity.
      * apply continuity_pt_plus; [apply continuity_const; intros ? ?; reflexivity|].
        apply continuity_pt_scal. apply Rcontinuity_abs.
      * pose proof (den_pos t m). lra.
    + apply derivable_continuous_pt. apply derivable_pt_pow.
Qed.

Lemma norm_cont : continuity (fun t => norm n (candidate t) - t).
Proof.
  apply continuity_minus; [|apply derivable_continuous, derivable_id].
  intros t. unfold norm. apply (continuity_pt_comp (fun t => sum n (fun i => candidate t i ^ 2)) sqrt).
  - apply candidate_cont.
  - apply continuity_pt_sqrt. apply sum_nonneg. intros. apply pow2_ge_0.
Qed.

Lemma candidate_le : forall t i, Rabs (candidate t i) <= Rabs (darcyVelocity p i).
Proof.
  intros. unfold candidate, Rdiv. rewrite Rabs_mult. rewrite <- (Rmult_1_r (Rabs (darcyVelocity p i))) at 2.
  apply Rmult_le_compat_l; [apply Rabs_pos|]. pose proof (den_pos t i) as H. rewrite Rabs_pos_eq.
  - rewrite <- Rinv_1. apply Rinv_le_contravar; lra.
  - left. apply Rinv_0_lt_compat. lra.
Qed.

Lemma velocity_exists : exists v, isVelocity n p v.
Proof.
  set (D := norm n (darcyVelocity p)).
  assert (HD : 0 <= D) by apply norm_nonneg.
  destruct (IVT_cor (fun t => norm n (candidate t) - t) 0 D norm_cont HD) as (t & B & E).
  - assert (0 <= norm n (candidate 0) - 0) by (pose proof (norm_nonneg n (candidate 0)); lra).
    assert (norm n (candidate D) - D <= 0).
    { assert (norm n (candidate D) <= D); [|lra]. unfold D at 2. apply sq_le; [apply norm_nonneg|]. rewrite !norm_sq.
      apply sum_le. intros i l. pose proof (candidate_le D i). rewrite <- (pow2_abs (candidate D i)), <- (pow2_abs (darcyVelocity p i)).
      pose proof (Rabs_pos (candidate D i)). nra. }
    nra.
  - exists (candidate t). assert (N : norm n (candidate t) = t) by lra.
    intros i l. rewrite N. unfold candidate. pose proof (den_pos t i) as DP. rewrite Rabs_pos_eq in * by lra.
    unfold darcyVelocity, turb in *. field. lra.
Qed.

End Exists.

Lemma K_bounds : forall n p, physical n p -> exists smin smax, 0 < smin /\ forall i, (i < n)%nat -> smin <= sqrt (p_K p i) <= smax.
Proof.
  intros n p (_ & _ & _ & _ & K).
  induction n as [|n IH].
  - exists 1, 1. split; [lra|]. intros; lia.
  - destruct IH as (a & b & A & B); [intros; apply K; lia|].
    exists (Rmin a (sqrt (p_K p n))), (Rmax b (sqrt (p_K p n))). split.
    + apply Rmin_glb_lt; [exact A|]. apply sqrt_lt_R0. apply K. lia.
    + intros i l. pose proof (Rmin_l a (sqrt (p_K p n))). pose proof (Rmin_r a (sqrt (p_K p n))).
      pose proof (Rmax_l b (sqrt (p_K p n))). pose proof (Rmax_r b (sqrt (p_K p n))).
      destruct (Nat.eq_dec i n) as [->|E]; [lra|]. pose proof (B i ltac:(lia)). lra.
Qed.

Lemma velocity_unique : forall n p v w, physical n p -> isVelocity n p v -> isVelocity n p w ->
  forall i, (i < n)%nat -> v i = w i.
Proof.
  intros n p v w PH A B. destruct (K_bounds n p PH) as (a & b & AP & S).
  pose proof (residual_controls n p v w a b PH AP S) as R.
  rewrite resid_zero in A, B.
  assert (Z : dist n (resid n p v) (resid n p w) = 0).
  { unfold dist. apply norm_zero. intros i l. rewrite A, B by exact l. ring. }
  rewrite Z, Rmult_0_r in R. intros i l.
  assert (BP : 0 < b) by (pose proof (S i l); lra).
  pose proof (turb_nonneg n p PH). pose proof (norm_nonneg n v). pose proof (norm_nonneg n w). pose proof (norm_nonneg n (fun i => v i - w i)) as DN.
  fold (dist n v w) in DN.
  assert (0 <= turb p * b * ((norm n v + norm n w) / 2)) by (apply Rmult_le_pos; [apply Rmult_le_pos|]; lra).
  assert (D0 : dist n v w = 0) by nra.
  pose proof (norm_zero_inv n _ D0 i l) as Q. cbv beta in Q. lra.
Qed.

Lemma velocity_shape : forall n p v i, physical n p -> isVelocity n p v -> (i < n)%nat ->
  v i * (1 + turb p * sqrt (p_K p i) * norm n v) = darcyVelocity p i.
Proof. intros n p v i _ H l. specialize (H i l). unfold darcyVelocity, turb. lra. Qed.

(* ----- what the iteration returns ----- *)

Lemma tol_pos : 0 < tol.
Proof. unfold tol. apply Rinv_0_lt_compat. apply pow_lt. lra. Qed.

Lemma tol_small : tol <= / 1000.
Proof. unfold tol. apply Rinv_le_contravar; [lra|]. simpl. lra. Qed.

Lemma bump_dist : forall n v i h, (i < n)%nat -> 0 <= h -> dist n (bump v i h) v = h.
Proof.
  intros n v i h l H. unfold dist, norm.
  rewrite (sum_ext n _ (fun k => if Nat.eqb k i then h ^ 2 else 0)).
  2: { intros k _. unfold bump. destruct (Nat.eqb k i); ring. }
  assert (E : forall m, sum m (fun k => if Nat.eqb k i then h ^ 2 else 0) = if Nat.ltb i m then h ^ 2 else 0).
  { induction m as [|m IH]; cbn [sum]; [reflexivity|]. rewrite IH.
    destruct (Nat.ltb_spec i m), (Nat.eqb_spec m i), (Nat.ltb_spec i (Datatypes.S m)); try lia; lra. }
  rewrite E. destruct (Nat.ltb_spec i n) as [_|C]; [|lia]. rewrite <- Rsqr_pow2. apply sqrt_Rsqr. exact H.
Qed.

Lemma coordEps_bounds : forall n v i, (i < n)%nat -> 0 < coordEps v i <= tol + norm n v * (1 + tol).
Proof.
  intros n v i l. pose proof tol_pos as T. unfold coordEps. pose proof (Rmax_l tol (v i * (1 + tol))).
  split; [lra|]. pose proof (component_le n v i l). pose proof (Rle_abs (v i)). pose proof (norm_nonneg n v).
  apply Rmax_lub; nra.
Qed.

Lemma grad_bound : forall n p v i k smax, physical n p -> (i < n)%nat -> (k < n)%nat ->
  (forall i, (i < n)%nat -> sqrt (p_K p i) <= smax) ->
  Rabs (gradResid n p v i k) <= 1 + turb p * smax * ((3 + tol) * norm n v + tol).
Proof.
  intros n p v i k smax PH li lk S. destruct (coordEps_bounds n v i li) as (H0 & H1). set (h := coordEps v i) in *.
  pose proof (turb_nonneg n p PH) as T. pose proof tol_pos as E. pose proof (sqrt_pos (p_K p k)) as SQ. pose proof (S k lk) as SK.
  set (y := bump v i h).
  assert (D : dist n y v = h) by (apply bump_dist; [exact li|lra]).
  assert (N : norm n y <= norm n v + h) by (pose proof (norm_dist n y v); lra).
  pose proof (quadratic_lipschitz n y v k lk) as Q. rewrite D in Q.
  assert (C : Rabs (y k - v k) <= h) by (rewrite <- D; apply (component_le n (fun i => y i - v i)); exact lk).
  unfold gradResid. fold h. fold y. rewrite !resid_eq. unfold Rdiv. rewrite Rabs_mult, (Rabs_pos_eq (/ h)) by (left; apply Rinv_0_lt_compat; lra).
  apply Rmult_le_reg_r with h; [lra|]. rewrite Rmult_assoc, Rinv_l, Rmult_1_r by lra.
  match goal with |- Rabs ?X <= _ => replace X with ((y k - v k) + turb p * sqrt (p_K p k) * (norm n y * y k - norm n v * v k)) by ring end.
  eapply Rle_trans; [apply Rabs_triang|]. rewrite Rabs_mult. rewrite (Rabs_pos_eq (turb p * sqrt (p_K p k))) by (apply Rmult_le_pos; assumption).
  set (q := Rabs (norm n y * y k - norm n v * v k)) in *.
  assert (QB : q <= ((3 + tol) * norm n v + tol) * h).
  { eapply Rle_trans; [exact Q|]. apply Rmult_le_compat_r; [lra|]. lra. }
  assert (TS : turb p * sqrt (p_K p k) <= turb p * smax) by (apply Rmult_le_compat_l; assumption).
  assert (0 <= q) by apply Rabs_pos. assert (0 <= turb p * sqrt (p_K p k)) by (apply Rmult_le_pos; assumption).
  assert (turb p * sqrt (p_K p k) * q <= turb p * smax * (((3 + tol) * norm n v + tol) * h)) by (apply Rmult_le_compat; assumption).
  lra.
Qed.

(** One step: the residual before it, from the size of the update. *)
Lemma step_residual : forall n p v d smax, physical n p ->
  (forall i, (i < n)%nat -> sqrt (p_K p i) <= smax) ->
  (forall i, (i < n)%nat -> sum n (fun k => gradResid n p v i k * d k) = resid n p v i) ->
  forall i, (i < n)%nat -> Rabs (resid n p v i) <= (1 + turb p * smax * ((3 + tol) * norm n v + tol)) * oneNorm n d.
Proof.
  intros n p v d smax PH S E i l. rewrite <- (E i l). eapply Rle_trans; [apply sum_abs|].
  unfold oneNorm. rewrite <- sum_scal. apply sum_le. intros k lk. rewrite Rabs_mult. apply Rmult_le_compat_r; [apply Rabs_pos|].
  apply grad_bound; assumption.
Qed.

Lemma step_error : forall n p v d w smin smax, (0 < n)%nat -> physical n p -> 0 < smin ->
  (forall i, (i < n)%nat -> smin <= sqrt (p_K p i) <= smax) ->
  (forall i, (i < n)%nat -> sum n (fun k => gradResid n p v i k * d k) = resid n p v i) ->
  oneNorm n d <= tol -> isVelocity n p w ->
  dist n (fun i => v i - d i) w <= (smax / smin * sqrt (INR n) * (7 + turb p * smax * tol) + 1) * tol.
Proof.
  intros n p v d w smin smax NP PH SP S E DT W.
  assert (SM : 0 < smax) by (pose proof (S 0%nat NP); lra).
  pose proof (turb_nonneg n p PH) as T. pose proof tol_pos as TP. pose proof tol_small as TS.
  set (A := turb p * smax). assert (HA : 0 <= A) by (apply Rmult_le_pos; lra).
  pose proof (norm_nonneg n v) as NV. pose proof (norm_nonneg n w) as NW.
  set (B := (1 + A * ((3 + tol) * norm n v + tol)) * tol).
  assert (HB : 0 <= B).
  { unfold B. apply Rmult_le_pos; [|lra]. assert (0 <= A * ((3 + tol) * norm n v + tol)); [|lra].
    apply Rmult_le_pos; [exact HA|]. assert (0 <= (3 + tol) * norm n v) by (apply Rmult_le_pos; lra). lra. }
  assert (RB : dist n (resid n p v) (resid n p w) <= sqrt (INR n) * B).
  { unfold dist. apply norm_bound; [exact HB|]. intros i l. rewrite resid_zero in W. rewrite (W i l), Rminus_0_r.
    eapply Rle_trans; [apply (step_residual n p v d smax PH (fun i l => proj2 (S i l)) E i l)|].
    unfold B. fold A. apply Rmult_le_compat_l; [|exact DT].
    assert (0 <= A * ((3 + tol) * norm n v + tol)); [|lra].
    apply Rmult_le_pos; [exact HA|]. assert (0 <= (3 + tol) * norm n v) by (apply Rmult_le_pos; lra). lra. }
  pose proof (residual_controls n p v w smin smax PH SP S) as RC. fold A in RC.
  set (kap := smax / smin) in *. assert (KP : 0 < kap) by (apply Rdiv_lt_0_compat; lra).
  set (den := 1 + A * ((norm n v + norm n w) / 2)) in *.
  assert (DN : 1 <= den).
  { unfold den. assert (0 <= A * ((norm n v + norm n w) / 2)) by (apply Rmult_le_pos; lra). lra. }
  assert (BD : B <= (7 + A * tol) * tol * den).
  { unfold B. rewrite (Rmult_assoc (7 + A * tol)), (Rmult_comm tol den), <- Rmult_assoc. apply Rmult_le_compat_r; [lra|].
    assert (X : 1 + A * ((3 + tol) * norm n v + tol) <= 7 * den + A * tol * 1).
    { unfold den. assert (0 <= A * norm n v) by (apply Rmult_le_pos; lra). assert (0 <= A * norm n w) by (apply Rmult_le_pos; lra).
      replace (A * ((3 + tol) * norm n v + tol)) with ((3 + tol) * (A * norm n v) + A * tol) by ring. nra. }
    assert (0 <= A * tol) by (apply Rmult_le_pos; lra). nra. }
  assert (DV : dist n v w <= kap * sqrt (INR n) * (7 + A * tol) * tol).
  { apply Rmult_le_reg_r with den; [lra|]. eapply Rle_trans; [exact RC|].
    apply Rle_trans with (kap * (sqrt (INR n) * B)); [apply Rmult_le_compat_l; [lra|exact RB]|].
    replace (kap * sqrt (INR n) * (7 + A * tol) * tol * den) with (kap * (sqrt (INR n) * ((7 + A * tol) * tol * den))) by ring.
    apply Rmult_le_compat_l; [lra|]. apply Rmult_le_compat_l; [apply sqrt_pos|exact BD]. }
  pose proof (dist_triangle n (fun i => v i - d i) v w) as TR.
  assert (DD : dist n (fun i => v i - d i) v <= tol).
  { unfold dist. rewrite (norm_ext n _ (fun i => - d i)) by (intros; ring). rewrite norm_opp.
    eapply Rle_trans; [apply norm_le_one|exact DT]. }
  rewrite Rmult_plus_distr_r, Rmult_1_l. lra.
Qed.

(** The loop ends with a step whose update is small. *)
Lemma loop_last : forall solve n p k v dn u, solverSound n solve -> tol < dn ->
  newtonLoop solve n p k v dn = Done u ->
  exists v0 d, (forall i, (i < n)%nat -> sum n (fun k => gradResid n p v0 i k * d k) = resid n p v0 i) /\
    oneNorm n d <= tol /\ u = (fun i => v0 i - d i).
Proof.
  intros solve n p k. induction k as [|k IH]; intros v dn u SS L E; cbn [newtonLoop] in E.
  - destruct (Rle_dec dn tol); [lra|discriminate E].
  - destruct (Rle_dec dn tol); [lra|].
    destruct (solve n (gradResid n p v) (resid n p v)) as [d|] eqn:ES; [|discriminate E].
    destruct (Rle_dec (oneNorm n d) tol) as [Q|Q].
    + exists v, d. split; [intros; apply (SS _ _ _ ES); assumption|]. split; [exact Q|].
      destruct k; cbn [newtonLoop] in E; destruct (Rle_dec (oneNorm n d) tol); try contradiction; injection E as E; symmetry; exact E.
    + apply (IH _ _ _ SS) in E; [exact E|]. lra.
Qed.

Lemma start_norm : forall n, (0 < n)%nat -> tol < oneNorm n (fun _ => 10 ^ 5).
Proof.
  intros n NP. unfold oneNorm. rewrite sum_const. pose proof tol_small.
  assert (1 <= INR n) by (change 1 with (INR 1); apply le_INR; lia).
  rewrite Rabs_pos_eq by (simpl; lra). assert (10 ^ 5 <= INR n * 10 ^ 5); [|simpl in *; lra].
  rewrite <- (Rmult_1_l (10 ^ 5)) at 1. apply Rmult_le_compat_r; [simpl; lra|assumption].
Qed.
