(** C38 (BiCGStab returns true solutions), C39 (convergence criteria) and C40 (block inversion). *)
From Verif Require Import Num BiCGModel BlockInvModel BiCGSpec BiCGProofs CriterionProofs BlockInvProofs.
Open Scope Q_scope.

(** * C38 *)

(** Whatever a criterion decides on the basis of everything it has seen, whatever the operator, the right hand
    side, the scalar product and the preconditioner: every second residual which the criterion sees is the
    true one, those in between belong to the solution seen just before, the solution returned is the last
    one seen, and the solver stops at the first verdict of the criterion or after the maximum number of
    iterations. *)
Theorem C38_what_the_criterion_sees : forall conv fail A dot K b eps n c0 ok x b' log it,
  linear A ->
  apply _ (observer conv fail) A dot K b eps n c0 = Returned ok x (b', log) it ->
  b' = b /\ trueResiduals A b log /\ staleResiduals A b log /\ x = lastSolution log /\
  undecidedBefore conv fail b log /\ (length log <= 2 * n)%nat /\
  (ok = true <-> conv b log = true) /\
  (ok = false -> (log <> [] /\ fail b log = true) \/ length log = (2 * n)%nat).
Proof.
  intros conv fail A dot K b eps n c0 ok x b' log it L E.
  destruct (apply_log conv fail A dot K b eps L n c0 ok x b' log it E) as (A1 & (A2 & A3 & A4) & A5 & A6 & A7 & A8 & _).
  repeat (split; [solve [auto]|]). split; [destruct ok; rewrite A7; intuition congruence|exact A8].
Qed.

(** The iterations reported are those begun before the one which ended the run. *)
Theorem C38_iterations_reported : forall conv fail A dot K b eps n c0 ok x b' log it,
  linear A ->
  apply _ (observer conv fail) A dot K b eps n c0 = Returned ok x (b', log) it ->
  (it <= n)%nat /\ (length log <= 2 * it + 2)%nat /\ (2 * it <= length log)%nat.
Proof.
  intros conv fail A dot K b eps n c0 ok x b' log it L E.
  destruct (apply_log conv fail A dot K b eps L n c0 ok x b' log it E) as (_ & _ & _ & A6 & _ & A8 & ->).
  match goal with |- context [(length log - ?e)%nat] => set (d := e) end.
  assert (D : (d <= 1)%nat) by (subst d; destruct (conv b log || _); lia). clearbody d. pose proof (Nat.div_mod (length log - d) 2 ltac:(lia)) as M.
  pose proof (Nat.mod_upper_bound (length log - d) 2 ltac:(lia)) as U. lia.
Qed.

(** Success: if the verdict depends on the residual only, it holds for the true residual of the vector
    returned. *)
Theorem C38_success_is_genuine : forall St (crit : criterion St) A dot K b eps n c0 f x c it,
  linear A -> dependsOnResidual crit c0 f -> (forall r s, same r s -> f b r = f b s) ->
  apply St crit A dot K b eps n c0 = Returned true x c it ->
  f b (residual A b x) = true.
Proof.
  intros St crit A dot K b eps n c0 f x c it L (inv & S & U) P E.
  exact (apply_residual St crit A dot K b eps L c0 f P inv S U n x c it E).
Qed.

(** With the criterion used by the simulator the residual of what is returned obeys one of the two bounds. *)
Theorem C38_combined_bound : forall n A dot K b eps max c0 rt at_ x c it,
  linear A -> cc_reduction c0 = Fin rt -> cc_abs c0 = Fin at_ -> 0 <= rt -> 0 <= at_ ->
  apply _ (combinedCriterion n) A dot K b eps max c0 = Returned true x c it ->
  (forall i, (i < n)%nat -> Qabs (b i - A x i) <= at_) \/
  (forall i, (i < n)%nat -> Qabs (b i - A x i) <= rt * (1 # 10^20)) \/
  (exists j, (j < n)%nat /\ forall i, (i < n)%nat -> Qabs (b i - A x i) <= rt * Qabs (b j)).
Proof.
  intros n A dot K b eps max c0 rt at_ x c it L Er Ea R0 A0 E.
  destruct (cc_f_exact n c0 rt at_ b Er Ea R0 A0) as (m & W & X).
  assert (P : forall r s, same r s -> cc_f n c0 b r = cc_f n c0 b s).
  { intros r s H. apply eq_true_iff_eq. rewrite !X.
    split; (intros [Y|Y]; [left|right]; intros i B; [rewrite <- (H i) || rewrite (H i)|rewrite <- (H i) || rewrite (H i)]; auto). }
  pose proof (C38_success_is_genuine _ _ A dot K b eps max c0 _ x c it L (combined_depends n c0) P E) as S.
  apply X in S. destruct S as [S|S]; [|left; exact S]. right. destruct W as [->|(j & Lj & ->)]; [left; exact S|right; eauto].
Qed.

(** ** What goes wrong: an exactly solved system. *)
Definition exA : vec -> vec := fun u i => match i with O => u O + u 1%nat | 1%nat => 2 * u 1%nat | _ => 0 end.
Definition exb : vec := fun i => match i with O => 1 | 1%nat => - (1) | _ => 0 end.
Definition dot2 : vec -> vec -> Q := fun u v => u O * v O + u 1%nat * v 1%nat.
Definition noPre : nat -> vec -> vec -> vec := fun _ _ d => d.
Definition exCrit : combined := mkCombined (Fin (1 # 100)) (Fin 0) (Fin 1000) (Fin 0) (Fin 0) false.
Lemma exA_linear : linear exA.
Proof.
  split.
  - intros u v S [|[|i]]; cbn; [rewrite (S O), (S 1%nat)|rewrite (S 1%nat)|]; reflexivity.
  - intros u v [|[|i]]; cbn; ring.
  - intros a u [|[|i]]; cbn; ring.
Qed.

(** Not every residual seen by the criterion is the true one. *)
Theorem C38_residual_seen_is_true_refuted :
  ~ (forall conv fail A dot K b eps n c0 ok x b' log it, linear A ->
       apply _ (observer conv fail) A dot K b eps n c0 = Returned ok x (b', log) it ->
       forall e, In e log -> same (s_residual e) (residual A b (s_solution e))).
Proof.
  intro H.
  assert (C : match apply _ (observer (fun _ _ => false) (fun _ _ => false)) exA dot2 noPre exb tiny 1 (vzero, []) with
              | Returned _ _ (_, log) _ => forallb (fun e => Qeq_bool (s_residual e O) (residual exA exb (s_solution e) O)) log
              | Breakdown => true end = false) by (vm_compute; reflexivity).
  destruct (apply _ _ _ _ _ _ _ _ _) as [ok x (b', log) it|] eqn:E in C; [|discriminate].
  specialize (H _ _ _ _ _ _ _ _ _ _ _ _ _ _ exA_linear E).
  rewrite (proj2 (forallb_forall _ _)) in C; [discriminate|]. intros e I. apply Qeq_bool_iff. apply (H e I).
Qed.

(** A run may end with the exact solution and report failure. *)
Theorem C38_exact_solution_is_success_refuted :
  ~ (forall A dot K b n c0 ok x c it, linear A ->
       apply _ (combinedCriterion 2) A dot K b tiny n c0 = Returned ok x c it -> solves A b x -> ok = true).
Proof.
  intro H.
  assert (C : match apply _ (combinedCriterion 2) exA dot2 noPre exb tiny 1 exCrit with
              | Returned ok x _ _ => ok = false /\ x O == 3 # 2 /\ x 1%nat == - (1 # 2)
              | Breakdown => False end) by (vm_compute; repeat split).
  destruct (apply _ _ _ _ _ _ _ _ _) as [ok x c it|] eqn:E in C; [|contradiction].
  destruct C as (-> & X0 & X1). specialize (H _ _ _ _ _ _ _ _ _ _ exA_linear E). discriminate H.
  intros [|[|i]]; cbn; [rewrite X0, X1|rewrite X1|]; reflexivity.
Qed.
(** Given another iteration, the same run ends with an exception. *)
Theorem C38_exact_solution_no_breakdown_refuted :
  ~ (forall A dot K b n c0 ok x c it, linear A ->
       apply _ (combinedCriterion 2) A dot K b tiny n c0 = Returned ok x c it -> solves A b x ->
       forall m, (n <= m)%nat -> apply _ (combinedCriterion 2) A dot K b tiny m c0 <> Breakdown).
Proof.
  intro H.
  assert (C : match apply _ (combinedCriterion 2) exA dot2 noPre exb tiny 1 exCrit with
              | Returned ok x _ _ => ok = false /\ x O == 3 # 2 /\ x 1%nat == - (1 # 2)
              | Breakdown => False end) by (vm_compute; repeat split).
  destruct (apply _ _ _ _ _ _ _ _ _) as [ok x c it|] eqn:E in C; [|contradiction].
  destruct C as (-> & X0 & X1). refine (H _ _ _ _ _ _ _ _ _ _ exA_linear E _ 2%nat _ _).
  - intros [|[|i]]; cbn; [rewrite X0, X1|rewrite X1|]; reflexivity.
  - lia.
  - vm_compute. reflexivity.
Qed.

(** A run that succeeds: the diagonal system with the same right hand side and the exact preconditioner. *)
Example bicg_success :
  match apply _ (combinedCriterion 2) exA dot2 (fun _ _ d i => match i with O => d O - d 1%nat / 2 | _ => d i / 2 end) exb tiny 5 exCrit with
  | Returned ok x _ it => ok = true /\ it = 0%nat /\ x O == 3 # 2 /\ x 1%nat == - (1 # 2)
  | Breakdown => False end.
Proof. vm_compute. repeat split. Qed.
(** An observed run with more than one iteration. *)
Example bicg_two_iterations :
  match apply _ (observer (fun _ log => Nat.eqb (length log) 3) (fun _ _ => false))
          (fun u i => match i with O => u O + u 1%nat | 1%nat => 3 * u 1%nat + u 2%nat | 2%nat => 2 * u 2%nat - u O | _ => 0 end)
          (fun u v => u O * v O + u 1%nat * v 1%nat + u 2%nat * v 2%nat) noPre (fun i => match i with O => 1 | 1%nat => 2 | 2%nat => 3 | _ => 0 end)
          tiny 7 (vzero, []) with
  | Returned ok _ (_, log) it => ok = true /\ length log = 3%nat /\ it = 1%nat
  | Breakdown => False end.
Proof. vm_compute. repeat split. Qed.

(** * C39 *)

(** The combined criterion accepts a residual free of NaN exactly if all entries on all processes are
    within the absolute tolerance, or within the reduction tolerance times the initial residual (or 1e-20 if
    that is larger). *)
Theorem C39_combined_accepts_exactly : forall c rt at_ i change resid,
  cc_reduction c = Fin rt -> cc_abs c = Fin at_ -> cc_initial c = Fin i -> 0 <= rt -> 0 <= at_ -> noNaN resid ->
  cc_converged (cc_updateErrors c change resid) = true <->
  boundedBy (Fin (rt * (if Qltb (1 # 10^20) i then i else 1 # 10^20))) resid \/ boundedBy (Fin at_) resid.
Proof.
  intros c rt at_ i change resid Er Ea Ei R A N. rewrite (cc_exact c rt at_ i change resid Er Ea Ei R A).
  rewrite !noNaN_bounded by exact N. reflexivity.
Qed.
(** Hence an infinite entry is never accepted. *)
Theorem C39_combined_rejects_infinity : forall c rt at_ i change resid p x,
  cc_reduction c = Fin rt -> cc_abs c = Fin at_ -> cc_initial c = Fin i -> 0 <= rt -> 0 <= at_ ->
  In p resid -> In x p -> x = PInf \/ x = NInf ->
  cc_converged (cc_updateErrors c change resid) = false.
Proof.
  intros c rt at_ i change resid p x Er Ea Ei R A Ip Ix Inf.
  destruct (cc_converged _) eqn:C; [|reflexivity]. exfalso.
  apply (cc_exact c rt at_ i change resid Er Ea Ei R A) in C.
  destruct C as [C|C]; specialize (C p x Ip Ix); destruct Inf as [-> | ->]; specialize (C ltac:(discriminate)); discriminate C.
Qed.
(** NaN entries are not seen at all. *)
Theorem C39_combined_rejects_nan_refuted :
  ~ (forall c change resid, hasNaN resid -> cc_converged (cc_updateErrors c change resid) = false).
Proof.
  intro H. specialize (H exCrit [[Fin 1]] [[NaN]]). vm_compute in H. discriminate H.
  exists [NaN]. split; left; reflexivity.
Qed.
Theorem C39_combined_ignores_nan : forall c rt at_ i change resid,
  cc_reduction c = Fin rt -> cc_abs c = Fin at_ -> cc_initial c = Fin i -> 0 <= rt -> 0 <= at_ ->
  cc_converged (cc_updateErrors c change resid) =
  cc_converged (cc_updateErrors c change (map (filter (fun x => negb (is_nan x))) resid)).
Proof.
  intros c rt at_ i change resid Er Ea Ei R A.
  apply eq_true_iff_eq. rewrite !(cc_exact c rt at_ i change _ Er Ea Ei R A).
  assert (Q : forall t, (forall p x, In p resid -> In x p -> x <> NaN -> nleb (nabs x) t = true) <->
     (forall p x, In p (map (filter (fun x => negb (is_nan x))) resid) -> In x p -> x <> NaN -> nleb (nabs x) t = true)).
  { intro t. split.
    - intros H p x Ip Ix Nx. apply in_map_iff in Ip. destruct Ip as (q & <- & Iq). apply filter_In in Ix. eapply H; [exact Iq|apply Ix|exact Nx].
    - intros H p x Ip Ix Nx. eapply H; [apply in_map; exact Ip| |exact Nx]. apply filter_In. split; [exact Ix|]. destruct x; try reflexivity. congruence. }
  rewrite !Q. reflexivity.
Qed.
(** The verdict does not depend on which process holds which entry. *)
Theorem C39_combined_distribution : forall c rt at_ i change change' resid resid',
  cc_reduction c = Fin rt -> cc_abs c = Fin at_ -> cc_initial c = Fin i -> 0 <= rt -> 0 <= at_ ->
  (forall x, In x (concat resid) <-> In x (concat resid')) ->
  cc_converged (cc_updateErrors c change resid) = cc_converged (cc_updateErrors c change' resid').
Proof.
  intros c rt at_ i change change' resid resid' Er Ea Ei R A H.
  apply eq_true_iff_eq. rewrite !(cc_exact c rt at_ i _ _ Er Ea Ei R A).
  assert (Q : forall t l, (forall p x, In p l -> In x p -> x <> NaN -> nleb (nabs x) t = true) <->
     (forall x, In x (concat l) -> x <> NaN -> nleb (nabs x) t = true)).
  { intros t l. split.
    - intros F x Ix Nx. apply in_concat in Ix. destruct Ix as (p & Ip & Ix). eauto.
    - intros F p x Ip Ix Nx. apply F; [|exact Nx]. apply in_concat. eauto. }
  rewrite !Q. setoid_rewrite H. reflexivity.
Qed.
Theorem C39_combined_never_both : forall c, ~ (cc_converged c = true /\ cc_failed c = true).
Proof. intros c [C F]. rewrite (cc_never_both c C) in F. discriminate. Qed.
(** Failure is reported exactly if the residual is not accepted and either nothing changed on any process
    or some entry exceeds the maximum. *)
Theorem C39_combined_fails_exactly : forall c change resid,
  nleb (Fin 0) (cc_max c) = true ->
  cc_failed (cc_updateErrors c change resid) = true <->
  cc_converged (cc_updateErrors c change resid) = false /\
  ((forall p x, In p change -> In x p -> exists q, x = Fin q /\ q == 0) \/
   (exists p x, In p resid /\ In x p /\ nltb (cc_max c) (nabs x) = true)).
Proof.
  intros c change resid M. unfold cc_failed. rewrite andb_true_iff, negb_true_iff, orb_true_iff.
  assert (Stag : cc_stagnates (cc_updateErrors c change resid) = true <-> forall p x, In p change -> In x p -> exists q, x = Fin q /\ q == 0).
  { cbn [cc_updateErrors cc_stagnates]. rewrite forallb_forall. split.
    - intros H p x Ip Ix. specialize (H p Ip). rewrite forallb_forall in H. specialize (H x Ix).
      destruct x; try discriminate. apply Qeq_bool_iff in H. eauto.
    - intros H p Ip. apply forallb_forall. intros x Ix. destruct (H p x Ip Ix) as (q & -> & E). apply Qeq_bool_iff. exact E. }
  rewrite Stag. apply and_iff_compat_l. apply or_iff_compat_l.
  cbn [cc_updateErrors cc_max cc_error]. split.
  - intro H. destruct (maxOver_which (map (map nabs) resid)) as [E|(p & Ip & Ix)].
    + rewrite E in H. destruct (cc_max c); cbn [nltb nleb] in *; try discriminate. apply Qltb_lt in H. apply Qle_bool_iff in M. lra.
    + apply in_map_iff in Ip. destruct Ip as (q & <- & Iq). apply in_map_iff in Ix. destruct Ix as (x & E & Ix). rewrite <- E in H. eauto.
  - intros (p & x & Ip & Ix & H). destruct (nltb (cc_max c) (maxOver _)) eqn:B; [reflexivity|exfalso].
    assert (N : cc_max c <> NaN) by (intro E; rewrite E in M; discriminate).
    apply nltb_leb' in B; [|exact N|apply maxOver_nan].
    assert (Nx : x <> NaN) by (intros ->; destruct (cc_max c); discriminate).
    pose proof (proj1 (maxOver_abs resid (cc_max c) M) B p x Ip Ix Nx) as L.
    pose proof (nle_lt_trans _ _ _ L H) as C. destruct x; cbn in C; try discriminate. apply Qltb_lt in C. lra.
Qed.

(** The weighted criterion: a residual free of NaN is accepted exactly if the weighted entries are small. *)
Theorem C39_weighted_accepts_exactly : forall c w rt at_ i sol resid,
  wc_weights c = Some w -> wc_reduction c = Fin rt -> wc_abs c = Fin at_ -> wc_initial c = Fin i -> 0 <= rt -> 0 <= at_ ->
  let accepted t := forall p k wp rp a r, nth_error w p = Some wp -> nth_error resid p = Some rp ->
    nth_error wp k = Some (Fin a) -> nth_error rp k = Some (Fin r) -> a * Qabs r <= t in
  (forall p x, In p w -> In x p -> is_fin x = true) -> (forall p x, In p resid -> In x p -> is_fin x = true) ->
  wc_converged (wc_updateErrors c sol resid) = true <->
  accepted (rt * (if Qltb (1 # 10^20) i then i else 1 # 10^20)) \/ accepted at_.
Proof.
  intros c w rt at_ i sol resid Ew Er Ea Ei R A accepted Fw Fr.
  unfold wc_converged, wc_updateErrors. cbn [wc_error wc_initial wc_reduction wc_abs]. rewrite Ew, Er, Ea, Ei.
  rewrite floor20_max, div_le by (try apply maxOver_nonneg; apply floor20_pos).
  rewrite orb_true_iff, !maxOver_le.
  assert (Q : forall t, 0 <= t -> (nleb (Fin 0) (Fin t) = true /\ (forall p x, In p (zipWith (zipWith nmul) w (map (map nabs) resid)) -> In x p -> x <> NaN -> nleb x (Fin t) = true)) <-> accepted t).
  { intros t T. split.
    - intros [_ H] p k wp rp a r E1 E2 E3 E4.
      assert (X : exists q, In q (zipWith (zipWith nmul) w (map (map nabs) resid)) /\ In (nmul (Fin a) (Fin (Qabs r))) q).
      { apply in_zipWith2. exists p, k, wp, (map nabs rp), (Fin a), (Fin (Qabs r)).
        rewrite (map_nth_error _ _ _ E2), (map_nth_error _ _ _ E4). auto 6. }
      destruct X as (q & I1 & I2). specialize (H _ _ I1 I2 ltac:(discriminate)). apply Qle_bool_iff in H. exact H.
    - intro H. split; [apply Qle_bool_iff; exact T|]. intros q x I1 I2 _.
      assert (X : exists q, In q (zipWith (zipWith nmul) w (map (map nabs) resid)) /\ In x q) by eauto.
      apply in_zipWith2 in X. destruct X as (p & k & wp & rp' & a & r & E1 & E2 & E3 & E4 & ->).
      rewrite nth_error_map in E2. destruct (nth_error resid p) as [rp|] eqn:Rp; [|discriminate]. injection E2 as <-.
      rewrite nth_error_map in E4. destruct (nth_error rp k) as [r0|] eqn:Rk; [|discriminate]. injection E4 as <-.
      pose proof (Fw _ _ (nth_error_In _ _ E1) (nth_error_In _ _ E3)) as F1.
      pose proof (Fr _ _ (nth_error_In _ _ Rp) (nth_error_In _ _ Rk)) as F2.
      destruct a; try discriminate F1. destruct r0; try discriminate F2. apply Qle_bool_iff. eapply H; eauto. }
  rewrite !Q; [reflexivity|exact A|]. apply Qmult_le_0_compat; [exact R|]. apply Qlt_le_weak, floor20_pos.
Qed.
(** It may report convergence and failure together, but only if the error exceeds the maximum. *)
Theorem C39_weighted_never_both_partial : forall c,
  nltb (wc_max c) (wc_error c) = false -> ~ (wc_converged c = true /\ wc_failed c = true).
Proof. intros c M [C F]. unfold wc_failed in F. rewrite C, M in F. discriminate. Qed.
Theorem C39_weighted_never_both_refuted :
  ~ (forall c sol resid, ~ (wc_converged (wc_updateErrors c sol resid) = true /\ wc_failed (wc_updateErrors c sol resid) = true)).
Proof.
  intro H. apply (H (mkWeighted None (Fin (1 # 10)) (Fin 0) (Fin 0) (Fin 50) (Fin 1000) (Fin 1000) (Fin 1) [[Fin 0]]) [[Fin 5]] [[Fin 60]]).
  split; vm_compute; reflexivity.
Qed.
Theorem C39_weighted_rejects_nan_refuted :
  ~ (forall c sol resid, hasNaN resid -> wc_converged (wc_updateErrors c sol resid) = false).
Proof.
  intro H. specialize (H (mkWeighted None (Fin (1 # 10)) (Fin 0) (Fin 0) (Fin 50) (Fin 1) (Fin 1) (Fin 1) [[Fin 0]]) [[Fin 5]] [[NaN]]).
  vm_compute in H. discriminate H. exists [NaN]. split; left; reflexivity.
Qed.

(** The criterion based on the norm of the scalar product rejects NaN: the initial residual and any later
    one. *)
Theorem C39_reduction_rejects_nan : forall root c resid, root NaN = NaN -> hasNaN resid ->
  rc_converged (rc_update (fun l => root (sumSquares l)) c resid) = false /\
  rc_converged (rc_setInitial (fun l => root (sumSquares l)) c resid) = false.
Proof.
  intros root c resid Z N. unfold rc_converged, rc_update, rc_setInitial. cbn [rc_defect rc_initial rc_tolerance].
  rewrite (sumSquares_nan resid N), Z. split; reflexivity.
Qed.

(** The fix point criterion accepts exactly if all weighted changes are below the tolerance ... *)
Theorem C39_fixpoint_accepts_exactly : forall c t sol,
  fc_weights c = None -> fc_tolerance c = Fin t ->
  (forall p x, In p sol -> In x p -> is_fin x = true) -> (forall p x, In p (fc_last c) -> In x p -> is_fin x = true) ->
  fc_converged (fc_update c sol) = true <->
  0 < t /\ (forall p k sp lp s l, nth_error sol p = Some sp -> nth_error (fc_last c) p = Some lp ->
     nth_error sp k = Some (Fin s) -> nth_error lp k = Some (Fin l) -> Qabs (s - l) < t).
Proof.
  intros c t sol Ew Et Fs Fl. unfold fc_converged, fc_update. cbn [fc_delta fc_tolerance]. rewrite Ew, Et, maxOver_lt. split.
  - intros [T H]. apply Qltb_lt in T. split; [exact T|]. intros p k sp lp s l E1 E2 E3 E4.
    assert (X : exists q, In q (zipWith (zipWith (fun cur last => nabs (nadd cur (nopp last)))) sol (fc_last c)) /\ In (Fin (Qabs (s - l))) q).
    { apply in_zipWith2. exists p, k, sp, lp, (Fin s), (Fin l). auto 6. }
    destruct X as (q & I1 & I2). specialize (H _ _ I1 I2 ltac:(discriminate)). apply Qltb_lt in H. exact H.
  - intros [T H]. split; [apply Qltb_lt; exact T|]. intros q x I1 I2 _.
    assert (X : exists q, In q (zipWith (zipWith (fun cur last => nabs (nadd cur (nopp last)))) sol (fc_last c)) /\ In x q) by eauto.
    apply in_zipWith2 in X. destruct X as (p & k & sp & lp & s & l & E1 & E2 & E3 & E4 & ->).
    pose proof (Fs _ _ (nth_error_In _ _ E1) (nth_error_In _ _ E3)) as F1.
    pose proof (Fl _ _ (nth_error_In _ _ E2) (nth_error_In _ _ E4)) as F2.
    destruct s; try discriminate F1. destruct l; try discriminate F2. apply Qltb_lt. eapply H; eauto.
Qed.
(** ... and a solution with NaN as well. *)
Theorem C39_fixpoint_rejects_nan_refuted :
  ~ (forall c sol, hasNaN sol -> fc_converged (fc_update c sol) = false).
Proof.
  intro H. specialize (H (mkFixpoint None (Fin 1) (Fin 1000) [[Fin 0]]) [[NaN]]). vm_compute in H. discriminate H.
  exists [NaN]. split; left; reflexivity.
Qed.

(** The whole history of the criterion based on the norm: it accepts exactly if the norm of the latest
    residual is at most the tolerance times the norm of the first one (or the smallest positive number if
    that is larger), whatever came in between. *)
Theorem C39_reduction_accepts_exactly : forall norm c first between latest q0 q t,
  rc_tolerance c = Fin t -> norm first = Fin q0 -> norm latest = Fin q -> 0 <= q ->
  rc_converged (rc_update norm (fold_left (rc_update norm) between (rc_setInitial norm c first)) latest) = true <->
  q <= t * (if Qltb q0 tiny then tiny else q0).
Proof.
  intros norm c first between latest q0 q t Et E0 E Pq.
  assert (I : forall l d, rc_initial (fold_left (rc_update norm) l d) = rc_initial d /\ rc_tolerance (fold_left (rc_update norm) l d) = rc_tolerance d).
  { induction l as [|r l IH]; intro d; [split; reflexivity|]. cbn [fold_left]. destruct (IH (rc_update norm d r)) as [A B].
    rewrite A, B. split; reflexivity. }
  destruct (I between (rc_setInitial norm c first)) as [A B].
  set (d := fold_left (rc_update norm) between (rc_setInitial norm c first)) in *.
  unfold rc_converged. cbn [rc_update rc_defect rc_initial rc_tolerance]. rewrite A, B.
  cbn [rc_setInitial rc_initial rc_tolerance]. rewrite E0, E, Et. unfold nmax. cbn [nltb].
  assert (P : 0 < (if Qltb q0 tiny then tiny else q0)).
  { destruct (Qltb q0 tiny) eqn:Q; [exact tiny_pos|]. pose proof tiny_pos. unfold Qltb in Q. apply negb_false_iff, Qle_bool_iff in Q. lra. }
  replace (if Qltb q0 tiny then Fin tiny else Fin q0) with (Fin (if Qltb q0 tiny then tiny else q0)) by (destruct (Qltb q0 tiny); reflexivity).
  rewrite div_le; [|cbn [nleb]; apply Qle_bool_iff; exact Pq|exact P]. cbn [nleb]. apply Qle_bool_iff.
Qed.
Print Assumptions C39_reduction_accepts_exactly.

(** Before the first iteration, the first residual is its own latest one. *)
Theorem C39_reduction_at_the_start : forall norm c first q0 t,
  rc_tolerance c = Fin t -> norm first = Fin q0 -> 0 <= q0 ->
  rc_converged (rc_setInitial norm c first) = true <-> q0 <= t * (if Qltb q0 tiny then tiny else q0).
Proof.
  intros norm c first q0 t Et E0 Pq.
  rewrite <- (C39_reduction_accepts_exactly norm c first [] first q0 q0 t Et E0 E0 Pq).
  cbn [fold_left]. reflexivity.
Qed.
Print Assumptions C39_reduction_at_the_start.

(** The whole history of the fix point criterion with weights: it accepts exactly if every weighted change
    since the solution seen just before is below the tolerance. *)
Theorem C39_weighted_fixpoint_accepts_exactly : forall c w t first between latest,
  fc_weights c = Some w -> fc_tolerance c = Fin t ->
  let before := last between first in
  (forall p x, In p w -> In x p -> is_fin x = true) ->
  (forall p x, In p latest -> In x p -> is_fin x = true) -> (forall p x, In p before -> In x p -> is_fin x = true) ->
  fc_converged (fc_update (fold_left fc_update between (fc_setInitial c first)) latest) = true <->
  0 < t /\ (forall p k wp sp lp a s l, nth_error w p = Some wp -> nth_error latest p = Some sp -> nth_error before p = Some lp ->
     nth_error wp k = Some (Fin a) -> nth_error sp k = Some (Fin s) -> nth_error lp k = Some (Fin l) -> a * Qabs (s - l) < t).
Proof.
  intros c w t first between latest Ew Et before Fw Fs Fl.
  assert (I : forall l d, fc_last (fold_left fc_update l d) = last l (fc_last d) /\ fc_tolerance (fold_left fc_update l d) = fc_tolerance d
            /\ fc_weights (fold_left fc_update l d) = fc_weights d).
  { induction l as [|r l IH]; intro d; [auto|]. cbn [fold_left]. destruct (IH (fc_update d r)) as (A & B & C).
    rewrite A, B, C. split; [|split; reflexivity]. cbn [fc_update fc_last]. destruct l as [|y l]; [reflexivity|]. clear. revert y.
    induction l as [|z l IH]; intro y; [reflexivity|]. cbn [last] in *. apply IH. }
  destruct (I between (fc_setInitial c first)) as (A & B & C). cbn [fc_setInitial fc_last fc_tolerance fc_weights] in A, B, C.
  fold before in A. unfold fc_converged. cbn [fc_update fc_delta fc_tolerance]. rewrite A, B, C, Ew, Et, maxOver_lt. split.
  - intros [T H]. apply Qltb_lt in T. split; [exact T|]. intros p k wp sp lp a s l E0 E1 E2 E3 E4 E5.
    assert (X : exists q, In q (zipWith (zipWith nmul) w (zipWith (zipWith (fun cur last => nabs (nadd cur (nopp last)))) latest before)) /\ In (nmul (Fin a) (Fin (Qabs (s - l)))) q).
    { apply in_zipWith2. exists p, k, wp, (zipWith (fun cur last => nabs (nadd cur (nopp last))) sp lp), (Fin a), (Fin (Qabs (s - l))).
      rewrite !nth_zipWith, E1, E2, E4, E5. auto 8. }
    destruct X as (q & I1 & I2). specialize (H _ _ I1 I2 ltac:(discriminate)). apply Qltb_lt in H. exact H.
  - intros [T H]. split; [apply Qltb_lt; exact T|]. intros q x I1 I2 _.
    assert (X : exists q, In q (zipWith (zipWith nmul) w (zipWith (zipWith (fun cur last => nabs (nadd cur (nopp last)))) latest before)) /\ In x q) by eauto.
    apply in_zipWith2 in X. destruct X as (p & k & wp & dp & a & d & E1 & E2 & E3 & E4 & ->).
    rewrite nth_zipWith in E2. destruct (nth_error latest p) as [sp|] eqn:Es; [|discriminate].
    destruct (nth_error before p) as [lp|] eqn:El; [|discriminate]. injection E2 as <-.
    rewrite nth_zipWith in E4. destruct (nth_error sp k) as [s|] eqn:Es'; [|discriminate].
    destruct (nth_error lp k) as [l|] eqn:El'; [|discriminate]. injection E4 as <-.
    pose proof (Fs _ _ (nth_error_In _ _ Es) (nth_error_In _ _ Es')) as F1.
    pose proof (Fl _ _ (nth_error_In _ _ El) (nth_error_In _ _ El')) as F2.
    pose proof (Fw _ _ (nth_error_In _ _ E1) (nth_error_In _ _ E3)) as F3.
    destruct s; try discriminate F1. destruct l; try discriminate F2. destruct a; try discriminate F3.
    apply Qltb_lt. exact (H _ _ _ _ _ _ _ _ E1 Es El E3 Es' El').
Qed.
Print Assumptions C39_weighted_fixpoint_accepts_exactly.
Example fixpoint_history :
  let c := mkFixpoint (Some [[Fin 2]]) (Fin 1) (Fin 0) [] in
  fc_converged (fc_update (fold_left fc_update [[[Fin 7]]] (fc_setInitial c [[Fin 0]])) [[Fin (29 # 4)]]) = true /\
  fc_converged (fc_update (fold_left fc_update [[[Fin 7]]] (fc_setInitial c [[Fin 0]])) [[Fin (15 # 2)]]) = false.
Proof. split; vm_compute; reflexivity. Qed.
Example reduction_history :
  let c := mkReduction (Fin (1 # 10)) (Fin 0) (Fin 0) in let n l := match l with [[x]] => x | _ => NaN end in
  rc_converged (rc_update n (fold_left (rc_update n) [[[Fin 50]]] (rc_setInitial n c [[Fin 4]])) [[Fin (2 # 5)]]) = true /\
  rc_converged (rc_update n (fold_left (rc_update n) [[[Fin 50]]] (rc_setInitial n c [[Fin 4]])) [[Fin (3 # 5)]]) = false.
Proof. split; vm_compute; reflexivity. Qed.

Example combined_accepts : cc_converged (cc_updateErrors (cc_setInitial exCrit [[Fin 0]; [Fin 0]] [[Fin 3]; [Fin (-(4))]]) [[Fin 1]; [Fin 0]] [[Fin (1 # 50)]; [Fin (-(1 # 25))]]) = true.
Proof. vm_compute. reflexivity. Qed.
Example combined_fails : cc_failed (cc_updateErrors (cc_setInitial exCrit [[Fin 0]; [Fin 0]] [[Fin 3]; [Fin 4]]) [[Fin 0]; [Fin 0]] [[Fin 2]; [Fin 3]]) = true
  /\ cc_failed (cc_updateErrors (cc_setInitial exCrit [[Fin 0]; [Fin 0]] [[Fin 3]; [Fin 4]]) [[Fin 0]; [Fin 1]] [[Fin 2]; [Fin 3]]) = false.
Proof. split; vm_compute; reflexivity. Qed.

(** * C40 *)

(** A 4x4 block: what comes out is the inverse, from both sides, and the value returned is the
    determinant. *)
Theorem C40_inverse_of_4x4 : forall m inv d, invertMatrix4 m = Some (inv, d) ->
  inverseOf 4 m inv /\ d == det 4 m.
Proof. intros m inv d E. destruct (inverse4 m inv d E) as (A & B & _). auto. Qed.
(** The exception is thrown exactly if the determinant is below 1e-40 in magnitude. *)
Theorem C40_rejected_exactly : forall m, invertMatrix4 m = None <-> - (1 # 10^40) < det 4 m < 1 # 10^40.
Proof. exact fails4. Qed.
(** So every singular block is reported ... *)
Theorem C40_singular_reported : forall m, det 4 m == 0 -> invertMatrix4 m = None.
Proof. intros m E. apply fails4. rewrite E. split; reflexivity. Qed.
(** ... but not every regular block is inverted. *)
Theorem C40_every_regular_block_inverted_refuted :
  ~ (forall m, ~ det 4 m == 0 -> exists inv d, invertMatrix4 m = Some (inv, d)).
Proof.
  intro H. destruct (H (fun i j => if Nat.eqb i j then 1 # 10^11 else 0)) as (inv & d & E).
  - vm_compute. discriminate.
  - vm_compute in E. discriminate.
Qed.
Example inverted : exists inv d,
  invertMatrix4 (fun i j => match i, j with 0%nat, 0%nat => 2 | 0%nat, 3%nat => 1 | 1%nat, 2%nat => 3 | 2%nat, 1%nat => 1 | 3%nat, 0%nat => 1 | 3%nat, 3%nat => 1 | _, _ => 0 end) = Some (inv, d) /\ d == - (3).
Proof. eexists. eexists. split; [reflexivity|]. vm_compute. reflexivity. Qed.

Print Assumptions C38_what_the_criterion_sees.
Print Assumptions C38_iterations_reported.
Print Assumptions C38_success_is_genuine.
Print Assumptions C38_combined_bound.
Print Assumptions C38_residual_seen_is_true_refuted.
Print Assumptions C38_exact_solution_is_success_refuted.
Print Assumptions C38_exact_solution_no_breakdown_refuted.
Print Assumptions C39_combined_accepts_exactly.
Print Assumptions C39_combined_rejects_infinity.
Print Assumptions C39_combined_rejects_nan_refuted.
Print Assumptions C39_combined_ignores_nan.
Print Assumptions C39_combined_distribution.
Print Assumptions C39_combined_never_both.
Print Assumptions C39_combined_fails_exactly.
Print Assumptions C39_weighted_accepts_exactly.
Print Assumptions C39_weighted_never_both_partial.
Print Assumptions C39_weighted_never_both_refuted.
Print Assumptions C39_weighted_rejects_nan_refuted.
Print Assumptions C39_reduction_rejects_nan.
Print Assumptions C39_fixpoint_accepts_exactly.
Print Assumptions C39_fixpoint_rejects_nan_refuted.
Print Assumptions C40_inverse_of_4x4.
Print Assumptions C40_rejected_exactly.
Print Assumptions C40_singular_reported.
Print Assumptions C40_every_regular_block_inverted_refuted.
