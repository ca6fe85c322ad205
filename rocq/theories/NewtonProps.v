(** C19 - C22: the Newton method. *)
From Verif Require Import NewtonModel NewtonSpec NewtonProofs.

(** A problem with one unknown: residual x - 2, exact linear solver. *)
Definition linear_env : env := fun sol _ =>
  let r := match sol with [x] :: _ => x - 2 | _ => 0 end in
  mkResponse true (LinOk [mkRow true true None [Fin r] [Fin 1]] []) (SolOk [[Fin r]]) (Some [[Fin r]]) true.
Definition cfg : config := mkConfig (Fin (1 # 100)) 20 10 (Fin 1000).

(** Success: the last error computed is at most the tolerance.  It is the error of the
    residual of the solution left behind, except if there was just one iteration, in
    which case it is the error of the initial solution. *)
Theorem C19_success_means_converged :
  forall c ev n sol err last, let s := apply c ev n sol err last in
    n_status s = Finished true ->
    exists it rest e rows others,
      n_hist s = it :: rest /\ Forall (fun i => i_stage i = Updated) rest /\
      p_lin (ev (i_start it) rest) = LinOk rows others /\ e = global_error rows others /\
      nleb e (c_tol c) = true /\
      ((i_stage it = Broke /\ i_start it = n_sol s) \/ (i_stage it = Updated /\ rest = [] /\ i_start it = sol)).
Proof.
  intros c ev n sol err last s Hs.
  pose proof (Inv_apply c ev n sol err last) as I. fold s in I.
  destruct (v_true _ _ _ _ I Hs) as (it & rest & e & E1 & E2 & E3 & E4).
  pose proof (v_faithful _ _ _ _ I) as F. rewrite E1 in F. destruct F as [F _].
  destruct (F e E2) as (rows & others & F1 & F2).
  pose proof (v_conn _ _ _ _ I) as K. rewrite E1 in K. destruct K as [K _].
  pose proof (v_prev _ _ _ _ I) as P. rewrite E1 in P.
  exists it, rest, e, rows, others. repeat split; auto.
  destruct E4 as [E4|[E4 ->]]; [left|right; auto].
  split; auto. rewrite (v_sol _ _ _ _ I), E1. cbn. rewrite E4. auto.
Qed.
Print Assumptions C19_success_means_converged.

(** If no entry is NaN, an error at most the tolerance means that all weighted residuals
    of the unconstrained cells of the grid are that small, and those of all other
    processes as well. *)
Theorem C19_converged_means_small_residual :
  forall rows others tol, nan_free rows -> ~ In NaN others ->
    nleb (global_error rows others) tol = true ->
    small_residual tol rows /\ Forall (fun e => nleb e tol = true) others.
Proof. exact global_le. Qed.
Print Assumptions C19_converged_means_small_residual.

(** Failure is reported only if a part of the last iteration failed or the last error is
    not below the tolerance; the iteration count is set to twice the target. *)
Theorem C19_failure_has_a_cause :
  forall c ev n sol err last, let s := apply c ev n sol err last in
    n_status s = Finished false ->
    n_iter s = (2 * c_target c)%Z /\
    exists it rest, n_hist s = it :: rest /\
      (i_stage it = Failed \/ p_end (ev (i_start it) rest) = false \/
       exists rows others, p_lin (ev (i_start it) rest) = LinOk rows others /\
                           nleb (global_error rows others) (c_tol c) = false).
Proof.
  intros c ev n sol err last s Hs.
  pose proof (Inv_apply c ev n sol err last) as I. fold s in I.
  destruct (v_false _ _ _ _ I Hs) as (H1 & it & rest & E1 & E2). split; auto.
  exists it, rest. split; auto. destruct E2 as [E2|[E2|(e & E2 & E3)]]; auto. right; right.
  pose proof (v_faithful _ _ _ _ I) as F. rewrite E1 in F. destruct F as [F _].
  destruct (F e E2) as (rows & others & F1 & F2). exists rows, others. subst. auto.
Qed.
Print Assumptions C19_failure_has_a_cause.

(** In every outcome the solution left behind is the initial one minus the updates of the
    completed iterations, and every iteration started at the result of the previous one. *)
Theorem C19_solution_is_last_iterate :
  forall c ev n sol err last, let s := apply c ev n sol err last in
    n_sol s = after ev sol (n_hist s) /\ connected ev sol (n_hist s).
Proof.
  intros c ev n sol err last s. pose proof (Inv_apply c ev n sol err last) as I.
  split; [exact (v_sol _ _ _ _ I)|exact (v_conn _ _ _ _ I)].
Qed.
Print Assumptions C19_solution_is_last_iterate.

Example C19_example : let s := apply cfg linear_env 10 [[0]] (Fin 5) (Fin 5) in
  n_status s = Finished true /\ map i_stage (n_hist s) = [Broke; Updated] /\ map (map Qred) (n_sol s) = [[2]].
Proof. vm_compute. auto. Qed.
Example C19_example_failure : let s := apply cfg
    (fun sol h => mkResponse true (LinOk [mkRow true true None [Fin 3] [Fin 1]] []) SolFails None true) 10 [[0]] (Fin 5) (Fin 5) in
  n_status s = Finished false /\ n_iter s = 20%Z.
Proof. vm_compute. auto. Qed.
(** One iteration: the error that is tested belongs to the initial solution; the one left
    behind has never been looked at. *)
Example C19_example_one_iteration : let s := apply cfg
    (fun sol h => mkResponse true (LinOk [mkRow true true None [Fin 0] [Fin 1]] []) (SolOk [[Fin 7]]) (Some [[Fin 7]]) true)
    10 [[0]] (Fin 5) (Fin 5) in
  n_status s = Finished true /\ map i_stage (n_hist s) = [Updated] /\ map (map Qred) (n_sol s) = [[-7]].
Proof. vm_compute. auto. Qed.

(** Number of iterations: more than the maximum (two if that is smaller) only as long as
    the error is divided by more than four each time; with [k] iterations in excess
    [4^k * tolerance] is below the largest admissible error. *)
Theorem C20_iterations_bounded :
  forall c ev n sol err last tol M,
    c_tol c = Fin tol -> 0 < tol -> c_maxError c = Fin M ->
    let m := Z.to_nat (Z.max 2 (c_max c)) in
    let k := length (n_hist (apply c ev n sol err last)) in
    (k <= m)%nat \/ inject_Z (4 ^ Z.of_nat (k - m)) * tol < M.
Proof.
  intros c ev n sol err last tol M H1 H2 H3 m k.
  pose proof (apply_bounded c ev tol M H1 H3 n sol err last) as B.
  destruct (le_lt_dec k m) as [L|L]; [left; auto|right]. exact (B L).
Qed.
Print Assumptions C20_iterations_bounded.

(** The method ends after a number of rounds which depends on its parameters only. *)
Theorem C20_newton_terminates :
  forall c tol M, c_tol c = Fin tol -> 0 < tol -> c_maxError c = Fin M ->
    exists N, forall ev sol err last, let s := apply c ev N sol err last in
      n_status s = Finished true \/ n_status s = Finished false \/ n_status s = Escaped.
Proof.
  intros c tol M H1 H2 H3. destruct (archimedes tol M H2) as [j Hj].
  exists (mm c + j + 1)%nat. intros ev sol err last s.
  destruct (apply_terminates c ev tol M H1 H2 H3 j sol err last Hj) as [A B]. fold s in A, B.
  destruct (n_status s) as [| |[]|]; auto; contradiction.
Qed.
Print Assumptions C20_newton_terminates.

(** A diverging iteration stops at the maximum. *)
Example C20_example : let s := apply cfg
    (fun sol h => mkResponse true (LinOk [mkRow true true None [Fin 3] [Fin 1]] []) (SolOk [[Fin 1]]) (Some [[Fin 1]]) true)
    100 [[0]] (Fin 5) (Fin 5) in
  n_status s = Finished false /\ length (n_hist s) = 20%nat.
Proof. vm_compute. auto. Qed.

(** A residual with a NaN can be accepted: a NaN is forgotten as soon as a number follows. *)
Theorem C21_nan_is_never_accepted_refuted :
  exists rows, In NaN (concat (map w_res rows)) /\
    (forall w, In w rows -> w_grid w = true /\ w_pos w = true /\ w_constraint w = None) /\
    forall u sol err last, is_fin (one_norm u) = true ->
      n_status (apply cfg (fun _ _ => mkResponse true (LinOk rows []) (SolOk u) (Some u) true) 2 sol err last) = Finished true.
Proof.
  exists [mkRow true true None [NaN; Fin 0] [Fin 1; Fin 1]].
  split; [left; reflexivity|]. split; [intros w [<- |[]]; auto|].
  intros u sol err last Hu. unfold apply. cbn [rounds]. unfold round at 2. cbn [n_status n_iter n_err n_last proceed].
  unfold proceed at 1. cbn [Z.ltb Z.compare]. unfold body. cbn [p_begin p_lin].
  unfold after_error, solve_and_update. cbn [n_err n_iter n_last n_sol n_hist p_solve p_post].
  rewrite Hu. reflexivity.
Qed.
Print Assumptions C21_nan_is_never_accepted_refuted.

(** Exactly when a residual is accepted on a single process: the entries behind the last
    NaN are small, and the very last entry is not NaN.  In particular a residual without
    NaN is accepted only if it is small, and a trailing NaN is always noticed. *)
Theorem C21_accepted_exactly_partial :
  forall rows tol, nleb (Fin 0) tol = true ->
    (nleb (local_error rows) tol = true <->
     Forall (fun x => nleb x tol = true) (behind_nan (entries rows)) /\
     (In NaN (entries rows) -> behind_nan (entries rows) <> [])).
Proof. exact accepted_iff. Qed.
Print Assumptions C21_accepted_exactly_partial.

Example C21_example : behind_nan [Fin 7; NaN; Fin 1; NaN; Fin 2; Fin 3] = [Fin 2; Fin 3] /\ behind_nan [Fin 1; NaN] = [].
Proof. split; reflexivity. Qed.

(** An update with an entry that is infinite or NaN is never applied. *)
Theorem C21_nonfinite_update_never_applied :
  forall c ev n sol err last pre it rest,
    n_hist (apply c ev n sol err last) = pre ++ it :: rest -> i_stage it = Updated ->
    exists u, p_post (ev (i_start it) rest) = Some u /\ forall v x, In v u -> In x v -> exists q, x = Fin q.
Proof.
  intros c ev n sol err last pre it rest E S.
  destruct (UInv_apply c ev n sol err last it rest pre E S) as (u & Hu & Hf). exists u. split; auto.
  intros v x Hv Hx. destruct x as [| | |q]; [..|eauto]; exfalso.
  - rewrite (one_norm_nonfinite u v NaN Hv Hx eq_refl) in Hf. discriminate.
  - rewrite (one_norm_nonfinite u v PInf Hv Hx eq_refl) in Hf. discriminate.
  - rewrite (one_norm_nonfinite u v NInf Hv Hx eq_refl) in Hf. discriminate.
Qed.
Print Assumptions C21_nonfinite_update_never_applied.

Example C21_example_update : let s := apply cfg
    (fun sol h => mkResponse true (LinOk [mkRow true true None [Fin 3] [Fin 1]] []) (SolOk [[NaN]]) (Some [[NaN]]) true)
    10 [[5]] (Fin 5) (Fin 5) in
  n_status s = Finished false /\ n_sol s = [[5]].
Proof. vm_compute. auto. Qed.

(** Step size suggested after a solve. *)
Theorem C22_step_size_suggestion :
  forall numIter target minDt oldDt, (0 < target)%Z -> (0 <= numIter)%Z -> 0 < oldDt ->
    let d := suggestTimeStepSize numIter target minDt oldDt in
    minDt <= d /\ 0 < d /\
    ((target < numIter)%Z -> d < oldDt \/ (oldDt <= minDt /\ d == minDt)) /\
    ((numIter <= target)%Z -> oldDt <= d /\ (d <= oldDt * (1 + 1 / (12 # 10)) \/ d == minDt)).
Proof.
  intros numIter target minDt oldDt Ht Hn Ho d. unfold d.
  split; [apply suggest_min|].
  destruct (Z_le_gt_dec numIter target) as [L|L].
  - destruct (suggest_grows numIter target minDt oldDt Ht (conj Hn L) Ho) as [E [B1 B2]]. rewrite !E.
    destruct (Qmax_spec minDt (oldDt * (1 + inject_Z (target - numIter) / inject_Z target / (12 # 10)))) as [[A B]|[A B]]; rewrite !B.
    + repeat split; try lia; try lra; auto.
    + repeat split; try lia; try lra; right; reflexivity.
  - destruct (suggest_shrinks numIter target minDt oldDt Ht ltac:(lia) Ho) as [E S]. split.
    + rewrite E. eapply Qlt_le_trans; [|apply Q.le_max_r].
      assert (0 < inject_Z target) by (change 0 with (inject_Z 0); rewrite <- Zlt_Qlt; lia).
      assert (0 < inject_Z numIter) by (change 0 with (inject_Z 0); rewrite <- Zlt_Qlt; lia).
      apply Qlt_shift_div_l; auto. rewrite Qmult_0_l. apply Qmult_lt_0_compat; auto.
    + split; [intros _; exact S|lia].
Qed.
Print Assumptions C22_step_size_suggestion.

(** More iterations never lead to a larger step. *)
Theorem C22_suggestion_monotone :
  forall n1 n2 target minDt oldDt, (0 < target)%Z -> (0 <= n1 <= n2)%Z -> 0 < oldDt ->
    suggestTimeStepSize n2 target minDt oldDt <= suggestTimeStepSize n1 target minDt oldDt.
Proof. exact suggest_monotone. Qed.
Print Assumptions C22_suggestion_monotone.

(** After a failure, which sets the count to twice the target, the step is halved. *)
Theorem C22_halved_after_failure :
  forall target minDt oldDt, (0 < target)%Z -> 0 < oldDt ->
    suggestTimeStepSize (2 * target) target minDt oldDt == Qmax minDt (oldDt / 2).
Proof.
  intros target minDt oldDt Ht Ho.
  destruct (suggest_shrinks (2 * target) target minDt oldDt Ht ltac:(lia) Ho) as [E _]. rewrite E.
  assert (0 < inject_Z target) by (change 0 with (inject_Z 0); rewrite <- Zlt_Qlt; lia).
  setoid_replace (oldDt * inject_Z target / inject_Z (2 * target)) with (oldDt / 2); [reflexivity|].
  rewrite inject_Z_mult. field. lra.
Qed.
Print Assumptions C22_halved_after_failure.

Example C22_example : Qred (suggestTimeStepSize 20 10 1 100) = 50 /\ Qred (suggestTimeStepSize 5 10 1 12) = 17.
Proof. vm_compute. auto. Qed.
