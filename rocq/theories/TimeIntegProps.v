(** C17 and C18: retries of a time step, and the proposed next step size. *)
From Verif Require Import TimeIntegModel TimeIntegSpec TimeIntegProofs.
From Coq Require Import Lqa.
Open Scope Q_scope.

(** C17.  For every behaviour of the nonlinear solver: at most [maxFails] sizes are tried,
    beginning with the size asked for, each half of the one before but at least the
    minimum; all attempts but possibly the last one failed; the result is normal exactly
    if the last one converged, or if it failed at the minimum and continuing is enabled;
    otherwise either all attempts have been used up or the minimum was reached. *)
Theorem C17_retries :
  forall maxFails minDt cont solver dt res tried final,
    timeIntegration maxFails minDt cont solver dt = (res, tried, final) ->
    let l := rev tried in
    (length l <= maxFails)%nat /\ (l <> [] -> exists q, l = dt :: q) /\ halving minDt l /\
    all_but_last_failed solver l /\
    match res with
    | Converged => last_succeeded solver l /\ exists q, l = q ++ [final]
    | Continued => last_failed solver l /\ last_minimal minDt l /\ cont = true /\ exists q, l = q ++ [final]
    | Raised => (l <> [] -> last_failed solver l) /\
                (length l = maxFails \/ (last_minimal minDt l /\ cont = false))
    end.
Proof.
  intros maxFails minDt cont solver dt res tried final E l. unfold timeIntegration in E.
  destruct (attempts_spec minDt cont solver maxFails [] dt res tried final E) as (more & M1 & M2 & M3 & M4 & M5).
  { intros before d after H. destruct before; discriminate. }
  { constructor. }
  cbn in M1. fold l in M1, M4, M5. subst more.
  assert (LF : fails solver tried -> all_but_last_failed solver l /\ (l <> [] -> last_failed solver l)).
  { intros F. split.
    - intros before d after H _. eapply F; eauto.
    - intros Hne. destruct (exists_last Hne) as (q & d & Eq). exists q, d. split; auto. eapply F; eauto. }
  split; auto. split; auto. split; auto. destruct res.
  - destruct M5 as (A & B & C). auto.
  - destruct M5 as (A & B & C & D & F). destruct (LF A) as [L1 L2]. split; auto.
  - destruct M5 as (A & B). destruct (LF A) as [L1 L2]. split; auto.
Qed.
Print Assumptions C17_retries.

(** No attempt is made below the minimum when the first one is not. *)
Theorem C17_never_below_minimum :
  forall maxFails minDt cont solver dt res tried final, minDt <= dt ->
    timeIntegration maxFails minDt cont solver dt = (res, tried, final) ->
    Forall (fun x => minDt <= x) tried /\ minDt <= final.
Proof. intros maxFails minDt cont solver dt res tried final H E. eapply attempts_min; eauto. Qed.
Print Assumptions C17_never_below_minimum.

Example C17_example :
  let '(res, tried, final) := timeIntegration 10 3 false (fun tried dt => Qltb dt 4) 16 in
  res = Converged /\ map Qred (rev tried) = [16; 8; 4; 3] /\ Qred final = 3.
Proof. vm_compute. auto. Qed.
Example C17_example_fail :
  fst (fst (timeIntegration 10 3 false (fun _ _ => false) 16)) = Raised /\
  fst (fst (timeIntegration 10 3 true (fun _ _ => false) 16)) = Continued /\
  fst (fst (timeIntegration 2 3 true (fun _ _ => false) 16)) = Raised.
Proof. vm_compute. auto. Qed.

(** C18.  The proposal can exceed the configured maximum, by at most one per cent, and only
    when the remaining time is split into two steps. *)
Theorem C18_maximum_exceeded_refuted :
  ~ (forall maxDt suggested simMax, 0 < maxDt -> 0 < suggested -> 0 < simMax ->
       nextTimeStepSize 0 maxDt suggested simMax <= maxDt).
Proof.
  intros H. specialize (H 10 20 (199 # 10)). vm_compute in H.
  apply H; reflexivity.
Qed.
Print Assumptions C18_maximum_exceeded_refuted.

Theorem C18_maximum_respected_partial :
  forall imposed maxDt suggested simMax, imposed <= 0 -> 0 <= maxDt ->
    nextTimeStepSize imposed maxDt suggested simMax <= maxDt * (101 # 100) /\
    (simMax <= Qmin maxDt suggested \/ 2 * Qmin maxDt suggested <= simMax ->
      nextTimeStepSize imposed maxDt suggested simMax <= maxDt).
Proof.
  intros imposed maxDt suggested simMax Hi Hm. split; [apply next_bound; auto|].
  intros H. rewrite next_exact by auto. apply Q.le_min_l.
Qed.
Print Assumptions C18_maximum_respected_partial.

(** The purpose of the splitting: when it is applied, the rest of the episode fits into one
    more step of the same size. *)
Theorem C18_split_leaves_one_step :
  forall imposed maxDt suggested simMax, imposed <= 0 ->
    Qmin maxDt suggested < simMax -> simMax < 2 * Qmin maxDt suggested ->
    let d := nextTimeStepSize imposed maxDt suggested simMax in
    0 < d /\ d < simMax /\ simMax - d < d.
Proof. exact next_split. Qed.
Print Assumptions C18_split_leaves_one_step.

Example C18_example : Qred (nextTimeStepSize 0 10 20 15) = 303 # 40 /\ Qred (nextTimeStepSize 0 10 20 25) = 10.
Proof. vm_compute. auto. Qed.
