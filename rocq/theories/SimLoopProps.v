(** C13, C14, C15, C63, C64, C65: the simulator's run loop. *)
From Verif Require Import SimLoopModel SimLoopSpec SimLoopProofs.
From Coq Require Import Lqa.
Open Scope Q_scope.

(** C13.  Whatever the problem does (short of setting the clock itself) and however far
    the run has got, at every call after the initial ones the time is the start time plus
    the sum of the completed steps and the index counts them; so also at the end. *)
Theorem C13_time_and_step_index :
  forall p restored s n, leaves_clock_alone p ->
    let start := match restored with Some s' => s' | None => s end in
    let r := run p restored s n in
    exists pro rest, history r = pro ++ rest /\
      (match restored with
       | Some _ => map e_kind pro = [KDeserialize]
       | None => map e_kind pro = [KInitial] \/ map e_kind pro = [KInitial; KWriteOutput]
       end) /\
      accounting (s_time start) (s_idx start) rest /\
      (r_out r = Running \/ r_out r = Done ->
        s_time (r_sim r) == s_time start + qsum (completed rest) /\
        s_idx (r_sim r) = (s_idx start + Z.of_nat (length (completed rest)))%Z).
Proof. exact time_and_index. Qed.
Print Assumptions C13_time_and_step_index.

(** The calls come in the order of the grammar, whatever the problem does: at any moment,
    also after an exception, they are the beginning of an allowed sequence, and when
    [run] has returned normally they are a whole one. *)
Theorem C13_call_order :
  forall p restored s n, (restored = None -> s_idx s = 0%Z) ->
    let resumed := match restored with Some _ => true | None => false end in
    (r_out (run p restored s n) = Done -> call_order resumed (kinds (run p restored s n))) /\
    exists rest, call_order resumed (kinds (run p restored s n) ++ rest).
Proof. exact calls_in_order. Qed.
Print Assumptions C13_call_order.

(** A problem that does nothing, with steps of the given size. *)
Definition idle (dt : Q) : problem :=
  mkProblem (fun _ _ _ => ([], false)) (fun _ _ => true) (fun _ _ => false) (fun _ _ => dt).

(** A problem with episodes of length 10: each end of an episode starts the next one, the
    begin of an episode sets the step to 4; the integration halves the very first step. *)
Definition episodic : problem :=
  mkProblem (fun k s h => match k with
                          | KBeginEpisode => ([SetTimeStepSize (Qmin 4 (s_end s - s_time s))], false)
                          | KEndEpisode => ([StartNextEpisode 10], false)
                          | KIntegrate => if (s_idx s =? 0)%Z then ([SetTimeStepSize 2], false) else ([], false)
                          | _ => ([], false)
                          end)
            (fun _ _ => true) (fun s _ => (s_idx s =? 2)%Z) (fun _ _ => 4).

Definition episodic_start : sim := mkSim 0 0 0 15 4 0 0 10 false [].

Example C13_episodic_run :
  let r := run episodic None episodic_start 10 in
  r_out r = Done /\ map Qred (completed (history r)) = [2; 4; 4; 4; 1] /\ s_idx (r_sim r) = 5%Z /\
  calls_of KSerialize (kinds r) = 1%nat /\ calls_of KEndEpisode (kinds r) = 1%nat.
Proof. vm_compute. auto. Qed.

Example C13_episodic_clock : leaves_clock_alone episodic.
Proof.
  intros k s h c. cbn. destruct k; cbn; try tauto.
  - intros [<-|[]]; exact I.
  - destruct (s_idx s =? 0)%Z; cbn; [intros [<-|[]]; exact I|tauto].
  - intros [<-|[]]; exact I.
Qed.

(** "Every begin of an episode is matched by an end" does not hold: when the end of the
    simulation comes inside an episode (in particular in the single unlimited episode
    every simulation starts with), [run] returns without endEpisode. *)
Theorem C13_every_episode_ended_refuted :
  ~ (forall p s n, leaves_clock_alone p -> s_idx s = 0%Z -> r_out (run p None s n) = Done ->
      calls_of KBeginEpisode (kinds (run p None s n)) = calls_of KEndEpisode (kinds (run p None s n))).
Proof.
  intros H. specialize (H (idle 1) (fresh 3 1 1000 []) 10%nat).
  assert (C : leaves_clock_alone (idle 1)) by (intros k s h c []).
  specialize (H C eq_refl). vm_compute in H. specialize (H eq_refl). discriminate.
Qed.
Print Assumptions C13_every_episode_ended_refuted.

(** C14.  The limit is not negative; a step of that size ends at or before both ends
    (unless they have passed already); and it is positive while the simulation and the
    episode go on. *)
Theorem C14_limited_step_ends_in_time :
  forall s, 0 <= maxTimeStepSize s /\
    s_time s + maxTimeStepSize s <= Qmax (s_time s) (s_end s) /\
    s_time s + maxTimeStepSize s <= Qmax (s_time s) (end_of_episode s).
Proof. intros s. split; [apply max_step_nonneg|apply max_step_le]. Qed.
Print Assumptions C14_limited_step_ends_in_time.

Theorem C14_limit_is_positive :
  forall s, 0 <= s_time s -> finished s = false -> episodeIsOver s = false -> 0 < maxTimeStepSize s.
Proof. exact max_step_pos. Qed.
Print Assumptions C14_limit_is_positive.

Example C14_example : Qred (maxTimeStepSize (mkSim 3 7 1 100 5 0 2 6 false [])) = 4 /\
                      Qred (maxTimeStepSize (mkSim 3 7 1 5 5 0 2 6 false [])) = 2 /\
                      Qred (maxTimeStepSize (mkSim 3 7 1 3 5 0 2 6 false [])) = 0.
Proof. vm_compute. auto. Qed.

(** C15.  With steps of at least [delta] and end times of at most [E] the run ends. *)
Theorem C15_run_terminates :
  forall p restored s delta E, leaves_clock_alone p ->
    let start := match restored with Some s' => s' | None => s end in
    (forall k s h e, In (SetEndTime e) (fst (p_call p k s h)) -> e <= E) -> s_end start <= E ->
    0 < delta ->
    (forall n e, In e (r_hist (run p restored s n)) -> e_kind e = KAdvance -> delta <= s_dt (e_sim e)) ->
    forall n, Qmax 0 E - s_time start <= inject_Z (Z.of_nat n) * delta ->
      r_out (run p restored s (S n)) <> Running.
Proof. intros p restored s delta E LC start HE HE0 Hd Hs n Hn. exact (terminates p restored s delta E LC HE HE0 Hs n Hn). Qed.
Print Assumptions C15_run_terminates.

(** While the loop is running it has completed one step per iteration. *)
Theorem C15_one_step_per_iteration :
  forall p restored s n, r_out (run p restored s n) = Running ->
    length (completed (history (run p restored s n))) = n.
Proof.
  intros p restored s n H. unfold history. rewrite completed_rev_len.
  apply running_completed. apply running_out; auto.
Qed.
Print Assumptions C15_one_step_per_iteration.

(** The hypotheses are met by the problem with steps of size 1 and end time 3. *)
Lemma iterate_dead p n r : running r = false -> iterate p n r = r.
Proof. revert r. induction n as [|n IH]; cbn; intros r H; auto. unfold iteration at 1. rewrite H. cbn. auto. Qed.

Lemma iterate_add p a b r : iterate p (a + b) r = iterate p b (iterate p a r).
Proof. revert r. induction a as [|a IH]; cbn; intros r; auto. Qed.

Example C15_example :
  (forall n e, In e (r_hist (run (idle 1) None (fresh 3 1 1000 []) n)) -> e_kind e = KAdvance -> 1 <= s_dt (e_sim e)).
Proof.
  intros n e.
  assert (B : forall m, (m <= 4)%nat -> forallb (fun e => match e_kind e with KAdvance => Qle_bool 1 (s_dt (e_sim e)) | _ => true end)
                (r_hist (run (idle 1) None (fresh 3 1 1000 []) m)) = true).
  { intros m Hm. do 5 (destruct m as [|m]; [vm_compute; reflexivity|]). lia. }
  assert (D : r_hist (run (idle 1) None (fresh 3 1 1000 []) n) =
              r_hist (run (idle 1) None (fresh 3 1 1000 []) (min n 4))).
  { destruct (Nat.le_gt_cases n 4) as [L|L]; [rewrite Nat.min_l; auto|]. rewrite Nat.min_r by lia.
    replace n with (4 + (n - 4))%nat by lia. generalize (n - 4)%nat as k. intros k.
    unfold run. rewrite iterate_add. rewrite (iterate_dead _ k); [reflexivity|vm_compute; reflexivity]. }
  rewrite D. specialize (B (min n 4) (Nat.le_min_r n 4)). rewrite forallb_forall in B.
  intros Hin Hk. specialize (B e Hin). rewrite Hk in B. apply Qle_bool_iff; auto.
Qed.

(** C63.  A polite problem is never taken over the end of the simulation or of an episode. *)
Theorem C63_steps_end_in_time_partial :
  forall p s n e, polite p -> s_idx s = 0%Z -> 0 <= s_time s -> s_forced s = [] ->
    In e (history (run p None s n)) -> e_kind e = KAdvance -> fits (e_sim e).
Proof. intros p s n e P. exact (polite_steps_fit p P s n e). Qed.
Print Assumptions C63_steps_end_in_time_partial.

(** A polite problem: episodes of length 10, each begin of an episode asks the simulator
    for its limit.  (The first clause of [fits] needs an episode that is not over.) *)
Definition follows_limits : problem :=
  mkProblem (fun k s h => match k with
                          | KBeginEpisode => ([StartNextEpisode 10; SetTimeStepSize (Qmin 10 (s_end s - s_time s))], false)
                          | _ => ([], false)
                          end)
            (fun _ _ => true) (fun _ _ => false) (fun _ _ => 4).

Example C63_polite : polite follows_limits.
Proof.
  constructor.
  - intros k s h c. cbn. destruct k; cbn; try tauto. intros [<-|[<-|[]]]; exact I.
  - intros k s h [ -> | [ -> | [ -> | -> ]]]; reflexivity.
  - intros k s h [ -> | -> ]; cbn; auto.
  - intros s h H0 Hf. pose proof (not_finished_lt s H0 Hf) as L. cbn. right.
    destruct s as [t i st en dt ei es el f fo]. cbn in *. unfold exec_all, fits, end_of_episode. cbn.
    destruct (min_cases 10 (en - t)) as [[E ?]|[E ?]]; rewrite E; repeat split; lra.
  - intros s h. cbn. lra.
Qed.

Example C63_polite_run : let r := run follows_limits None (mkSim 0 0 0 25 7 0 0 5 false []) 10 in
  r_out r = Done /\ map Qred (completed (history r)) = [10; 10; 5].
Proof. vm_compute. auto. Qed.

(** Without these conditions it does not hold: neither the initial step size nor the size
    of the first step of a later episode is limited by the simulator. *)
Theorem C63_steps_end_in_time_refuted :
  (exists e, In e (history (run (idle 1) None (fresh 5 10 1000 []) 3)) /\ e_kind e = KAdvance /\
     s_time (e_sim e) + s_dt (e_sim e) > s_end (e_sim e)) /\
  (exists p e, leaves_clock_alone p /\ In e (history (run p None (mkSim 0 0 0 100 7 0 0 7 false []) 3)) /\
     e_kind e = KAdvance /\ s_time (e_sim e) < end_of_episode (e_sim e) /\
     s_time (e_sim e) + s_dt (e_sim e) > end_of_episode (e_sim e)).
Proof.
  split.
  - exists (mkEvent KAdvance (fresh 5 10 1000 [])). split; [|split; [reflexivity|reflexivity]].
    vm_compute. tauto.
  - exists (mkProblem (fun k s h => match k with KEndEpisode => ([StartNextEpisode 2], false) | _ => ([], false) end)
              (fun _ _ => false) (fun _ _ => false) (fun _ _ => 7)).
    exists (mkEvent KAdvance (mkSim 7 1 0 100 7 1 7 2 false [])).
    split; [intros k s h c; destruct k; cbn; try tauto; intros [<-|[]]; exact I|].
    split; [vm_compute; tauto|]. repeat split; vm_compute; auto.
Qed.
Print Assumptions C63_steps_end_in_time_refuted.

(** C64.  A step of index [i] which directly follows a step that did not end an episode
    has the [i]-th predetermined size (counted from 0), provided the problem itself leaves
    the step size alone. *)
Theorem C64_predetermined_sizes_used_partial :
  forall p s n before e1 mid e2 after, leaves_clock_alone p ->
    (forall k s h d, ~ In (SetTimeStepSize d) (fst (p_call p k s h))) ->
    history (run p None s n) = before ++ e1 :: mid ++ e2 :: after ->
    e_kind e1 = KAdvance -> e_kind e2 = KAdvance ->
    (forall e, In e mid -> e_kind e <> KAdvance /\ e_kind e <> KEndEpisode) ->
    (0 <= s_idx (e_sim e2))%Z -> (s_idx (e_sim e2) < Z.of_nat (length (s_forced s)))%Z ->
    s_dt (e_sim e2) = nth (Z.to_nat (s_idx (e_sim e2))) (s_forced s) 0.
Proof.
  intros p s n before e1 mid e2 after LC LD H K1 K2 Hm I1 I2.
  exact (forced_used p LC LD (s_forced s) s n before e1 mid e2 after eq_refl H K1 K2 Hm (conj I1 I2)).
Qed.
Print Assumptions C64_predetermined_sizes_used_partial.

(** The first entry of the list is never used, and the entry after the end of an episode
    is skipped (the old size is used instead). *)
Theorem C64_predetermined_sizes_used_refuted :
  completed (history (run (idle 1) None (fresh 100 9 1000 [1; 2; 3; 4]) 4)) = [9; 2; 3; 4] /\
  let p := mkProblem (fun k s h => match k with KEndEpisode => ([StartNextEpisode 1000], false) | _ => ([], false) end)
              (fun _ _ => false) (fun _ _ => false) (fun _ _ => 7) in
  completed (history (run p None (mkSim 0 0 0 100 9 0 0 11 false [1; 2; 3; 4]) 4)) = [9; 2; 2; 4].
Proof. split; vm_compute; reflexivity. Qed.
Print Assumptions C64_predetermined_sizes_used_refuted.

(** C65.  If [finished] says yes without having been told so, the end time is at most a
    relative [max(time, dt) * 2.2e-13] away: the tolerance grows with the square of the
    time.  So a run can end noticeably early. *)
Theorem C65_finished_means_end_reached_partial :
  forall s, finished s = true -> s_fin s = false ->
    s_end s - s_time s <= s_time s * (Qmax (Qabs (s_time s)) (s_dt s) * eps3).
Proof. exact finished_tolerance. Qed.
Print Assumptions C65_finished_means_end_reached_partial.

(** One step of 1e9 seconds (32 years), end time two days later: the run returns normally
    without simulating the last two days, though nobody asked for it. *)
Theorem C65_finished_means_end_reached_refuted :
  let r := run (idle 1) None (fresh 1000172800 1000000000 (2 * 1000172800) []) 10 in
  r_out r = Done /\ s_fin (r_sim r) = false /\ s_end (r_sim r) - s_time (r_sim r) == 172800.
Proof. vm_compute. auto. Qed.
Print Assumptions C65_finished_means_end_reached_refuted.

(** The simulation does not run on when the end has been reached. *)
Theorem C65_no_step_after_the_end :
  forall s, 0 <= s_time s -> s_end s <= s_time s -> finished s = true.
Proof. exact past_end_finished. Qed.
Print Assumptions C65_no_step_after_the_end.
