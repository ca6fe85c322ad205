(** Properties C01-C06 of [TaskletRunner]. [N] is the number of worker threads
    (0: synchronous mode), [P] the program of the main thread. [hist s] is the
    observable history, newest event first. *)
From Verif Require Import TaskletModel TaskletSpec TaskletProofs.

(** Concrete run used to show that hypotheses are satisfiable. *)
Definition demo : list op := [Dispatch 2; Dispatch 1; Barrier; Dispatch 3].
Lemma demo_positive : positive demo.
Proof. intros n H. repeat (destruct H as [H|H]; [try (inversion H; lia); discriminate|]). destruct H. Qed.

(** C01: at every moment a tasklet with count [n] was started at most [n] times,
    and when the runner was destroyed it ran and finished exactly [n] times. *)
Theorem C01_tasklet_runs_exactly_n_times : forall N P s t n,
  positive P -> reachable N P s -> nth_error P t = Some (Dispatch n) ->
  (Z.of_nat (starts t (hist s)) <= n)%Z /\ ends t (hist s) <= starts t (hist s) /\
  (destroyed s -> Z.of_nat (starts t (hist s)) = n /\ Z.of_nat (ends t (hist s)) = n).
Proof. exact runs_exactly. Qed.
Print Assumptions C01_tasklet_runs_exactly_n_times.

(** C01, second half: nothing that was not dispatched is run. *)
Theorem C01_only_dispatched_tasklets_run : forall N P s t,
  positive P -> reachable N P s -> length P <= t -> starts t (hist s) = 0 /\ ends t (hist s) = 0.
Proof. exact only_dispatched_run. Qed.
Print Assumptions C01_only_dispatched_tasklets_run.

(** C01: tasklets are started in the order in which they were dispatched. *)
Theorem C01_tasklets_start_in_dispatch_order : forall N P s later t earlier t',
  positive P -> reachable N P s -> hist s = later ++ EvStart t :: earlier ->
  In (EvStart t') earlier -> t' <= t.
Proof. exact starts_in_order. Qed.
Print Assumptions C01_tasklets_start_in_dispatch_order.

Example C01_nonvacuous : exists s,
  reachable 2 demo s /\ destroyed s /\ starts 0 (hist s) = 2 /\ ends 3 (hist s) = 3 /\ failflag s = true.
Proof. eexists; split; [exists (sched 2 demo 200 (init 2)); vm_compute; reflexivity|]; repeat split. Qed.
Example C01_nonvacuous_sync : exists s,
  reachable 0 demo s /\ destroyed s /\ starts 0 (hist s) = 2 /\ ends 3 (hist s) = 3.
Proof. eexists; split; [exists (sched 0 demo 200 (init 0)); vm_compute; reflexivity|]; repeat split. Qed.

(** C02: at the moment a barrier returns, every invocation of every tasklet
    dispatched before it has ended. *)
Theorem C02_barrier_waits_for_earlier_tasklets : forall N P s later b earlier t n,
  positive P -> reachable N P s -> hist s = later ++ EvReturn b :: earlier ->
  t < b -> nth_error P t = Some (Dispatch n) -> Z.of_nat (ends t earlier) = n.
Proof. exact barrier_waits. Qed.
Print Assumptions C02_barrier_waits_for_earlier_tasklets.

Example C02_nonvacuous : exists s later earlier,
  reachable 3 demo s /\ hist s = later ++ EvReturn 2 :: earlier /\ ends 0 earlier = 2.
Proof.
  eexists. exists [].
  eexists. split; [exists (firstn 30 (sched 3 demo 300 (init 3))); vm_compute; reflexivity|].
  vm_compute. split; reflexivity.
Qed.

(** C03: no reachable state is stuck before the destructor has returned and all
    workers are gone, even if no thread ever wakes up spuriously ... *)
Theorem C03_no_deadlock : forall N P s,
  positive P -> reachable N P s ->
  ~ (destroyed s /\ forall w, In w (workers s) -> w = WDone) ->
  exists l s', is_spurious l = false /\ step N P l s = Some s'.
Proof. exact no_deadlock. Qed.
Print Assumptions C03_no_deadlock.

(** ... every schedule is finite (up to spurious wake-ups) ... *)
Theorem C03_every_schedule_terminates : forall N P,
  positive P ->
  exists B, forall ls s, run N P ls (init N) = Some s -> length ls <= B + 5 * count_spurious ls.
Proof. exact terminates. Qed.
Print Assumptions C03_every_schedule_terminates.

(** ... and no worker dies from the "Not all queued tasklets were executed" exception. *)
Theorem C03_no_worker_crashes : forall N P s, positive P -> reachable N P s -> crashed s = false.
Proof. exact never_crashes. Qed.
Print Assumptions C03_no_worker_crashes.

Example C03_nonvacuous : positive demo /\ reachable 2 demo (init 2) /\ ~ destroyed (init 2).
Proof. split; [exact demo_positive|]. split; [exists []; reflexivity|discriminate]. Qed.

(** C04: the failure flag is set exactly if some invocation threw. (That throwing
    tasklets disturb nothing else is part of C01-C03, whose schedules contain
    every pattern of throwing invocations.) *)
Theorem C04_failure_flag : forall N P s,
  positive P -> reachable N P s -> (failflag s = true <-> some_threw (hist s)).
Proof. exact failure_flag_iff. Qed.
Print Assumptions C04_failure_flag.

(** C05 is false: with the count zero the synchronous runner runs the tasklet
    never, while a runner with one worker can run it any number of times. *)
Theorem C05_zero_count_refuted :
  (forall s, reachable 0 zero_prog s -> starts 0 (hist s) = 0) /\
  (forall m, exists s, reachable 1 zero_prog s /\ starts 0 (hist s) = m).
Proof. exact (conj zero_count_sync zero_count_unbounded). Qed.
Print Assumptions C05_zero_count_refuted.

Lemma C05_agree : forall N1 N2 P s1 s2 t n,
  positive P -> reachable N1 P s1 -> reachable N2 P s2 -> destroyed s1 -> destroyed s2 ->
  nth_error P t = Some (Dispatch n) ->
  starts t (hist s1) = starts t (hist s2) /\ ends t (hist s1) = ends t (hist s2).
Proof.
  intros N1 N2 P s1 s2 t n HP H1 H2 D1 D2 Ht.
  destruct (runs_exactly _ _ _ _ _ HP H1 Ht) as (_ & _ & A1). destruct (A1 D1).
  destruct (runs_exactly _ _ _ _ _ HP H2 Ht) as (_ & _ & A2). destruct (A2 D2). lia.
Qed.
(** The part of C05 that holds: for positive counts both modes agree. Missing: counts <= 0. *)
Theorem C05_modes_agree_partial : forall N1 N2 P s1 s2 t n,
  positive P -> reachable N1 P s1 -> reachable N2 P s2 -> destroyed s1 -> destroyed s2 ->
  nth_error P t = Some (Dispatch n) ->
  starts t (hist s1) = starts t (hist s2) /\ ends t (hist s1) = ends t (hist s2).
Proof. exact C05_agree. Qed.
Print Assumptions C05_modes_agree_partial.

(** C06 is false: whenever a threaded runner was destroyed, some worker has
    unlocked the queue mutex without owning it ([taskletQueueMutex_.unlock()] in
    run_ followed by the destructor of the still-owning [std::unique_lock]). *)
Theorem C06_mutex_unlocked_twice_refuted : forall N P s,
  N <> 0 -> positive P -> reachable N P s -> destroyed s -> ub s = true.
Proof. exact destroyed_unlocked_twice. Qed.
Print Assumptions C06_mutex_unlocked_twice_refuted.

(** The part of C06 that holds: as long as no worker terminates, every unlock is done by the owner. *)
Theorem C06_mutex_discipline_partial : forall N P s,
  positive P -> reachable N P s ->
  (forall w, In w (workers s) -> w <> WTermU /\ w <> WDone) -> ub s = false.
Proof. exact mutex_ok_before_termination. Qed.
Print Assumptions C06_mutex_discipline_partial.
