(** C23 - C25: solutions of the time levels and cached intensive quantities. *)
From Verif Require Import CacheModel CacheSpec CacheProofs.

Section Statements.
  Context {PV IQ : Type}.
  Variable F : nat -> PV -> IQ.

  (** A failed update, whatever it did before it failed, leaves all time levels as they
      were, and every read of intensive quantities gives what it gave before; this
      remains so for any number of failed updates in a row. *)
  Theorem C23_failed_update_restores :
    forall g (s : @st PV IQ) (attempts : list (list inner * list nat)),
      2 <= g_history g -> coherent F g s -> (forall i, sol s 0 i = sol s 1 i) ->
      let s' := fold_left (fun a '(os, dofs) => failed_update F g os dofs a) attempts s in
      (forall t i, sol s' t i = sol s t i) /\
      (forall t i, t < g_history g -> i < g_dofs g -> read F g s' t i = read F g s t i).
  Proof.
    intros g s attempts Hh C E s'.
    assert (G : (forall t i, sol s' t i = sol s t i) /\ coherent F g s').
    { subst s'. revert s C E. induction attempts as [|[os dofs] l IH]; intros s C E; cbn; [auto|].
      destruct (failed_restores F g os dofs s Hh C E) as [A B].
      destruct (IH (failed_update F g os dofs s) B) as [A' B']; [intros i; rewrite !A; auto|].
      split; auto. intros t i. rewrite A'. apply A. }
    destruct G as [G1 G2]. split; auto. intros t i Ht Hi.
    rewrite !read_coherent by auto. rewrite G1. reflexivity.
  Qed.

  (** At the begin of a time step - after the initial solution has been set or the time
      level has been advanced - the hypotheses hold. *)
  Theorem C23_begin_of_step :
    forall g u (s : @st PV IQ) os, g_history g = 2 -> Forall (safe g) os -> empty_cache s ->
      let s0 := applyInitial u s in
      let s1 := steps F g (os ++ [Advance]) (applyInitial u s) in
      (coherent F g s0 /\ forall i, sol s0 0 i = sol s0 1 i) /\
      (coherent F g s1 /\ forall i, sol s1 0 i = sol s1 1 i).
  Proof.
    intros g u s os Hh Sf He s0 s1. split; split.
    - apply (coherent_steps F g [] s0 Hh (Forall_nil _)). exact He.
    - reflexivity.
    - apply coherent_steps; auto. apply Forall_app. split; auto. repeat constructor.
    - intros i. subst s1. unfold steps. rewrite fold_left_app. cbn [fold_left step]. unfold advanceTimeLevel, shift.
      destruct (negb (store_iq g)); [reflexivity|]. destruct (g_storage g && g_recycle g); [reflexivity|].
      destruct (shift_loop_spec (g_history g - 1) 0 (set_sol 1 (sol (fold_left (fun a o => step F g o a) os (applyInitial u s)) 0)
         (fold_left (fun a o => step F g o a) os (applyInitial u s)))) as (A & _). rewrite A. reflexivity.
  Qed.

  (** Two time levels: whatever the cache hands out fits the solution, after any history
      which does not evaluate the residual of another solution or switch primary variables
      behind the cache's back, and which reads old time levels only if they are shifted. *)
  Theorem C24_cache_matches_solution_partial :
    forall g (s : @st PV IQ) os, g_history g = 2 -> empty_cache s -> Forall (safe g) os ->
      coherent F g (steps F g os s).
  Proof. intros g s os Hh He Sf. apply coherent_steps; auto. Qed.

  (** Two time levels: after advancing, level 1 holds what level 0 held, solution and cached
      quantities alike (unless shifting the cache is switched off), and level 0 is kept. *)
  Theorem C25_time_level_shift_partial :
    forall g (s : @st PV IQ), g_history g = 2 -> let s' := advanceTimeLevel g s in
      (forall i, sol s' 1 i = sol s 0 i /\ sol s' 0 i = sol s 0 i) /\
      (forall i, cachedIntensiveQuantities g s' 0 i = cachedIntensiveQuantities g s 0 i) /\
      (g_storage g && g_recycle g = false -> forall i, cachedIntensiveQuantities g s' 1 i = cachedIntensiveQuantities g s 0 i).
  Proof.
    intros g s Hh s'. unfold s', advanceTimeLevel.
    destruct (g_cache g) eqn:Hc.
    - rewrite shift_two by auto. unfold cachedIntensiveQuantities. rewrite Hc. cbn.
      destruct (g_storage g && g_recycle g); cbn; repeat split; auto; discriminate.
    - unfold cachedIntensiveQuantities. rewrite Hc. cbn. split; auto.
      intros i. unfold shift. destruct (negb (store_iq g)); [auto|]. destruct (g_storage g && g_recycle g); [auto|].
      destruct (shift_loop_spec (g_history g - 1) 0 (set_sol 1 (sol s 0) s)) as (A & _). rewrite A. auto.
  Qed.

  (** More than two time levels: the solutions of level two and above are never shifted,
      while all cached quantities become those of level 0. *)
  Theorem C25_time_level_shift_refuted :
    forall g (s : @st PV IQ), 3 <= g_history g -> g_cache g = true -> g_storage g && g_recycle g = false ->
      let s' := advanceTimeLevel g s in
      forall t i, 2 <= t < g_history g ->
        sol s' t i = sol s t i /\ cachedIntensiveQuantities g s' t i = cachedIntensiveQuantities g s 0 i.
  Proof.
    intros g s Hh Hc Hs s' t i Ht. subst s'. unfold advanceTimeLevel, shift, store_iq. rewrite Hc, Hs. cbn [orb negb].
    destruct (shift_loop_spec (g_history g - 1) 0 (set_sol 1 (sol s 0) s)) as (A & _ & B).
    destruct (B t i ltac:(lia)) as [B1 B2]. unfold cachedIntensiveQuantities. rewrite A, B1, B2. cbn. rewrite upd_other by lia. auto.
  Qed.
End Statements.
Print Assumptions C23_failed_update_restores.
Print Assumptions C23_begin_of_step.
Print Assumptions C24_cache_matches_solution_partial.
Print Assumptions C25_time_level_shift_partial.
Print Assumptions C25_time_level_shift_refuted.

(** Three histories after which the cache hands out quantities of another solution:
    evaluating the residual of another solution; reading the old time level, with the
    storage cache on, before and after a time step; the primary variable switching of the
    PVS model after an iteration without update. *)
Definition toy (storage : bool) : flags := mkFlags true false storage true 2 1.
Definition start : @st nat nat := mkSt (fun _ _ => 5) (fun _ _ => 0) (fun _ _ => false).
Theorem C24_cache_matches_solution_refuted :
  (exists os, os = [ResidualFor (fun _ => 7) [(0, 0)]] /\ ~ coherent (fun _ x => x) (toy false) (steps (fun _ x => x) (toy false) os start)) /\
  (exists os, os = [Read 1 0; NewtonUpdate (fun _ => 7); Advance] /\ ~ coherent (fun _ x => x) (toy true) (steps (fun _ x => x) (toy true) os start)) /\
  (exists os, os = [Read 0 0; PvsSwitch (fun _ => 7)] /\ ~ coherent (fun _ x => x) (toy false) (steps (fun _ x => x) (toy false) os start)).
Proof.
  split; [|split]; eexists; split; try reflexivity; intros C.
  - specialize (C 0 0 7 ltac:(cbn; lia) ltac:(cbn; lia) eq_refl). discriminate.
  - specialize (C 1 0 5 ltac:(cbn; lia) ltac:(cbn; lia) eq_refl). discriminate.
  - specialize (C 0 0 5 ltac:(cbn; lia) ltac:(cbn; lia) eq_refl). discriminate.
Qed.
Print Assumptions C24_cache_matches_solution_refuted.

Example C24_example : Forall (safe (toy false)) [Read 0 0; NewtonUpdate (fun _ => 7); Read 0 0; Advance; Read 1 0; UpdateFailed [0]] /\ empty_cache start /\
  cachedIntensiveQuantities (toy false) (steps (fun _ x => x) (toy false) [Read 0 0; NewtonUpdate (fun _ => 7); Read 0 0; Advance; Read 1 0; UpdateFailed [0]] start) 1 0 = Some 7.
Proof. split; [repeat (apply Forall_cons; [cbn; auto|]); constructor|]. split; [intros t i; reflexivity|reflexivity]. Qed.
Example C23_example : let s := failed_update (fun _ x => x) (toy false) [InRead 0 0; InUpdate (fun _ => 9); InRead 0 0; InPartial (fun _ => 8)] [0]
    (steps (fun _ x => x) (toy false) [NewtonUpdate (fun _ => 7); Advance] start) in
  sol s 0 0 = 7 /\ read (fun _ x => x) (toy false) s 0 0 = 7.
Proof. split; reflexivity. Qed.
(** Hints are only given if the cache is switched on as well. *)
Example C24_hints_need_the_cache : forall s : @st nat nat, thermodynamicHint (mkFlags false true false false 2 1) s 0 0 = None.
Proof. reflexivity. Qed.
