(** C55: scope guards. *)
From Verif Require Import GuardModel GuardSpec GuardProofs.

(** If no guard was ever disabled explicitly: once all guard objects are gone each action has
    run exactly as often as guards were made for it, however they were moved about. *)
Theorem C55_action_runs_exactly_once :
  forall l w a, run l empty = Some w -> never_disabled l -> all_gone w -> times a (ran w) = made a l.
Proof. intros l w a H N G. pose proof (run_exact a l empty w H N) as E. rewrite duty_gone in E by auto. cbn in E. lia. Qed.
Print Assumptions C55_action_runs_exactly_once.

(** While guards exist it has not run more often, even if some are disabled. *)
Theorem C55_action_runs_at_most_once :
  forall l w a, run l empty = Some w -> never_enabled_again l -> times a (ran w) <= made a l.
Proof. intros l w a H N. pose proof (run_at_most a l empty w H N) as E. cbn in E. lia. Qed.
Print Assumptions C55_action_runs_at_most_once.

(** Destroying a guard runs its action if and only if it is enabled then. *)
Theorem C55_destructor_runs_if_enabled :
  forall w i g w', nth_error (guards w) i = Some g -> apply (Destroy i) w = Some w' ->
    ran w' = (if g_enabled g then [g_action g] else []) ++ ran w.
Proof.
  intros w i g w' E H. cbn [apply] in H. rewrite E in H. destruct (g_alive g); [|discriminate]. injection H as <-.
  cbn. destruct (g_enabled g); reflexivity.
Qed.
Print Assumptions C55_destructor_runs_if_enabled.

Example C55_moves : let l := [Make 7; Move 0; Make 8; Move 1; Destroy 0; Destroy 3; Destroy 1; Destroy 2] in
  never_disabled l /\ option_map ran (run l empty) = Some [8; 7] /\ option_map (fun w => forallb (fun g => negb (g_alive g)) (guards w)) (run l empty) = Some true.
Proof. split; [|vm_compute; auto]. intros i b H. cbn in H. repeat (destruct H as [H|H]; [discriminate|]). auto. Qed.

(** A guard which was moved from can be enabled again: then the action runs twice. *)
Theorem C55_action_runs_at_most_once_refuted :
  ~ (forall l w a, run l empty = Some w -> times a (ran w) <= made a l).
Proof.
  intros H. specialize (H [Make 7; Move 0; SetEnabled 0 true; Destroy 1; Destroy 0] _ 7 eq_refl). vm_compute in H. lia.
Qed.
Print Assumptions C55_action_runs_at_most_once_refuted.
