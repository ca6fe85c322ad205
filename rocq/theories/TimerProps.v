(** C54: timers. *)
From Coq Require Import Lqa.
From Verif Require Import TimerModel TimerSpec TimerProofs.

(** A timer shows the time it was running, on either clock, for every history of calls in
    which it is not started while it runs. *)
Theorem C54_elapsed_time_partial :
  forall garbage h now, no_restart h ->
    realTimeElapsed now (after garbage h) == active_time realtime (fun r _ => r) h (realtime now) /\
    cpuTimeElapsed now (after garbage h) == active_time cputime (fun _ c => c) h (cputime now).
Proof. intros. split; [apply real_elapsed|apply cpu_elapsed]; auto. Qed.
Print Assumptions C54_elapsed_time_partial.

Definition at_time (t : Q) : reading := mkReading t (t / 2).
Example C54_elapsed_case :
  let h := [(at_time 9, Start); (at_time 7, Stop); (at_time 5, Start); (at_time 4, Plus 10 1); (at_time 3, Stop); (at_time 1, Start)] in
  no_restart h /\ realTimeElapsed (at_time 20) (after (at_time 0) h) == 2 + 10 + 2 + 11.
Proof. vm_compute. auto 10. Qed.

(** Starting a running timer again makes it forget the time since it was started. *)
Theorem C54_elapsed_time_refuted :
  ~ (forall garbage h now, realTimeElapsed now (after garbage h) == active_time realtime (fun r _ => r) h (realtime now)).
Proof.
  intros H. specialize (H (at_time 0) [(at_time 5, Start); (at_time 1, Start)] (at_time 7)). vm_compute in H. discriminate.
Qed.
Print Assumptions C54_elapsed_time_refuted.

(** On clocks which never go back no timer shows a negative time, restarted or not. *)
Theorem C54_elapsed_time_not_negative :
  forall garbage h now, (forall t x y, In (t, Plus x y) h -> 0 <= x) -> forward realtime h (realtime now) ->
    0 <= realTimeElapsed now (after garbage h).
Proof.
  intros g h now P F. assert (A : 0 <= realAcc (after g h) /\ (active h = true -> realtime (startTime (after g h)) <= realtime now)).
  { revert now F. induction h as [|[t o] h IH]; intros now F; [cbn; split; [lra|discriminate]|]. destruct F as (F1 & F2).
    destruct (IH (fun t' x y H => P t' x y (or_intror H)) t F2) as (I1 & I2). pose proof (stopped_active g h) as S.
    destruct o; cbn [after apply active]; unfold stop, start, halt, reset.
    - cbn. split; auto.
    - rewrite S. destruct (active h); cbn; (split; [|discriminate]); auto. specialize (I2 eq_refl). lra.
    - cbn. split; [lra|discriminate].
    - cbn. split; [lra|auto].
    - cbn. specialize (P t real cpu (or_introl eq_refl)). split; [lra|]. intros H. specialize (I2 H). lra. }
  destruct A as (A1 & A2). unfold realTimeElapsed. rewrite stopped_active. destruct (active h); cbn; auto. specialize (A2 eq_refl). lra.
Qed.
Print Assumptions C54_elapsed_time_not_negative.

(** Whatever a guarded scope does and wherever it is left, the timer is stopped afterwards,
    shows the time up to that moment from then on, and stopping it once more changes nothing. *)
Theorem C54_guard_stops_timer :
  forall garbage body k left h, let s := scope body k left h in
    isStopped (after garbage s) = true /\
    (no_restart s -> forall now,
       realTimeElapsed now (after garbage s) == active_time realtime (fun r _ => r) (rev (firstn k (rev body)) ++ h) (realtime left)) /\
    (forall now, stop now (after garbage s) = after garbage s).
Proof.
  intros g body k lf h s. split; [|split].
  - apply stopped_active.
  - intros N now. rewrite real_elapsed by auto. unfold s, scope. cbn [active_time active]. lra.
  - intros now. unfold s, scope. cbn [after apply]. apply stop_twice.
Qed.
Print Assumptions C54_guard_stops_timer.
Example C54_guard_case :
  let s := scope [(at_time 4, Stop); (at_time 2, Start)] 1 (at_time 3) [] in
  no_restart s /\ realTimeElapsed (at_time 100) (after (at_time 0) s) == 1.
Proof. vm_compute. auto. Qed.

(** operator+= is the operation [Plus] with the times the other timer shows. *)
Lemma adding_timers :
  forall now now' other t, plus now now' other t = apply now (Plus (realTimeElapsed now other) (cpuTimeElapsed now' other)) t.
Proof. reflexivity. Qed.
