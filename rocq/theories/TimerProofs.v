From Coq Require Import Lqa.
From Verif Require Import TimerModel TimerSpec.

Lemma stopped_active g h : isStopped (after g h) = negb (active h).
Proof.
  induction h as [|[t o] h IH]; auto. destruct o; cbn [after apply active]; auto.
  unfold stop. destruct (isStopped (after g h)) eqn:E; auto.
Qed.

Lemma real_elapsed g h : no_restart h -> forall now,
  realTimeElapsed now (after g h) == active_time realtime (fun r _ => r) h (realtime now).
Proof.
  induction h as [|[t o] h IH]; intros N now; [reflexivity|].
  pose proof (stopped_active g h) as S. destruct o; cbn [after apply active_time active].
  - destruct N as (A & N). specialize (IH N t). rewrite A in S. unfold realTimeElapsed in IH |- *. rewrite S in IH. cbn in *. rewrite IH. lra.
  - cbn in N. specialize (IH N t). unfold stop. unfold realTimeElapsed in IH |- *. rewrite S in *. destruct (active h); cbn in *; rewrite <- ?IH, ?S; cbn; lra.
  - unfold realTimeElapsed. cbn. lra.
  - unfold realTimeElapsed. cbn. rewrite S. destruct (active h); cbn; lra.
  - cbn in N. specialize (IH N t). unfold realTimeElapsed in IH |- *. cbn. rewrite S in *. destruct (active h); cbn in *; rewrite <- IH; lra.
Qed.
Lemma cpu_elapsed g h : no_restart h -> forall now,
  cpuTimeElapsed now (after g h) == active_time cputime (fun _ c => c) h (cputime now).
Proof.
  induction h as [|[t o] h IH]; intros N now; [reflexivity|].
  pose proof (stopped_active g h) as S. destruct o; cbn [after apply active_time active].
  - destruct N as (A & N). specialize (IH N t). rewrite A in S. unfold cpuTimeElapsed in IH |- *. rewrite S in IH. cbn in *. rewrite IH. lra.
  - cbn in N. specialize (IH N t). unfold stop. unfold cpuTimeElapsed in IH |- *. rewrite S in *. destruct (active h); cbn in *; rewrite <- ?IH, ?S; cbn; lra.
  - unfold cpuTimeElapsed. cbn. lra.
  - unfold cpuTimeElapsed. cbn. rewrite S. destruct (active h); cbn; lra.
  - cbn in N. specialize (IH N t). unfold cpuTimeElapsed in IH |- *. cbn. rewrite S in *. destruct (active h); cbn in *; rewrite <- IH; lra.
Qed.

Lemma active_nonneg clock added h : (forall t x y, In (t, Plus x y) h -> 0 <= added x y) ->
  forall now, forward clock h now -> 0 <= active_time clock added h now.
Proof.
  induction h as [|[t o] h IH]; intros P now F; [cbn; lra|]. destruct F as (F1 & F2).
  assert (I : 0 <= active_time clock added h (clock t)).
  { apply IH; auto. intros t' x y H. apply (P t'). right. auto. }
  cbn [active_time]. assert (A : 0 <= (if active ((t, o) :: h) then now - clock t else 0)).
  { destruct (active ((t, o) :: h)); lra. }
  destruct o; try lra. specialize (P t real cpu (or_introl eq_refl)). lra.
Qed.

Lemma stop_twice now now' t : stop now' (stop now t) = stop now t.
Proof. unfold stop. destruct (isStopped t) eqn:E; rewrite ?E; auto. Qed.
