From Verif Require Import ResumeModel ResumeSpec.

Definition add_hist (h : list event) (r : rst) : rst := mkRst (r_sim r) (r_hist r ++ h) (r_epb r) (r_out r).

Section M.
  Context (p : problem) (M : memoryless p) (h : list event).

  Lemma ah_running r : running (add_hist h r) = running r.
  Proof. reflexivity. Qed.
  Lemma ah_call k r : call p k (add_hist h r) = add_hist h (call p k r).
  Proof.
    destruct M as (M1 & _). unfold call. rewrite ah_running. destruct (running r); auto. cbn [add_hist r_sim r_hist].
    rewrite (M1 _ _ (r_hist r ++ h)), (M1 _ _ (r_hist r)). destruct (p_call p k (r_sim r) []). reflexivity.
  Qed.
  Lemma ah_sim f r : with_sim f (add_hist h r) = add_hist h (with_sim f r).
  Proof. unfold with_sim. rewrite ah_running. destruct (running r); reflexivity. Qed.
  Lemma ah_epb f r : with_epb f (add_hist h r) = add_hist h (with_epb f r).
  Proof. unfold with_epb. rewrite ah_running. destruct (running r); reflexivity. Qed.
  Lemma ah_out f r : with_out f (add_hist h r) = add_hist h (with_out f r).
  Proof. unfold with_out. rewrite ah_running. destruct (running r); reflexivity. Qed.
  Lemma ah_output r : maybe_output p (add_hist h r) = add_hist h (maybe_output p r).
  Proof.
    unfold maybe_output. rewrite ah_running. cbn [add_hist r_sim r_hist]. destruct M as (_ & M2 & _).
    rewrite (M2 _ (r_hist r ++ h)), (M2 _ (r_hist r)). destruct (running r && p_output p (r_sim r) []); auto. apply ah_call.
  Qed.
  Lemma ah_serialize r : maybe_serialize p (add_hist h r) = add_hist h (maybe_serialize p r).
  Proof.
    unfold maybe_serialize. rewrite ah_running. cbn [add_hist r_sim r_hist]. destruct M as (_ & _ & M3 & _).
    rewrite (M3 _ (r_hist r ++ h)), (M3 _ (r_hist r)). destruct (running r && p_restart p (r_sim r) []); auto. apply ah_call.
  Qed.
  Lemma ah_finish r : finish p (add_hist h r) = add_hist h (finish p r).
  Proof. unfold finish. rewrite ah_call, ah_out. reflexivity. Qed.
  Lemma ah_advance_step r : advance_step p (add_hist h r) = add_hist h (advance_step p r).
  Proof. unfold advance_step. rewrite ah_call, ah_sim. reflexivity. Qed.
  Lemma choose_mem s a b : choose_dt p a s = choose_dt p b s.
  Proof. unfold choose_dt. destruct M as (_ & _ & _ & M4 & _). rewrite (M4 _ a), (M4 _ b). reflexivity. Qed.
  Lemma ah_after r : after_advance p (add_hist h r) = add_hist h (after_advance p r).
  Proof.
    unfold after_advance. cbn [add_hist r_sim r_hist]. destruct (episodeIsOver (r_sim r)).
    - rewrite ah_call, ah_epb. reflexivity.
    - rewrite ah_sim. f_equal. unfold with_sim. destruct (running r); auto. f_equal. f_equal. apply choose_mem.
  Qed.
  Lemma ah_do r : do_step p (add_hist h r) = add_hist h (do_step p r).
  Proof. unfold do_step. rewrite !ah_call, ah_output, ah_advance_step, ah_after, ah_serialize. reflexivity. Qed.
  Lemma ah_begin r : begin_step p (add_hist h r) = add_hist h (begin_step p r).
  Proof.
    unfold begin_step, step_or_stop. rewrite ah_epb, ah_call. cbn [add_hist r_sim].
    destruct (finished _); [rewrite !ah_call; apply ah_finish|apply ah_do].
  Qed.
  Lemma ah_iteration r : iteration p (add_hist h r) = add_hist h (iteration p r).
  Proof.
    unfold iteration, begin_or_stop. rewrite ah_running. cbn [add_hist r_sim r_epb]. destruct (running r); auto. cbn [negb].
    destruct (finished (r_sim r)); [apply ah_finish|]. destruct (r_epb r); [|apply ah_begin].
    rewrite ah_call. cbn [add_hist r_sim]. destruct (finished _); [rewrite !ah_call; apply ah_finish|apply ah_begin].
  Qed.
  Lemma ah_iterate n : forall r, iterate p n (add_hist h r) = add_hist h (iterate p n r).
  Proof. induction n; intros r; cbn [iterate]; auto. rewrite ah_iteration. apply IHn. Qed.
End M.

Lemma iterate_add p n : forall m r, iterate p (n + m) r = iterate p m (iterate p n r).
Proof. induction n; intros; cbn [iterate Nat.add]; auto. Qed.

(** The state of the resumed run before its loop. *)
Lemma resumed_prologue p s c : memoryless p ->
  prologue p (Some s) c = mkRst s [mkEvent KDeserialize s] (episodeIsOver s || (s_idx s =? 0)%Z) Running.
Proof.
  intros (M1 & _ & _ & _ & _ & M5). unfold prologue, with_sim, call, running. cbn [r_out r_sim r_hist r_epb].
  rewrite M5. reflexivity.
Qed.

Lemma saved_restored s c : s_end c = s_end s -> s_dt c = s_dt s -> s_fin c = s_fin s -> s_forced c = s_forced s ->
  restored (saved s) c = s.
Proof. destruct s, c. cbn. intros -> -> -> ->. reflexivity. Qed.

(** Whether the last event is the writing of a restart file. *)
Definition last_kind (k : kind) (r : rst) : Prop := match r_hist r with e :: _ => e_kind e = k | [] => False end.
Definition last_not (k : kind) (r : rst) : Prop := match r_hist r with e :: _ => e_kind e <> k | [] => True end.
Definition just (r : rst) : Prop :=
  match r_hist r with e :: _ => e_kind e = KSerialize -> r_out r = Running /\ r_sim r = e_sim e | [] => True end.

Lemma last_just r : last_not KSerialize r -> just r.
Proof. unfold last_not, just. destruct (r_hist r); auto. congruence. Qed.
Lemma call_last p k r : k <> KSerialize -> last_not KSerialize r -> last_not KSerialize (call p k r).
Proof. unfold call. intros H L. destruct (running r); auto. destruct (p_call p k _ _). cbn. auto. Qed.
Lemma call_last' p k r : k <> KSerialize -> running r = true -> last_not KSerialize (call p k r).
Proof. unfold call. intros H ->. destruct (p_call p k _ _). cbn. auto. Qed.
Lemma sim_last f r : last_not KSerialize r -> last_not KSerialize (with_sim f r).
Proof. unfold with_sim. destruct (running r); auto. Qed.
Lemma epb_last f r : last_not KSerialize r -> last_not KSerialize (with_epb f r).
Proof. unfold with_epb. destruct (running r); auto. Qed.
Lemma out_last f r : last_not KSerialize r -> last_not KSerialize (with_out f r).
Proof. unfold with_out. destruct (running r); auto. Qed.
Lemma output_last p r : last_not KSerialize r -> last_not KSerialize (maybe_output p r).
Proof. unfold maybe_output. destruct (_ && _); auto. apply call_last. discriminate. Qed.
Lemma serialize_just p r : memoryless p -> last_not KSerialize r -> just (maybe_serialize p r).
Proof.
  intros (M1 & _ & _ & _ & M5 & _) L. unfold maybe_serialize. destruct (running r) eqn:E; [|apply last_just; auto].
  cbn [andb]. destruct (p_restart _ _ _); [|apply last_just; auto]. unfold call. rewrite E, M1, M5. cbn. auto.
Qed.
Lemma do_just p r : memoryless p -> last_not KSerialize r -> just (do_step p r).
Proof.
  intros M L. unfold do_step. apply serialize_just; auto. unfold after_advance.
  assert (X : last_not KSerialize (advance_step p (maybe_output p (call p KEndStep (call p KIntegrate r))))).
  { unfold advance_step. apply sim_last, call_last; [discriminate|]. apply output_last, call_last; [discriminate|]. apply call_last; auto; discriminate. }
  revert X. generalize (advance_step p (maybe_output p (call p KEndStep (call p KIntegrate r)))) as x. intros x X.
  destruct (episodeIsOver _); [apply epb_last, call_last; auto; discriminate|apply sim_last; auto].
Qed.
Lemma finish_last p r : last_not KSerialize r -> last_not KSerialize (finish p r).
Proof. intros. unfold finish. apply out_last, call_last; auto. discriminate. Qed.
Lemma begin_just p r : memoryless p -> running r = true -> just (begin_step p r).
Proof.
  intros M R. unfold begin_step.
  assert (L : last_not KSerialize (call p KBeginStep (with_epb false r))).
  { apply call_last'; [discriminate|]. unfold with_epb. rewrite R. exact R. }
  revert L. generalize (call p KBeginStep (with_epb false r)) as x. intros x X. unfold step_or_stop.
  destruct (finished _); [|apply do_just; auto]. apply last_just, finish_last. repeat apply call_last; auto; discriminate.
Qed.
Lemma call_stuck p k x : running x = false -> call p k x = x.
Proof. intros R. unfold call. rewrite R. auto. Qed.
Lemma begin_stuck p x : running x = false -> begin_step p x = x.
Proof.
  intros R. unfold begin_step, step_or_stop, finish, do_step, advance_step.
  assert (S : forall f, with_sim f x = x) by (intros; unfold with_sim; rewrite R; auto).
  assert (E : forall f, with_epb f x = x) by (intros; unfold with_epb; rewrite R; auto).
  assert (O : forall f, with_out f x = x) by (intros; unfold with_out; rewrite R; auto).
  assert (A : maybe_output p x = x) by (unfold maybe_output; rewrite R; auto).
  assert (B : maybe_serialize p x = x) by (unfold maybe_serialize; rewrite R; auto).
  assert (C : after_advance p x = x) by (unfold after_advance; destruct (episodeIsOver _); rewrite ?call_stuck, ?E, ?S; auto).
  assert (K : forall k, call p k x = x) by (intros; apply call_stuck; auto).
  rewrite E, K. destruct (finished _); rewrite !K.
  - apply O.
  - rewrite A, K, S, C, B. auto.
Qed.
Lemma iteration_just p r : memoryless p -> just r -> just (iteration p r).
Proof.
  intros M J. unfold iteration. destruct (running r) eqn:R; auto. cbn [negb].
  destruct (finished _).
  { apply last_just. unfold finish. apply out_last, call_last'; auto. discriminate. }
  destruct (r_epb r); [|apply begin_just; auto]. unfold begin_or_stop.
  assert (L : last_not KSerialize (call p KBeginEpisode r)) by (apply call_last'; auto; discriminate).
  revert L. generalize (call p KBeginEpisode r) as x. intros x X. destruct (finished _).
  - apply last_just, finish_last, call_last; auto. discriminate.
  - destruct (running x) eqn:Rx; [apply begin_just; auto|].
    apply last_just. rewrite begin_stuck; auto.
Qed.
Lemma iterate_just p n : memoryless p -> forall r, just r -> just (iterate p n r).
Proof. intros M. induction n; intros r J; cbn [iterate]; auto. apply IHn, iteration_just; auto. Qed.
Lemma prologue_just p c : just (prologue p None c).
Proof.
  apply last_just. unfold prologue. apply epb_last, sim_last, output_last.
  apply call_last; [discriminate|]. apply sim_last. cbn. auto.
Qed.

Theorem resume p c0 c k n s : memoryless p ->
  let r := run p None c0 k in wrote_restart_file r s ->
  s_end c = s_end s -> s_dt c = s_dt s -> s_fin c = s_fin s -> s_forced c = s_forced s ->
  r_epb r = (episodeIsOver s || (s_idx s =? 0)%Z) ->
  let whole := run p None c0 (k + n) in let resumed := run p (Some (restored (saved s) c)) c n in
  r_sim resumed = r_sim whole /\ r_out resumed = r_out whole /\
  exists calls, history whole = history r ++ calls /\ history resumed = mkEvent KDeserialize s :: calls.
Proof.
  intros M r W0 E1 E2 E3 E4 B whole resumed.
  assert (G : r_out r = Running /\ r_sim r = s).
  { pose proof (iterate_just p k M _ (prologue_just p c0)) as J. change (just r) in J. destruct W0 as (b & Hb).
    unfold history in Hb. apply (f_equal (@rev event)) in Hb. rewrite rev_involutive, rev_app_distr in Hb. cbn in Hb.
    unfold just in J. rewrite Hb in J. cbn in J. auto. }
  destruct G as (G & <-). set (s := r_sim r) in *.
  pose (r0 := mkRst s [] (r_epb r) Running).
  assert (W : whole = add_hist (r_hist r) (iterate p n r0)).
  { unfold whole, run. rewrite iterate_add. change (iterate p k (prologue p None c0)) with r.
    rewrite <- (ah_iterate p M). f_equal. unfold add_hist, r0, s. cbn. rewrite <- G. destruct r; reflexivity. }
  assert (R : resumed = add_hist [mkEvent KDeserialize s] (iterate p n r0)).
  { unfold resumed, run. rewrite saved_restored, resumed_prologue; auto. rewrite <- (ah_iterate p M).
    f_equal. unfold add_hist, r0. cbn. rewrite B. reflexivity. }
  rewrite W, R. cbn [add_hist r_sim r_out]. split; auto. split; auto.
  exists (rev (r_hist (iterate p n r0))). unfold history. cbn [add_hist r_hist]. rewrite !rev_app_distr. auto.
Qed.
