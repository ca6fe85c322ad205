From Verif Require Import GuardModel GuardSpec.

Definition weigh (a : nat) (g : guard) : nat := if g_alive g && g_enabled g && Nat.eqb a (g_action g) then 1 else 0.
Definition duty (a : nat) (l : list guard) : nat := list_sum (map (weigh a) l).

Lemma duty_app a l r : duty a (l ++ r) = duty a l + duty a r.
Proof. unfold duty. rewrite map_app, list_sum_app. auto. Qed.
Lemma duty_cons a g l : duty a (g :: l) = weigh a g + duty a l.
Proof. reflexivity. Qed.
Lemma duty_update a i f l g : nth_error l i = Some g -> duty a (update i f l) + weigh a g = duty a l + weigh a (f g).
Proof.
  intros H. unfold update. rewrite H.
  assert (E : l = firstn i l ++ g :: skipn (S i) l).
  { clear -H. revert i H. induction l as [|x l IH]; intros [|i] H; cbn in *; try discriminate; [congruence|f_equal; auto]. }
  rewrite E at 3. rewrite !duty_app, !duty_cons. lia.
Qed.

(** Guards on duty and actions run so far, per action. *)
Lemma step_exact o w w' a : apply o w = Some w' -> (forall i b, o <> SetEnabled i b) ->
  duty a (guards w') + times a (ran w') = duty a (guards w) + times a (ran w) + made a [o].
Proof.
  unfold times, made. destruct o as [b|i|i b|i]; intros H N; cbn [apply] in H; [| |exfalso; eapply N; reflexivity|].
  - injection H as <-. cbn [guards ran filter]. rewrite duty_app, duty_cons. unfold duty at 2, weigh. cbn. destruct (Nat.eqb a b); cbn; lia.
  - destruct (nth_error (guards w) i) as [g|] eqn:E; [|discriminate]. destruct (g_alive g) eqn:A; [|discriminate]. injection H as <-.
    cbn [guards ran filter length]. rewrite duty_app, duty_cons. pose proof (duty_update a i (enable false) _ _ E) as D.
    unfold weigh in D |- *. cbn in D |- *. rewrite A in *. cbn [andb] in *. change (duty a []) with 0.
    destruct (g_enabled g && Nat.eqb a (g_action g)); lia.
  - destruct (nth_error (guards w) i) as [g|] eqn:E; [|discriminate]. destruct (g_alive g) eqn:A; [|discriminate]. injection H as <-.
    cbn [guards ran filter length]. pose proof (duty_update a i kill _ _ E) as D. unfold weigh in D. cbn in D. rewrite A in D. cbn [andb] in D.
    destruct (g_enabled g); cbn [andb count_occ] in *; [|lia].
    destruct (Nat.eq_dec (g_action g) a), (Nat.eqb_spec a (g_action g)); try congruence; lia.
Qed.
Lemma step_at_most o w w' a : apply o w = Some w' -> (forall i, o <> SetEnabled i true) ->
  duty a (guards w') + times a (ran w') <= duty a (guards w) + times a (ran w) + made a [o].
Proof.
  intros H N. destruct o as [b|i|i b|i]; try (erewrite step_exact by (eauto; discriminate); lia).
  destruct b; [exfalso; eapply N; reflexivity|]. cbn [apply] in H.
  destruct (nth_error (guards w) i) as [g|] eqn:E; [|discriminate]. destruct (g_alive g) eqn:A; [|discriminate]. injection H as <-.
  cbn [guards ran]. pose proof (duty_update a i (enable false) _ _ E) as D. unfold weigh at 2 in D. cbn in D. rewrite A in D. cbn in D.
  unfold made. cbn. lia.
Qed.
Lemma made_cons a o l : made a (o :: l) = made a [o] + made a l.
Proof. unfold made. cbn [filter]. destruct o; cbn; auto. destruct (Nat.eqb a action); auto. Qed.

Lemma run_exact a l : forall w w', run l w = Some w' -> never_disabled l ->
  duty a (guards w') + times a (ran w') = duty a (guards w) + times a (ran w) + made a l.
Proof.
  induction l as [|o l IH]; intros w w' H N; cbn [run] in H.
  - injection H as <-. cbn. lia.
  - destruct (apply o w) as [w1|] eqn:E; [|discriminate]. rewrite made_cons.
    rewrite (IH w1 w' H) by (intros i b X; apply (N i b); right; auto).
    rewrite (step_exact o w w1 a E) by (intros i b ->; apply (N i b); left; auto). lia.
Qed.
Lemma run_at_most a l : forall w w', run l w = Some w' -> never_enabled_again l ->
  duty a (guards w') + times a (ran w') <= duty a (guards w) + times a (ran w) + made a l.
Proof.
  induction l as [|o l IH]; intros w w' H N; cbn [run] in H.
  - injection H as <-. cbn. lia.
  - destruct (apply o w) as [w1|] eqn:E; [|discriminate]. rewrite made_cons.
    pose proof (IH w1 w' H ltac:(intros i X; apply (N i); right; auto)) as B.
    pose proof (step_at_most o w w1 a E ltac:(intros i ->; apply (N i); left; auto)). lia.
Qed.
Lemma duty_gone a w : all_gone w -> duty a (guards w) = 0.
Proof.
  unfold all_gone. intros H. induction (guards w) as [|g l IH]; auto. rewrite duty_cons, IH by (intros x X; apply H; right; auto).
  unfold weigh. rewrite H by (left; auto). reflexivity.
Qed.
