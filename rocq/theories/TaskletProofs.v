(** Proofs about the model of [TaskletRunner]. *)
From Verif Require Import TaskletModel TaskletSpec.
From Coq Require Import ZifyBool ZifyNat.

Definition b2n (b : bool) : nat := if b then 1 else 0.
Definition cntw (f : wstate -> bool) (ws : list wstate) : nat := length (filter f ws).

Arguments cntw : simpl never.
Arguments Nat.ltb : simpl never.
Arguments Nat.leb : simpl never.
Arguments Nat.eqb : simpl never.

Lemma upd_length {A} (l : list A) i x : length (upd l i x) = length l.
Proof.
  unfold upd. revert i; induction l as [|a l IH]; intros [|i]; cbn; auto.
Qed.

Lemma upd_cons_S {A} (a : A) l i x : upd (a :: l) (S i) x = a :: upd l i x.
Proof. reflexivity. Qed.

Lemma nth_upd_eq {A} (l : list A) i x w : nth_error l i = Some w -> nth_error (upd l i x) i = Some x.
Proof.
  revert i; induction l as [|a l IH]; intros [|i]; cbn; try discriminate; auto.
  intros H. rewrite upd_cons_S. cbn. auto.
Qed.

Lemma nth_upd_ne {A} (l : list A) i j x : i <> j -> nth_error (upd l i x) j = nth_error l j.
Proof.
  revert i j; induction l as [|a l IH]; intros i j Hij.
  - destruct i; reflexivity.
  - destruct i, j; try (exfalso; lia); try reflexivity. rewrite upd_cons_S. cbn.
    apply IH. lia.
Qed.

Lemma nth_upd_inv {A} (l : list A) i j x y :
  nth_error (upd l i x) j = Some y -> (i = j /\ y = x) \/ (i <> j /\ nth_error l j = Some y).
Proof.
  destruct (Nat.eq_dec i j) as [<-|Hij].
  - left; split; auto. destruct (nth_error l i) eqn:E.
    + erewrite nth_upd_eq in H by eauto. congruence.
    + apply nth_error_None in E. assert (length (upd l i x) <= i) by (rewrite upd_length; auto).
      apply nth_error_None in H0. congruence.
  - right; split; auto. rewrite nth_upd_ne in H by auto. auto.
Qed.

Lemma cntw_upd f ws i x w :
  nth_error ws i = Some w -> cntw f (upd ws i x) + b2n (f w) = cntw f ws + b2n (f x).
Proof.
  unfold cntw. revert i; induction ws as [|a ws IH]; intros [|i] H; cbn in H; try discriminate.
  - inversion H; subst. unfold upd; cbn. destruct (f x), (f w); cbn; lia.
  - rewrite upd_cons_S. cbn. specialize (IH _ H). destruct (f a); cbn; lia.
Qed.

Lemma cntw_map f g ws : (forall w, f (g w) = f w) -> cntw f (map g ws) = cntw f ws.
Proof.
  intros H. unfold cntw. induction ws as [|a ws IH]; cbn; auto. rewrite H. destruct (f a); cbn; lia.
Qed.

Lemma cntw_le f ws : cntw f ws <= length ws.
Proof. unfold cntw. induction ws as [|a ws IH]; cbn; auto. destruct (f a); cbn; lia. Qed.

Lemma cntw_all f ws : cntw f ws = length ws -> forall w, In w ws -> f w = true.
Proof.
  unfold cntw. induction ws as [|a ws IH]; cbn; [tauto|].
  intros H w [<-|Hin].
  - destruct (f a) eqn:E; auto. pose proof (cntw_le f ws). unfold cntw in *. lia.
  - apply IH; auto. destruct (f a); cbn in H; auto. pose proof (cntw_le f ws). unfold cntw in *. lia.
Qed.

Lemma cntw_zero f ws : (forall w, In w ws -> f w = false) -> cntw f ws = 0.
Proof.
  unfold cntw. induction ws as [|a ws IH]; cbn; auto. intros H.
  rewrite (H a) by auto. apply IH. auto.
Qed.

Lemma cntw_full f ws : (forall w, In w ws -> f w = true) -> cntw f ws = length ws.
Proof.
  unfold cntw. induction ws as [|a ws IH]; cbn; auto. intros H.
  rewrite (H a) by auto. cbn. rewrite IH; auto.
Qed.

Lemma cntw_pos f ws i w : nth_error ws i = Some w -> f w = true -> 1 <= cntw f ws.
Proof.
  unfold cntw. revert i; induction ws as [|a ws IH]; intros [|i] H E; cbn in *; try discriminate.
  - inversion H; subst. rewrite E. cbn; lia.
  - specialize (IH _ H E). destruct (f a); cbn; lia.
Qed.

Definition is_busy (t : nat) (w : wstate) : bool :=
  match w with
  | WRun t' | WBar t' | WBarSleep t' | WBarWake t' | WBarNotify t' => Nat.eqb t t'
  | _ => false
  end.
Definition is_wbar (t : nat) (w : wstate) : bool :=
  match w with WBar t' => Nat.eqb t t' | _ => false end.

Lemma is_busy_wake_queue t w : is_busy t (wake_queue w) = is_busy t w.
Proof. destruct w; reflexivity. Qed.
Lemma is_wbar_wake_queue t w : is_wbar t (wake_queue w) = is_wbar t w.
Proof. destruct w; reflexivity. Qed.
Lemma is_busy_wake_bar t b w : is_busy t (wake_bar b w) = is_busy t w.
Proof. destruct w; try reflexivity. cbn. destruct (Nat.eqb b b0); reflexivity. Qed.
Lemma is_wbar_wake_bar t b w : is_wbar t (wake_bar b w) = is_wbar t w.
Proof. destruct w; try reflexivity. cbn. destruct (Nat.eqb b b0); reflexivity. Qed.

Ltac bsplit := repeat match goal with
  | |- context [?a <=? ?b] => destruct (Nat.leb_spec a b)
  | |- context [?a <? ?b] => destruct (Nat.ltb_spec a b)
  | |- context [?a =? ?b] => destruct (Nat.eqb_spec a b)
  | H : context [?a <=? ?b] |- _ => destruct (Nat.leb_spec a b)
  | H : context [?a <? ?b] |- _ => destruct (Nat.ltb_spec a b)
  | H : context [?a =? ?b] |- _ => destruct (Nat.eqb_spec a b)
  end.

Section Async.
  Variable N : nat.
  Variable P : list op.
  Hypothesis HN : N <> 0.
  Hypothesis HP : positive P.

  Notation L := (length P).
  Notation mkitem := (mkitem N P).

  Definition full (t : nat) : Z := it_rc (mkitem t).

  Lemma full_pos t : (1 <= full t)%Z.
  Proof.
    unfold full, TaskletModel.mkitem. destruct (nth_error P t) as [[n|]|] eqn:E; cbn; try lia.
    apply HP. eapply nth_error_In; eauto.
  Qed.

  Definition pushed (m : mstate) : nat :=
    match m with
    | MAt pc | MLocked pc => pc
    | MNotify pc | MBar pc | MBarSleep pc | MBarWake pc | MBarNotify pc => S pc
    | MJoin | MEnd => S L
    end.
  Definition entered (m : mstate) (b : nat) : bool :=
    match m with
    | MAt pc | MLocked pc | MNotify pc | MBar pc => b <? pc
    | MBarSleep pc | MBarWake pc | MBarNotify pc => b <=? pc
    | MJoin | MEnd => b <? L
    end.
  Definition passed (m : mstate) (b : nat) : bool :=
    match m with
    | MAt pc | MLocked pc | MNotify pc | MBar pc | MBarSleep pc | MBarWake pc | MBarNotify pc => b <? pc
    | MJoin | MEnd => b <? L
    end.
  Definition main_ok (m : mstate) : Prop :=
    match m with
    | MAt pc | MLocked pc | MNotify pc => pc <= L
    | MBar pc | MBarSleep pc | MBarWake pc | MBarNotify pc => nth_error P pc = Some Barrier
    | MJoin | MEnd => True
    end.
  Definition after_end (m : mstate) : Prop := pushed m = S L.

  (** explicit transitions *)
  Inductive tr : bool -> st -> st -> Prop :=
  | T_mlock s pc : main s = MAt pc -> qowner s = None ->
      tr false s (set_main (MLocked pc) (set_owner (Some OMain) s))
  | T_mpush s pc : main s = MLocked pc ->
      tr false s (set_main (MNotify pc) (release OMain (set_queue (queue s ++ [mkitem pc]) s)))
  | T_mnot s pc m : main s = MNotify pc ->
      m = (match nth_error P pc with
           | Some (Dispatch _) => MAt (S pc) | Some Barrier => MBar pc | None => MJoin end) ->
      tr false s (set_main m (set_workers (map wake_queue (workers s)) s))
  | T_mbar_last s pc : main s = MBar pc -> N + 1 <= S (nwait s pc) ->
      tr false s (set_main (MBarNotify pc) (set_nwait (incr (nwait s) pc) s))
  | T_mbar_sleep s pc : main s = MBar pc -> S (nwait s pc) < N + 1 ->
      tr false s (set_main (MBarSleep pc) (set_nwait (incr (nwait s) pc) s))
  | T_mwake_ok s pc : main s = MBarWake pc -> N + 1 <= nwait s pc ->
      tr false s (set_main (MAt (S pc)) (log (EvReturn pc) s))
  | T_mwake_sleep s pc : main s = MBarWake pc -> nwait s pc < N + 1 ->
      tr false s (set_main (MBarSleep pc) s)
  | T_mbnot s pc : main s = MBarNotify pc ->
      tr false s (set_main (MAt (S pc)) (log (EvReturn pc) (notify_bar pc s)))
  | T_mjoin s : main s = MJoin -> (forall w, In w (workers s) -> w = WDone) ->
      tr false s (set_main MEnd s)
  | T_wlock s i : nth_error (workers s) i = Some WIdle -> qowner s = None ->
      tr false s (set_worker i WHold (set_owner (Some (OWorker i)) s))
  | T_wsleep s i : nth_error (workers s) i = Some WHold -> queue s = [] ->
      tr false s (release (OWorker i) (set_worker i WSleep s))
  | T_wcrash s i x y q : nth_error (workers s) i = Some WHold -> queue s = x :: y :: q ->
      it_kind x = KEnd ->
      tr false s (set_crashed s)
  | T_wterm s i x : nth_error (workers s) i = Some WHold -> queue s = [x] -> it_kind x = KEnd ->
      tr false s (release (OWorker i) (set_worker i WTermU s))
  | T_wtake s i x q : nth_error (workers s) i = Some WHold -> queue s = x :: q -> it_kind x <> KEnd ->
      tr false s (release (OWorker i)
           (log (EvStart (it_id x))
              (set_worker i (match it_kind x with KBar => WBar (it_id x) | _ => WRun (it_id x) end)
                 (set_queue (if Z.eqb (it_rc x - 1) 0 then q
                      else {| it_id := it_id x; it_kind := it_kind x; it_rc := it_rc x - 1 |} :: q) s))))
  | T_wrun s i t b : nth_error (workers s) i = Some (WRun t) ->
      tr false s (set_worker i WIdle (set_fail (failflag s || b) (log (EvEnd t b) s)))
  | T_wbar_last s i t : nth_error (workers s) i = Some (WBar t) -> N + 1 <= S (nwait s t) ->
      tr false s (set_worker i (WBarNotify t) (set_nwait (incr (nwait s) t) s))
  | T_wbar_sleep s i t : nth_error (workers s) i = Some (WBar t) -> S (nwait s t) < N + 1 ->
      tr false s (set_worker i (WBarSleep t) (set_nwait (incr (nwait s) t) s))
  | T_wwake_ok s i t : nth_error (workers s) i = Some (WBarWake t) -> N + 1 <= nwait s t ->
      tr false s (set_worker i WIdle (log (EvEnd t false) s))
  | T_wwake_sleep s i t : nth_error (workers s) i = Some (WBarWake t) -> nwait s t < N + 1 ->
      tr false s (set_worker i (WBarSleep t) s)
  | T_wbnot s i t : nth_error (workers s) i = Some (WBarNotify t) ->
      tr false s (set_worker i WIdle (log (EvEnd t false) (notify_bar t s)))
  | T_wunlock s i : nth_error (workers s) i = Some WTermU ->
      tr false s (release (OWorker i) (set_worker i WDone s))
  | T_spm s pc : main s = MBarSleep pc -> tr true s (set_main (MBarWake pc) s)
  | T_spw s i : nth_error (workers s) i = Some WSleep -> tr true s (set_worker i WIdle s)
  | T_spb s i t : nth_error (workers s) i = Some (WBarSleep t) -> tr true s (set_worker i (WBarWake t) s).

  Lemma incr_eq f b : incr f b b = S (f b).
  Proof. unfold incr. rewrite Nat.eqb_refl. reflexivity. Qed.

  Lemma step_tr l s s' : step N P l s = Some s' -> crashed s = false /\ tr (is_spurious l) s s'.
  Proof.
    unfold step. destruct (crashed s) eqn:Ec; [discriminate|]. intros H; split; auto.
    destruct l as [bs|i b|o]; cbn [is_spurious].
    - unfold mstep in H. destruct (main s) as [pc|pc|pc|pc|pc|pc|pc| |] eqn:Em; try discriminate.
      + replace (N =? 0) with false in H by lia. destruct (qowner s) eqn:Eq; [discriminate|].
        inversion H; subst. constructor; auto.
      + inversion H; subst. constructor; auto.
      + inversion H; subst. eapply T_mnot; eauto.
      + cbn in H. rewrite incr_eq in H. destruct (Nat.leb_spec (N + 1) (S (nwait s pc)));
          inversion H; subst; constructor; auto.
      + destruct (Nat.leb_spec (N + 1) (nwait s pc)); inversion H; subst; constructor; auto.
      + inversion H; subst. constructor; auto.
      + destruct (forallb _ _) eqn:Ef; inversion H; subst. constructor; auto.
        intros w Hw. rewrite forallb_forall in Ef. specialize (Ef _ Hw). destruct w; congruence.
    - unfold wstep in H. destruct (nth_error (workers s) i) as [w|] eqn:Ew; [|discriminate].
      destruct w; try discriminate.
      + destruct (qowner s) eqn:Eq; inversion H; subst. constructor; auto.
      + unfold worker_critical in H. destruct (queue s) as [|x q] eqn:Eq.
        * inversion H; subst. constructor; auto.
        * destruct (it_kind x) eqn:Ek.
          -- inversion H; subst. pose proof (T_wtake s i x q Ew Eq). rewrite Ek in H0.
             apply H0; congruence.
          -- inversion H; subst. pose proof (T_wtake s i x q Ew Eq). rewrite Ek in H0.
             apply H0; congruence.
          -- destruct q as [|y q]; cbn [length Nat.ltb Nat.leb] in H; inversion H; subst.
             ++ eapply T_wterm; eauto.
             ++ eapply T_wcrash; eauto.
      + inversion H; subst. constructor; auto.
      + cbn in H. rewrite incr_eq in H. destruct (Nat.leb_spec (N + 1) (S (nwait s b0)));
          inversion H; subst; constructor; auto.
      + destruct (Nat.leb_spec (N + 1) (nwait s b0)); inversion H; subst; constructor; auto.
      + inversion H; subst. constructor; auto.
      + inversion H; subst. constructor; auto.
    - unfold spurious in H. destruct o as [|i].
      + destruct (main s) eqn:Em; inversion H; subst. constructor; auto.
      + destruct (nth_error (workers s) i) as [[]|] eqn:Ew; inversion H; subst; constructor; auto.
  Qed.

  (** ---- Layer A: the queue is a FIFO of the dispatched tasklets ---- *)
  Definition items (k p : nat) (r : Z) : list item :=
    if k <? p
    then {| it_id := k; it_kind := it_kind (mkitem k); it_rc := r |} :: map mkitem (seq (S k) (p - S k))
    else [].

  Record QS (k : nat) (r : Z) (s : st) : Prop := {
    qs_kp : k <= pushed (main s);
    qs_kL : k <= L;
    qs_r : (1 <= r <= full k)%Z;
    qs_end : k = pushed (main s) -> r = full k;
    qs_q : queue s = items k (pushed (main s)) r;
    qs_st : forall t, Z.of_nat (starts t (hist s)) =
              if t <? k then full t else if t =? k then (full k - r)%Z else 0%Z }.

  Record InvA (s : st) : Prop := {
    ia_len : length (workers s) = N;
    ia_crash : crashed s = false;
    ia_main : main_ok (main s);
    ia_q : exists k r, QS k r s;
    ia_term : forall i w, nth_error (workers s) i = Some w -> (w = WTermU \/ w = WDone) ->
                queue s = [mkitem L] /\ pushed (main s) = S L }.

  Lemma kind_end k : it_kind (mkitem k) = KEnd <-> nth_error P k = None.
  Proof.
    unfold TaskletModel.mkitem. destruct (nth_error P k) as [[]|]; cbn; split; congruence.
  Qed.

  Lemma it_id_mkitem k : it_id (mkitem k) = k.
  Proof. unfold TaskletModel.mkitem. destruct (nth_error P k) as [[]|]; reflexivity. Qed.

  Lemma item_eta k : {| it_id := k; it_kind := it_kind (mkitem k); it_rc := full k |} = mkitem k.
  Proof. unfold full, TaskletModel.mkitem. destruct (nth_error P k) as [[]|]; reflexivity. Qed.

  Lemma items_push k p r : k <= p -> (k = p -> r = full k) ->
    items k p r ++ [mkitem p] = items k (S p) r.
  Proof.
    intros Hk He. unfold items. destruct (Nat.ltb_spec k p).
    - replace (k <? S p) with true by lia. cbn. f_equal.
      replace (p - k) with (S (p - S k)) by lia. rewrite seq_S, map_app. cbn.
      replace (S (k + (p - S k))) with p by lia. reflexivity.
    - assert (k = p) by lia. subst. replace (p <? S p) with true by lia. rewrite Nat.sub_diag. cbn.
      rewrite He by auto. rewrite item_eta. reflexivity.
  Qed.

  Lemma items_full k p : k < p -> items k p (full k) = map mkitem (seq k (p - k)).
  Proof.
    intros H. unfold items. replace (k <? p) with true by lia. rewrite item_eta.
    replace (p - k) with (S (p - S k)) by lia. reflexivity.
  Qed.

  Lemma items_full' k p : items k p (full k) = map mkitem (seq k (p - k)).
  Proof.
    destruct (Nat.ltb_spec k p).
    - apply items_full; auto.
    - unfold items. replace (k <? p) with false by lia. replace (p - k) with 0 by lia. reflexivity.
  Qed.

  Lemma nth_error_None_L k : k <= L -> nth_error P k = None -> k = L.
  Proof. intros Hk H. apply nth_error_None in H. lia. Qed.

  Lemma nth_error_Some_L k o : nth_error P k = Some o -> k < L.
  Proof. intros H. apply nth_error_Some. congruence. Qed.

  Lemma pushed_L m : main_ok m -> pushed m <= S L.
  Proof.
    destruct m; cbn; try lia; intros H; apply nth_error_Some_L in H; lia.
  Qed.

  (** A [QS] is kept by any step that changes neither queue nor the number of
      pushed operations, and adds no start event. *)
  Lemma QS_keep k r s s' :
    QS k r s -> queue s' = queue s -> pushed (main s') = pushed (main s) ->
    (forall t, starts t (hist s') = starts t (hist s)) -> QS k r s'.
  Proof.
    intros [H1 H2 H3 H4 H5 H6] Hq Hp Hs. constructor; auto.
    - lia.
    - rewrite Hp; auto.
    - rewrite Hq, Hp; auto.
    - intros t. rewrite Hs. auto.
  Qed.

  Ltac wupd H := apply nth_upd_inv in H; destruct H as [[-> ->]|[? H]].

  Lemma main_notify_pushed pc m :
    pc <= L ->
    m = (match nth_error P pc with
           | Some (Dispatch _) => MAt (S pc) | Some Barrier => MBar pc | None => MJoin end) ->
    pushed m = S pc /\ main_ok m.
  Proof.
    intros Hpc ->. destruct (nth_error P pc) as [[n|]|] eqn:E; cbn.
    - apply nth_error_Some_L in E. lia.
    - auto.
    - rewrite (nth_error_None_L _ Hpc E). auto.
  Qed.

  Lemma pushed_wake_bar b m : pushed (wake_bar_main b m) = pushed m.
  Proof. destruct m; cbn; auto. destruct (b =? pc); reflexivity. Qed.
  Lemma main_ok_wake_bar b m : main_ok m -> main_ok (wake_bar_main b m).
  Proof. destruct m; cbn; auto. destruct (b =? pc); auto. Qed.

  Lemma nth_map_inv {A B} (f : A -> B) l i y :
    nth_error (map f l) i = Some y -> exists x, nth_error l i = Some x /\ y = f x.
  Proof. rewrite nth_error_map. destruct (nth_error l i); cbn; intros H; inversion H; eauto. Qed.

  Lemma wake_queue_term w : wake_queue w = WTermU \/ wake_queue w = WDone -> w = WTermU \/ w = WDone.
  Proof. destruct w; cbn; intuition congruence. Qed.
  Lemma wake_bar_term b w : wake_bar b w = WTermU \/ wake_bar b w = WDone -> w = WTermU \/ w = WDone.
  Proof. destruct w; cbn; try (intuition congruence). destruct (b =? b0); intuition congruence. Qed.

  Lemma InvA_init : InvA (init N).
  Proof.
    constructor; cbn.
    - apply repeat_length.
    - reflexivity.
    - lia.
    - exists 0, (full 0). constructor; cbn; auto.
      + lia.
      + pose proof (full_pos 0). lia.
      + intros t. cbn; bsplit; subst; lia.
    - intros i w H Hw. apply nth_error_In, repeat_spec in H. subst. destruct Hw; congruence.
  Qed.

  Lemma InvA_step sp s s' : InvA s -> tr sp s s' -> InvA s'.
  Proof.
    intros [Hlen Hcr Hmain (k & r & HQ) Hterm] Htr.
    destruct Htr; cbn [main] in *;
      try (constructor; cbn -[upd];
           [ rewrite ?upd_length, ?map_length; assumption | assumption | cbn in *; auto
           | exists k, r; eapply QS_keep; [exact HQ| reflexivity | cbn; try rewrite H; reflexivity | reflexivity ]
           | intros j w Hj Hw; cbn -[upd] in Hj;
             try (wupd Hj; [destruct Hw; congruence|]);
             specialize (Hterm _ _ Hj Hw); try rewrite H in Hterm; cbn in Hterm |- *; auto ]; fail).
    - (* mlock *)
      constructor; cbn -[upd]; auto.
      + rewrite H in Hmain; exact Hmain.
      + exists k, r. eapply QS_keep; [exact HQ|reflexivity|cbn; rewrite H; reflexivity|reflexivity].
      + intros j w Hj Hw. specialize (Hterm _ _ Hj Hw). rewrite H in Hterm. auto.
    - (* mpush *)
      constructor; cbn -[upd]; auto.
      + rewrite H in Hmain. exact Hmain.
      + destruct HQ as [H1 H2 H3 H4 H5 H6]. rewrite H in *. cbn [pushed] in *.
        exists k, r. constructor; cbn; auto; try lia.
        * rewrite H5. apply items_push; auto.
      + intros j w Hj Hw. specialize (Hterm _ _ Hj Hw). rewrite H in Hterm, Hmain. cbn in *. lia.
    - (* mnotify *)
      rewrite H in Hmain. cbn in Hmain. destruct (main_notify_pushed _ _ Hmain H0) as [Hp Hok].
      constructor; cbn -[upd]; auto.
      + rewrite map_length; auto.
      + exists k, r. eapply QS_keep; [exact HQ|reflexivity|cbn; rewrite H; exact Hp|reflexivity].
      + intros j w Hj Hw. apply nth_map_inv in Hj as (w0 & Hj & ->). apply wake_queue_term in Hw.
        specialize (Hterm _ _ Hj Hw). rewrite H in Hterm. rewrite Hp. auto.
    - (* mbar last *)
      constructor; cbn -[upd]; auto.
      + rewrite H in Hmain; exact Hmain.
      + exists k, r. eapply QS_keep; [exact HQ|reflexivity|cbn; rewrite H; reflexivity|reflexivity].
      + intros j w Hj Hw. specialize (Hterm _ _ Hj Hw). rewrite H in Hterm. auto.
    - constructor; cbn -[upd]; auto.
      + rewrite H in Hmain; exact Hmain.
      + exists k, r. eapply QS_keep; [exact HQ|reflexivity|cbn; rewrite H; reflexivity|reflexivity].
      + intros j w Hj Hw. specialize (Hterm _ _ Hj Hw). rewrite H in Hterm. auto.
    - rewrite H in Hmain. cbn in Hmain. apply nth_error_Some_L in Hmain.
      constructor; cbn -[upd]; auto.
      + exists k, r. eapply QS_keep; [exact HQ|reflexivity|cbn; rewrite H; reflexivity|reflexivity].
      + intros j w Hj Hw. specialize (Hterm _ _ Hj Hw). rewrite H in Hterm. auto.
    - constructor; cbn -[upd]; auto.
      + rewrite H in Hmain; exact Hmain.
      + exists k, r. eapply QS_keep; [exact HQ|reflexivity|cbn; rewrite H; reflexivity|reflexivity].
      + intros j w Hj Hw. specialize (Hterm _ _ Hj Hw). rewrite H in Hterm. auto.
    - rewrite H in Hmain. cbn in Hmain. apply nth_error_Some_L in Hmain.
      constructor; cbn -[upd]; auto.
      + rewrite map_length; auto.
      + exists k, r. eapply QS_keep; [exact HQ|reflexivity|cbn; rewrite H; reflexivity|reflexivity].
      + intros j w Hj Hw. apply nth_map_inv in Hj as (w0 & Hj & ->). apply wake_bar_term in Hw.
        specialize (Hterm _ _ Hj Hw). rewrite H in Hterm. auto.
    - (* crash *)
      exfalso. destruct HQ as [H1' H2 H3 H4 H5 H6]. rewrite H5 in H0. unfold items in H0.
      destruct (Nat.ltb_spec k (pushed (main s))); [|discriminate].
      inversion H0; subst. cbn in H1. apply kind_end in H1.
      assert (k = L) by (apply nth_error_None_L; auto). subst.
      pose proof (pushed_L _ Hmain). replace (pushed (main s) - S L) with 0 in H10 by lia.
      discriminate.
    - (* term *)
      constructor; cbn -[upd]; auto.
      + rewrite upd_length; auto.
      + exists k, r. eapply QS_keep; [exact HQ|reflexivity|reflexivity|reflexivity].
      + intros j w Hj Hw.
        destruct HQ as [H1' H2 H3 H4 H5 H6]. rewrite H5 in H0. unfold items in H0.
        destruct (Nat.ltb_spec k (pushed (main s))); [|discriminate].
        inversion H0; subst. cbn in H1. apply kind_end in H1.
        assert (k = L) by (apply nth_error_None_L; auto). subst.
        pose proof (pushed_L _ Hmain). split; [|lia].
        rewrite H5. unfold items. replace (L <? pushed (main s)) with true by lia.
        replace (pushed (main s) - S L) with 0 by lia. cbn. f_equal.
        assert (Hf: full L = 1%Z) by (unfold full, TaskletModel.mkitem; rewrite (proj2 (nth_error_None P L)) by lia; reflexivity).
        rewrite Hf in H3. assert (r = full L) by lia. subst r. apply item_eta.
    - (* take *)
      destruct HQ as [H1' H2 H3 H4 H5 H6]. pose proof H0 as Hq0. rewrite H5 in H0. unfold items in H0.
      destruct (Nat.ltb_spec k (pushed (main s))) as [Hlt|]; [|discriminate].
      inversion H0; subst x q. cbn in H1.
      assert (HkL : k < L).
      { destruct (nth_error P k) eqn:E. { eapply nth_error_Some_L; eauto. }
        exfalso; apply H1, kind_end; auto. }
      constructor; cbn -[upd]; auto.
      + rewrite upd_length; auto.
      + destruct (Z.eqb_spec (r - 1) 0) as [Hr|Hr].
        * exists (S k), (full (S k)). constructor; cbn -[starts Nat.ltb Nat.eqb].
          -- lia.
          -- lia.
          -- pose proof (full_pos (S k)). lia.
          -- auto.
          -- rewrite items_full'. reflexivity.
          -- intros t. cbn [starts hist it_id release log set_worker set_workers set_queue]. specialize (H6 t).
             destruct (Nat.eqb_spec t k) as [Htk|Htk]; [subst t|]; bsplit; lia.
        * exists k, (r - 1)%Z. constructor; cbn -[starts Nat.ltb Nat.eqb]; auto; try lia.
          -- unfold items. replace (k <? pushed (main s)) with true by lia. reflexivity.
          -- intros t. cbn [starts hist it_id release log set_worker set_workers set_queue]. specialize (H6 t).
             destruct (Nat.eqb_spec t k) as [Htk|Htk]; [subst t|]; bsplit; lia.
      + intros j w Hj Hw. wupd Hj.
        { destruct (it_kind (mkitem k)); destruct Hw; congruence. }
        specialize (Hterm _ _ Hj Hw) as [Hq _]. exfalso.
        rewrite Hq in H5. unfold items in H5. replace (k <? pushed (main s)) with true in H5 by lia.
        injection H5 as E _. apply (f_equal it_id) in E. rewrite it_id_mkitem in E. cbn in E. lia.
    - (* wbnot *)
      constructor; cbn -[upd]; auto.
      + rewrite upd_length, map_length; auto.
      + apply main_ok_wake_bar; auto.
      + exists k, r. eapply QS_keep; [exact HQ|reflexivity|apply pushed_wake_bar|reflexivity].
      + intros j w Hj Hw. wupd Hj; [destruct Hw; congruence|].
        apply nth_map_inv in Hj as (w0 & Hj & ->). apply wake_bar_term in Hw.
        rewrite pushed_wake_bar. eauto.
    - (* unlock *)
      constructor; cbn -[upd]; auto.
      + rewrite upd_length; auto.
      + exists k, r. eapply QS_keep; [exact HQ|reflexivity|reflexivity|reflexivity].
      + intros j w Hj Hw. wupd Hj; eauto.
    - (* spurious main *)
      constructor; cbn -[upd]; auto.
      + rewrite H in Hmain; exact Hmain.
      + exists k, r. eapply QS_keep; [exact HQ|reflexivity|cbn; rewrite H; reflexivity|reflexivity].
      + intros j w Hj Hw. specialize (Hterm _ _ Hj Hw). rewrite H in Hterm. auto.
  Qed.

  (** ---- Layer B: bookkeeping of running invocations ---- *)
  Definition wkind (w : wstate) : Prop :=
    match w with
    | WRun t => exists n, nth_error P t = Some (Dispatch n)
    | WBar b | WBarSleep b | WBarWake b | WBarNotify b => nth_error P b = Some Barrier
    | _ => True
    end.

  Record InvB (s : st) : Prop := {
    ib_cnt : forall t, starts t (hist s) = ends t (hist s) + cntw (is_busy t) (workers s);
    ib_kind : forall i w, nth_error (workers s) i = Some w -> wkind w }.

  Lemma InvB_init : InvB (init N).
  Proof.
    constructor; cbn.
    - intros t. symmetry. apply cntw_zero. intros w Hw. apply repeat_spec in Hw. subst. reflexivity.
    - intros i w H. apply nth_error_In, repeat_spec in H. subst. exact I.
  Qed.

  Lemma wkind_wake_queue w : wkind w -> wkind (wake_queue w).
  Proof. destruct w; auto. Qed.
  Lemma wkind_wake_bar b w : wkind w -> wkind (wake_bar b w).
  Proof. destruct w; auto. cbn. destruct (b =? b0); auto. Qed.

  Lemma cntw_upd' f ws i x w n :
    nth_error ws i = Some w -> cntw f ws = n -> cntw f (upd ws i x) = n + b2n (f x) - b2n (f w).
  Proof. intros H <-. pose proof (cntw_upd f ws i x w H). lia. Qed.

  Lemma take_kind s x q : InvA s -> queue s = x :: q -> it_kind x <> KEnd ->
    wkind (match it_kind x with KBar => WBar (it_id x) | _ => WRun (it_id x) end).
  Proof.
    intros [_ _ _ (k & r & [H1 H2 H3 H4 H5 H6]) _] Hq Hk. rewrite H5 in Hq. unfold items in Hq.
    destruct (k <? pushed (main s)); [|discriminate]. inversion Hq; subst. cbn in Hk |- *.
    unfold TaskletModel.mkitem in *. destruct (nth_error P k) as [[n|]|] eqn:E; cbn in *; eauto.
    congruence.
  Qed.

  Lemma InvB_step sp s s' : InvA s -> InvB s -> tr sp s s' -> InvB s'.
  Proof.
    intros HA [Hc Hk] Htr. destruct Htr; constructor; cbn; auto;
      try (intros t0; specialize (Hc t0);
           pose proof (cntw_pos (is_busy t0) (workers s) i) as Hpos; specialize (Hpos _ H); cbn in Hpos;
           erewrite cntw_upd' by eauto; cbn; unfold b2n in *;
           repeat match goal with |- context [?a =? ?b] => destruct (Nat.eqb_spec a b) end;
           try specialize (Hpos eq_refl); lia);
      try (intros j w Hj; wupd Hj; [exact I || (specialize (Hk _ _ H); exact Hk)|]; eauto; fail).
    - intros t. rewrite cntw_map by (intros; apply is_busy_wake_queue). auto.
    - intros j w Hj. apply nth_map_inv in Hj as (w0 & Hj & ->). apply wkind_wake_queue. eauto.
    - intros t. rewrite cntw_map by (intros; apply is_busy_wake_bar). auto.
    - intros j w Hj. apply nth_map_inv in Hj as (w0 & Hj & ->). apply wkind_wake_bar. eauto.
    - intros t. specialize (Hc t). erewrite cntw_upd' by eauto.
      destruct (it_kind x); cbn; unfold b2n; bsplit; try congruence; lia.
    - intros j w Hj. wupd Hj; eauto. eapply take_kind; eauto.
    - intros t0. specialize (Hc t0).
      assert (Hm: nth_error (map (wake_bar t) (workers s)) i = Some (WBarNotify t))
        by (rewrite nth_error_map, H; reflexivity).
      pose proof (cntw_pos (is_busy t0) (workers s) i _ H) as Hpos. cbn in Hpos.
      erewrite cntw_upd' by eauto. rewrite cntw_map by (intros; apply is_busy_wake_bar).
      cbn. unfold b2n in *. destruct (Nat.eqb_spec t0 t); try specialize (Hpos eq_refl); lia.
    - intros j w Hj. wupd Hj; [exact I|]. apply nth_map_inv in Hj as (w0 & Hj & ->).
      apply wkind_wake_bar. eauto.
  Qed.

  Lemma starts_le s t : InvA s -> (Z.of_nat (starts t (hist s)) <= full t)%Z.
  Proof.
    intros [_ _ _ (k & r & [H1 H2 H3 H4 H5 H6]) _]. rewrite H6. pose proof (full_pos t).
    bsplit; subst; lia.
  Qed.

  Lemma full_bar b : nth_error P b = Some Barrier -> full b = Z.of_nat N.
  Proof. intros H. unfold full, TaskletModel.mkitem. rewrite H. reflexivity. Qed.
  Lemma full_task b n : nth_error P b = Some (Dispatch n) -> full b = n.
  Proof. intros H. unfold full, TaskletModel.mkitem. rewrite H. reflexivity. Qed.

  (** ---- Layer C: barriers ---- *)
  Record InvC (s : st) : Prop := {
    ic_acc : forall b, nth_error P b = Some Barrier ->
      nwait s b + cntw (is_wbar b) (workers s) = starts b (hist s) + b2n (entered (main s) b);
    ic_closed : forall b, nth_error P b = Some Barrier -> nwait s b < N + 1 -> ends b (hist s) = 0;
    ic_open : forall b, nth_error P b = Some Barrier -> N + 1 <= nwait s b ->
      forall t, t < b -> Z.of_nat (ends t (hist s)) = full t;
    ic_passed : forall b, nth_error P b = Some Barrier -> passed (main s) b = true -> N + 1 <= nwait s b;
    ic_sleepm : forall b, main s = MBarSleep b -> N + 1 <= nwait s b ->
      exists j, nth_error (workers s) j = Some (WBarNotify b);
    ic_sleepw : forall b i, nth_error (workers s) i = Some (WBarSleep b) -> N + 1 <= nwait s b ->
      main s = MBarNotify b \/ exists j, nth_error (workers s) j = Some (WBarNotify b);
    ic_notm : forall b, main s = MBarNotify b -> N + 1 <= nwait s b;
    ic_notw : forall b i, nth_error (workers s) i = Some (WBarNotify b) -> N + 1 <= nwait s b }.

  Lemma InvC_init : InvC (init N).
  Proof.
    constructor; cbn; try (intros; lia); try (intros; discriminate).
    - intros b Hb. rewrite cntw_zero.
      + reflexivity.
      + intros w Hw. apply repeat_spec in Hw. subst. reflexivity.
    - intros b i H. apply nth_error_In, repeat_spec in H. congruence.
  Qed.

  (** When the count of a barrier reaches its limit, all workers are in that
      barrier, hence everything before it is finished. *)
  Lemma barrier_opens s b :
    InvA s -> InvB s -> nth_error P b = Some Barrier ->
    ends b (hist s) = 0 -> N <= starts b (hist s) ->
    forall t, t < b -> Z.of_nat (ends t (hist s)) = full t.
  Proof.
    intros HA [Hc Hk] Hb He Hs t Ht.
    pose proof (starts_le s b HA) as Hle. rewrite (full_bar _ Hb) in Hle.
    assert (Hbusy : cntw (is_busy b) (workers s) = length (workers s)).
    { rewrite (ia_len _ HA). pose proof (Hc b). lia. }
    pose proof (cntw_all _ _ Hbusy) as Hall.
    assert (Hz : cntw (is_busy t) (workers s) = 0).
    { apply cntw_zero. intros w Hw. specialize (Hall _ Hw).
      destruct w; cbn in *; try discriminate; apply Nat.eqb_eq in Hall; subst; apply Nat.eqb_neq; lia. }
    pose proof (Hc t) as Hct. rewrite Hz in Hct.
    destruct HA as [_ _ _ (k & r & [H1 H2 H3 H4 H5 H6]) _].
    pose proof (H6 b) as Hkb. pose proof (H6 t) as Hkt. bsplit; lia.
  Qed.

  Lemma ends_mono_full s s' t :
    InvA s' -> InvB s' -> ends t (hist s) <= ends t (hist s') ->
    Z.of_nat (ends t (hist s)) = full t -> Z.of_nat (ends t (hist s')) = full t.
  Proof.
    intros HA [Hc _] Hle Hf. pose proof (starts_le s' t HA). pose proof (Hc t). lia.
  Qed.

  Lemma is_wbar_zero_of_notbar b ws i w : nth_error ws i = Some w -> is_wbar b w = false ->
    forall x, is_wbar b x = false -> cntw (is_wbar b) (upd ws i x) = cntw (is_wbar b) ws.
  Proof. intros H Hw x Hx. erewrite cntw_upd' by eauto. rewrite Hw, Hx. cbn. lia. Qed.

  Lemma entered_notify pc m b :
    pc <= L ->
    m = (match nth_error P pc with
           | Some (Dispatch _) => MAt (S pc) | Some Barrier => MBar pc | None => MJoin end) ->
    nth_error P b = Some Barrier ->
    entered m b = entered (MNotify pc) b /\ passed m b = passed (MNotify pc) b.
  Proof.
    intros Hpc -> Hb. destruct (nth_error P pc) as [[n|]|] eqn:E; cbn -[Nat.ltb]; auto.
    - assert (b <> pc) by congruence. bsplit; split; lia || reflexivity.
    - rewrite (nth_error_None_L _ Hpc E). auto.
  Qed.

  Lemma entered_wake b m c : entered (wake_bar_main b m) c = entered m c.
  Proof. destruct m; cbn; auto. destruct (b =? pc); reflexivity. Qed.
  Lemma passed_wake b m c : passed (wake_bar_main b m) c = passed m c.
  Proof. destruct m; cbn; auto. destruct (b =? pc); reflexivity. Qed.

  Lemma incr_cases f b x : incr f b x = f x + b2n (x =? b).
  Proof. unfold incr, b2n. destruct (x =? b); lia. Qed.

  Lemma ends_cons_le e t h : ends t h <= ends t (e :: h).
  Proof. destruct e; cbn; lia. Qed.

  Lemma nwait_le s b : InvA s -> InvC s -> nth_error P b = Some Barrier -> nwait s b <= N + 1.
  Proof.
    intros HA HC Hb. pose proof (ic_acc _ HC b Hb). pose proof (starts_le s b HA).
    rewrite (full_bar _ Hb) in *. unfold b2n in *. destruct (entered (main s) b); lia.
  Qed.

  Lemma tr_ends_mono sp s s' t : tr sp s s' -> ends t (hist s) <= ends t (hist s').
  Proof. intros []; cbn; lia. Qed.
  Lemma tr_nwait_mono sp s s' b : tr sp s s' -> nwait s b <= nwait s' b.
  Proof. intros []; cbn; rewrite ?incr_cases; lia. Qed.

  Lemma C_acc sp s s' : InvA s -> InvB s -> InvC s -> tr sp s s' ->
    forall b, nth_error P b = Some Barrier ->
      nwait s' b + cntw (is_wbar b) (workers s') = starts b (hist s') + b2n (entered (main s') b).
  Proof.
    intros HA HB HC Htr b Hb. pose proof (ic_acc _ HC b Hb) as Hacc. pose proof (ia_main _ HA) as Hmain.
    destruct Htr; cbn in *; rewrite ?incr_cases;
      try rewrite entered_wake; try rewrite H in Hacc; try rewrite H in Hmain; cbn in *;
      try (rewrite cntw_map by (intros; apply is_busy_wake_queue || apply is_wbar_wake_queue || apply is_wbar_wake_bar));
      try (erewrite cntw_upd' by eauto; cbn in *; pose proof (cntw_pos (is_wbar b) (workers s) i _ H) as Hpos; cbn in Hpos;
           unfold b2n in *; bsplit; try specialize (Hpos eq_refl); lia);
      try (unfold b2n in *; bsplit; lia).
    - (* notify *) destruct (entered_notify _ _ _ Hmain H0 Hb) as [-> _]. exact Hacc.
    - (* take *) pose proof (take_kind _ _ _ HA H0 H1) as Hk.
      destruct (it_kind x) eqn:Ek; try congruence.
      + erewrite cntw_upd' by eauto; cbn.
        cbn in Hk. destruct Hk as [n Hk]. bsplit; try congruence. cbn. lia.
      + erewrite cntw_upd' by eauto; cbn. bsplit; unfold b2n in *; lia.
    - assert (Hm: nth_error (map (wake_bar t) (workers s)) i = Some (WBarNotify t))
        by (rewrite nth_error_map, H; reflexivity).
      erewrite cntw_upd' by eauto. rewrite cntw_map by (intros; apply is_wbar_wake_bar). cbn. lia.
  Qed.

  Lemma C_closed sp s s' : InvA s -> InvB s -> InvC s -> tr sp s s' ->
    forall b, nth_error P b = Some Barrier -> nwait s' b < N + 1 -> ends b (hist s') = 0.
  Proof.
    intros HA HB HC Htr b Hb Hn. pose proof (tr_nwait_mono _ _ _ b Htr) as Hmono.
    pose proof (ic_closed _ HC b Hb ltac:(lia)) as Hc.
    destruct Htr; cbn in *; auto.
    - (* run *) pose proof (ib_kind _ HB _ _ H) as [n Hk]. bsplit; try congruence. lia.
    - bsplit; subst; lia.
    - pose proof (ic_notw _ HC _ _ H). bsplit; subst; lia.
  Qed.

  Lemma C_open sp s s' : InvA s -> InvB s -> InvC s -> InvA s' -> InvB s' -> tr sp s s' ->
    forall b, nth_error P b = Some Barrier -> N + 1 <= nwait s' b ->
      forall t, t < b -> Z.of_nat (ends t (hist s')) = full t.
  Proof.
    intros HA HB HC HA' HB' Htr b Hb Hn t Ht.
    destruct (Nat.lt_ge_cases (nwait s b) (N + 1)) as [Hcl|Hop].
    2:{ apply (ends_mono_full s s' t HA' HB' (tr_ends_mono _ _ _ t Htr)). eapply ic_open; eauto. }
    pose proof (C_acc _ _ _ HA HB HC Htr b Hb) as Hacc'.
    eapply barrier_opens; eauto.
    - pose proof (ic_closed _ HC b Hb Hcl) as Hz.
      destruct Htr; cbn in *; rewrite ?incr_cases in *; auto; try lia.
    - unfold b2n in Hacc'. destruct (entered (main s') b); lia.
  Qed.

  Lemma C_passed sp s s' : InvA s -> InvB s -> InvC s -> tr sp s s' ->
    forall b, nth_error P b = Some Barrier -> passed (main s') b = true -> N + 1 <= nwait s' b.
  Proof.
    intros HA HB HC Htr b Hb Hp. pose proof (tr_nwait_mono _ _ _ b Htr) as Hmono.
    pose proof (ic_passed _ HC b Hb) as Hold. pose proof (ia_main _ HA) as Hmain.
    destruct Htr; cbn in *; rewrite ?passed_wake in *;
      try (rewrite H in Hold; cbn in Hold; specialize (Hold Hp); lia); auto.
    - rewrite H in Hmain. destruct (entered_notify _ _ _ Hmain H0 Hb) as [_ E]. rewrite E in Hp.
      rewrite H in Hold. auto.
    - rewrite H in Hold; cbn in *. destruct (Nat.eq_dec b pc); [subst; auto|].
      apply Hold. bsplit; try discriminate; lia || reflexivity.
    - rewrite H in Hold; cbn in *. destruct (Nat.eq_dec b pc).
      { subst. apply (ic_notm _ HC); auto. }
      apply Hold. bsplit; try discriminate; lia || reflexivity.
    - specialize (Hold Hp). lia.
    - specialize (Hold Hp). lia.
  Qed.

  Lemma wake_bar_notify b w c : wake_bar b w = WBarNotify c -> w = WBarNotify c.
  Proof. destruct w; cbn; try congruence. destruct (b =? b0); congruence. Qed.
  Lemma wake_bar_main_notify b w c : wake_bar_main b w = MBarNotify c -> w = MBarNotify c.
  Proof. destruct w; cbn; try congruence. destruct (b =? pc); congruence. Qed.
  Lemma wake_queue_notify w c : wake_queue w = WBarNotify c -> w = WBarNotify c.
  Proof. destruct w; cbn; congruence. Qed.
  Lemma wake_queue_bsleep w c : wake_queue w = WBarSleep c -> w = WBarSleep c.
  Proof. destruct w; cbn; congruence. Qed.
  Lemma wake_bar_bsleep b w c : wake_bar b w = WBarSleep c -> w = WBarSleep c /\ b <> c.
  Proof.
    destruct w; cbn; try (intros; discriminate). destruct (Nat.eqb_spec b b0); try discriminate.
    intros E; inversion E; subst; auto.
  Qed.
  Lemma wake_bar_main_bsleep b w c : wake_bar_main b w = MBarSleep c -> w = MBarSleep c /\ b <> c.
  Proof.
    destruct w; cbn; try (intros; discriminate). destruct (Nat.eqb_spec b pc); try discriminate.
    intros E; inversion E; subst; auto.
  Qed.

  Lemma C_notm sp s s' : InvC s -> tr sp s s' -> InvA s ->
    forall b, main s' = MBarNotify b -> N + 1 <= nwait s' b.
  Proof.
    intros HC Htr HA b Hm. pose proof (tr_nwait_mono _ _ _ b Htr) as Hmono.
    pose proof (ic_notm _ HC b) as Hold.
    destruct Htr; cbn in *; try discriminate; try (specialize (Hold Hm); lia).
    - subst m. destruct (nth_error P pc) as [[]|]; discriminate.
    - inversion Hm; subst. rewrite incr_cases, Nat.eqb_refl. cbn. lia.
    - apply wake_bar_main_notify in Hm. auto.
  Qed.

  Lemma C_notw sp s s' : InvC s -> tr sp s s' ->
    forall b i, nth_error (workers s') i = Some (WBarNotify b) -> N + 1 <= nwait s' b.
  Proof.
    intros HC Htr b i0 Hm. pose proof (tr_nwait_mono _ _ _ b Htr) as Hmono.
    pose proof (ic_notw _ HC b) as Hold.
    destruct Htr; cbn in *;
      try (specialize (Hold _ Hm); lia);
      try (apply nth_upd_inv in Hm; destruct Hm as [[-> Hm]|[? Hm]]; try discriminate; specialize (Hold _ Hm); lia).
    - apply nth_map_inv in Hm as (w0 & Hm & E). symmetry in E. apply wake_queue_notify in E. subst. eauto.
    - apply nth_map_inv in Hm as (w0 & Hm & E). symmetry in E. apply wake_bar_notify in E. subst. eauto.
    - apply nth_upd_inv in Hm; destruct Hm as [[-> Hm]|[? Hm]]; [|eauto].
      destruct (it_kind x); discriminate.
    - apply nth_upd_inv in Hm; destruct Hm as [[-> Hm]|[? Hm]].
      + inversion Hm; subst. rewrite incr_cases, Nat.eqb_refl. cbn. lia.
      + specialize (Hold _ Hm). lia.
    - apply nth_upd_inv in Hm; destruct Hm as [[-> Hm]|[? Hm]]; [discriminate|].
      apply nth_map_inv in Hm as (w0 & Hm & E). symmetry in E. apply wake_bar_notify in E. subst. eauto.
  Qed.

  (** A pending notification of barrier [b] in the new state. *)
  Definition pending (b : nat) (s : st) : Prop :=
    main s = MBarNotify b \/ exists j, nth_error (workers s) j = Some (WBarNotify b).

  (** A pending notification stays pending unless it is delivered. *)
  Lemma pending_keep sp s s' b : InvA s -> tr sp s s' -> pending b s ->
    pending b s' \/
    ((forall i, nth_error (workers s') i <> Some (WBarSleep b)) /\ main s' <> MBarSleep b).
  Proof.
    intros HA Htr [Hm|[j Hj]].
    - destruct Htr; try congruence;
        try (left; left; cbn in *; try rewrite Hm; auto; fail).
      assert (pc = b) by congruence. subst. right. cbn. split; [|congruence].
      intros i Hi. apply nth_map_inv in Hi as (w & _ & E). symmetry in E. apply wake_bar_bsleep in E. tauto.
    - destruct Htr;
        try (left; right; exists j; cbn; auto; fail);
        try (left; right; exists j; cbn; rewrite nth_upd_ne by congruence; auto; fail).
      + left; right; exists j; cbn. rewrite nth_error_map, Hj. reflexivity.
      + left; right; exists j; cbn. rewrite nth_error_map, Hj. reflexivity.
      + destruct (Nat.eq_dec i j) as [->|Hij].
        * assert (t = b) by congruence. subst. right. cbn. split.
          -- intros i Hi. apply nth_upd_inv in Hi; destruct Hi as [[_ Hi]|[_ Hi]]; [discriminate|].
             apply nth_map_inv in Hi as (w & _ & E). symmetry in E. apply wake_bar_bsleep in E. tauto.
          -- intros E. apply wake_bar_main_bsleep in E. tauto.
        * left; right; exists j; cbn. rewrite nth_upd_ne by congruence. rewrite nth_error_map, Hj. reflexivity.
  Qed.

  (** A barrier whose count reaches the limit in a step has a pending notification afterwards. *)
  Lemma pending_new sp s s' b : tr sp s s' -> nwait s b < N + 1 -> N + 1 <= nwait s' b -> pending b s'.
  Proof.
    intros Htr H1 H2. destruct Htr; cbn in *; rewrite ?incr_cases in *; try lia.
    - left. cbn. bsplit; cbn in *; try lia. subst; auto.
    - bsplit; cbn in *; try lia. subst. lia.
    - right. cbn. exists i. bsplit; cbn in *; try lia. subst. eapply nth_upd_eq; eauto.
    - bsplit; cbn in *; try lia. subst. lia.
  Qed.

  Lemma sleep_origin sp s s' b i : tr sp s s' -> nth_error (workers s') i = Some (WBarSleep b) ->
    nth_error (workers s) i = Some (WBarSleep b) \/ nwait s' b < N + 1.
  Proof.
    intros Htr Hi. destruct Htr; cbn in *; auto;
      try (apply nth_upd_inv in Hi; destruct Hi as [[-> Hi]|[? Hi]]; try discriminate; auto).
    - apply nth_map_inv in Hi as (w & Hi & E). symmetry in E. apply wake_queue_bsleep in E. subst; auto.
    - apply nth_map_inv in Hi as (w & Hi & E). symmetry in E. apply wake_bar_bsleep in E as [E _]. subst; auto.
    - destruct (it_kind x); discriminate.
    - inversion Hi; subst. right. rewrite incr_cases, Nat.eqb_refl. cbn. lia.
    - inversion Hi; subst. auto.
    - apply nth_map_inv in Hi as (w & Hi & E). symmetry in E. apply wake_bar_bsleep in E as [E _]. subst; auto.
  Qed.

  Lemma sleep_origin_main sp s s' b : tr sp s s' -> main s' = MBarSleep b ->
    main s = MBarSleep b \/ nwait s' b < N + 1.
  Proof.
    intros Htr Hi. destruct Htr; cbn in *; auto; try discriminate; try congruence.
    - subst m. destruct (nth_error P pc) as [[]|]; discriminate.
    - inversion Hi; subst. right. rewrite incr_cases, Nat.eqb_refl. cbn. lia.
    - inversion Hi; subst. auto.
    - apply wake_bar_main_bsleep in Hi as [Hi _]. auto.
  Qed.

  Lemma InvC_step sp s s' : InvA s -> InvB s -> InvC s -> InvA s' -> InvB s' -> tr sp s s' -> InvC s'.
  Proof.
    intros HA HB HC HA' HB' Htr. constructor.
    - exact (C_acc _ _ _ HA HB HC Htr).
    - exact (C_closed _ _ _ HA HB HC Htr).
    - exact (C_open _ _ _ HA HB HC HA' HB' Htr).
    - exact (C_passed _ _ _ HA HB HC Htr).
    - intros b Hm Hn. destruct (sleep_origin_main _ _ _ _ Htr Hm) as [Ho|]; [|lia].
      assert (Hp : pending b s').
      { destruct (Nat.lt_ge_cases (nwait s b) (N + 1)) as [Hcl|Hop].
        - eapply pending_new; eauto.
        - destruct (pending_keep _ _ _ b HA Htr) as [|[_ ?]]; auto; [|congruence].
          right. eapply ic_sleepm; eauto. }
      destruct Hp as [Hp|]; auto. congruence.
    - intros b i Hi Hn. destruct (sleep_origin _ _ _ _ _ Htr Hi) as [Ho|]; [|lia].
      destruct (Nat.lt_ge_cases (nwait s b) (N + 1)) as [Hcl|Hop].
      + eapply pending_new; eauto.
      + destruct (pending_keep _ _ _ b HA Htr) as [|[? _]]; auto.
        * eapply ic_sleepw; eauto.
        * exfalso; eapply H; eauto.
    - exact (C_notm _ _ _ HC Htr HA).
    - exact (C_notw _ _ _ HC Htr).
  Qed.

  (** ---- Layer D: no lost wake-up on the queue; owner; flags; history ---- *)
  Definition terminated (w : wstate) : bool :=
    match w with WTermU | WDone => true | _ => false end.

  Fixpoint bar_hist (h : list event) : Prop :=
    match h with
    | [] => True
    | EvReturn b :: r => (forall t, t < b -> Z.of_nat (ends t r) = full t) /\ bar_hist r
    | _ :: r => bar_hist r
    end.

  Fixpoint fifo_hist (h : list event) : Prop :=
    match h with
    | [] => True
    | EvStart t :: r => (forall t', In (EvStart t') r -> t' <= t) /\ fifo_hist r
    | _ :: r => fifo_hist r
    end.

  Record InvD (s : st) : Prop := {
    id_sleep : forall i, nth_error (workers s) i = Some WSleep -> queue s <> [] ->
                 exists pc, main s = MNotify pc;
    id_ownm : qowner s = Some OMain -> exists pc, main s = MLocked pc;
    id_ownw : forall i, qowner s = Some (OWorker i) -> nth_error (workers s) i = Some WHold;
    id_fail : failflag s = true <-> some_threw (hist s);
    id_bar : bar_hist (hist s);
    id_fifo : fifo_hist (hist s);
    id_end : main s = MEnd -> forall w, In w (workers s) -> w = WDone }.

  Lemma InvD_init : InvD (init N).
  Proof.
    constructor; cbn; auto; try discriminate; try (intros; discriminate); try (intros; congruence).
    split; [discriminate|]. intros [t []].
  Qed.

  Lemma nth_in_map_wake {A} (f : A -> A) l i y : nth_error (map f l) i = Some y ->
    exists x, nth_error l i = Some x /\ f x = y.
  Proof. intros H. apply nth_map_inv in H as (x & ? & ?). eauto. Qed.

  Lemma some_threw_cons e h : some_threw (e :: h) <->
    (match e with EvEnd _ true => True | _ => False end) \/ some_threw h.
  Proof.
    unfold some_threw. split.
    - intros [t [->|H]]; auto. right. eauto.
    - intros [H|[t H]].
      + destruct e as [|t [|]|]; try tauto. exists t. left; auto.
      + exists t. right; auto.
  Qed.

  Lemma started_le s k r t : QS k r s -> In (EvStart t) (hist s) -> t <= k.
  Proof.
    intros [H1 H2 H3 H4 H5 H6] Hin. specialize (H6 t).
    assert (1 <= starts t (hist s)).
    { clear -Hin. induction (hist s) as [|e h IH]; [destruct Hin|].
      destruct Hin as [->|Hin]; cbn; [rewrite Nat.eqb_refl; lia|].
      specialize (IH Hin). destruct e; lia. }
    bsplit; lia.
  Qed.

  Lemma InvD_step sp s s' : InvA s -> InvB s -> InvC s -> InvD s -> InvA s' -> InvC s' -> tr sp s s' -> InvD s'.
  Proof.
    intros HA HB HC HD HA' HC' Htr.
    assert (Hall : N <> 0 -> forall i w, nth_error (workers s) i = Some w -> In w (workers s))
      by (intros; eapply nth_error_In; eauto).
    constructor.
    - intros j Hj Hq. pose proof (id_sleep _ HD) as Hs.
      destruct Htr; cbn in *;
        try (destruct (Hs _ Hj Hq) as [pc' Hpc]; rewrite ?Hpc in *; eauto; congruence);
        try (apply nth_upd_inv in Hj; destruct Hj as [[_ Hj]|[_ Hj]]; [discriminate|];
             destruct (Hs _ Hj Hq) as [pc' Hpc]; rewrite ?Hpc in *; eauto; congruence).
      + eauto.
      + apply nth_map_inv in Hj as (w & Hj & E). destruct w; discriminate.
      + apply nth_map_inv in Hj as (w & Hj & E).
        assert (w = WSleep).
        { destruct w; cbn in E; try discriminate; auto. destruct (pc =? b); discriminate. }
        subst. destruct (Hs _ Hj Hq); congruence.
      + congruence.
      + apply nth_upd_inv in Hj; destruct Hj as [[_ Hj]|[_ Hj]].
        { destruct (it_kind x); discriminate. }
        apply (Hs _ Hj). congruence.
      + apply nth_upd_inv in Hj; destruct Hj as [[_ Hj]|[_ Hj]]; [discriminate|].
        apply nth_map_inv in Hj as (w & Hj & E).
        assert (w = WSleep).
        { destruct w; cbn in E; try discriminate; auto. destruct (t =? b); discriminate. }
        subst. destruct (Hs _ Hj Hq) as [pc Hpc]. rewrite Hpc. cbn. eauto.
    - intros Ho. pose proof (id_ownm _ HD) as Hm.
      destruct Htr; cbn in *; try discriminate; eauto;
        try (destruct (Hm Ho) as [pc' Hpc]; congruence).
      destruct (Hm Ho) as [pc' Hpc]. rewrite Hpc. cbn. eauto.
    - intros j Ho. pose proof (id_ownw _ HD j) as Hm.
      destruct Htr; cbn in *; try discriminate; eauto;
        try (specialize (Hm Ho); rewrite nth_upd_ne by congruence; assumption).
      + rewrite nth_error_map, (Hm Ho). reflexivity.
      + rewrite nth_error_map, (Hm Ho). reflexivity.
      + inversion Ho; subst. eapply nth_upd_eq; eauto.
      + specialize (Hm Ho). rewrite nth_upd_ne by congruence. rewrite nth_error_map, Hm. reflexivity.
    - pose proof (id_fail _ HD) as Hf.
      destruct Htr; cbn in *; try rewrite some_threw_cons; auto; try tauto.
      destruct b; rewrite ?orb_true_r, ?orb_false_r; tauto.
    - pose proof (id_bar _ HD) as Hf.
      destruct Htr; cbn in *; auto.
      + split; auto. intros t Ht. pose proof (ia_main _ HA) as Hm. rewrite H in Hm. cbn in Hm.
        eapply ic_open; eauto.
      + split; auto. intros t Ht. pose proof (ia_main _ HA) as Hm. rewrite H in Hm. cbn in Hm.
        eapply (ic_open _ HC); eauto. apply (ic_notm _ HC); auto.
    - pose proof (id_fifo _ HD) as Hf.
      destruct Htr; cbn in *; auto.
      split; auto. intros t' Hin. destruct (ia_q _ HA) as (k & r & HQ).
      pose proof (started_le _ _ _ _ HQ Hin). rewrite (qs_q _ _ _ HQ) in H0. unfold items in H0. destruct (k <? pushed (main s)); [|discriminate].
      inversion H0; subst. cbn. auto.
    - pose proof (id_end _ HD) as Hf. intros Hm w Hw.
      destruct Htr; cbn in *; try discriminate; try congruence; eauto;
        try (exfalso; specialize (Hf Hm _ (Hall HN _ _ H)); discriminate).
      + subst m. destruct (nth_error P pc) as [[]|]; discriminate.
      + assert (main s = MEnd). { destruct (main s); cbn in Hm; try discriminate; auto. destruct (t =? pc); discriminate. }
        specialize (Hf H0 _ (Hall HN _ _ H)); discriminate.
  Qed.

  Record Inv (s : st) : Prop := { iA : InvA s; iB : InvB s; iC : InvC s; iD : InvD s }.

  Lemma Inv_init : Inv (init N).
  Proof. constructor; [apply InvA_init | apply InvB_init | apply InvC_init | apply InvD_init]. Qed.

  Lemma Inv_tr sp s s' : Inv s -> tr sp s s' -> Inv s'.
  Proof.
    intros [HA HB HC HD] Htr.
    pose proof (InvA_step _ _ _ HA Htr) as HA'.
    pose proof (InvB_step _ _ _ HA HB Htr) as HB'.
    pose proof (InvC_step _ _ _ HA HB HC HA' HB' Htr) as HC'.
    constructor; auto. exact (InvD_step _ _ _ HA HB HC HD HA' HC' Htr).
  Qed.

  Lemma Inv_run ls : forall s s', Inv s -> run N P ls s = Some s' -> Inv s'.
  Proof.
    induction ls as [|l ls IH]; cbn; intros s s' HI Hr.
    - inversion Hr; subst; auto.
    - destruct (step N P l s) as [s1|] eqn:E; [|discriminate].
      apply step_tr in E as [_ Htr]. exact (IH _ _ (Inv_tr _ _ _ HI Htr) Hr).
  Qed.

  Lemma Inv_reachable s : reachable N P s -> Inv s.
  Proof. intros [ls H]. eapply Inv_run; eauto. apply Inv_init. Qed.

  (** ---- Progress ---- *)
  Definition active (w : wstate) : bool :=
    match w with
    | WHold | WRun _ | WBar _ | WBarWake _ | WBarNotify _ | WTermU => true
    | _ => false
    end.

  Lemma exists_or_forall (f : wstate -> bool) ws :
    (exists i w, nth_error ws i = Some w /\ f w = true) \/ (forall i w, nth_error ws i = Some w -> f w = false).
  Proof.
    induction ws as [|a ws [ (i & w & H & E) | IH]].
    - right. intros [|i] w H; discriminate.
    - left. exists (S i), w. auto.
    - destruct (f a) eqn:Ea.
      + left. exists 0, a. auto.
      + right. intros [|i] w H; cbn in H; [inversion H; subst; auto|eauto].
  Qed.

  Lemma all_forallb (ws : list wstate) :
    (forall i w, nth_error ws i = Some w -> w = WDone) ->
    forallb (fun w => match w with WDone => true | _ => false end) ws = true.
  Proof.
    intros H. apply forallb_forall. intros w Hw. apply In_nth_error in Hw as [i Hi].
    rewrite (H _ _ Hi). reflexivity.
  Qed.

  Definition finished (s : st) : Prop := main s = MEnd /\ forall w, In w (workers s) -> w = WDone.

  Lemma progress s : Inv s -> ~ finished s ->
    exists l s', is_spurious l = false /\ step N P l s = Some s'.
  Proof.
    intros [HA HB HC HD] Hnf. unfold step. rewrite (ia_crash _ HA).
    destruct (exists_or_forall active (workers s)) as [(i & w & Hi & Hact)|Hnone].
    { exists (LWorker i false). cbn. unfold wstep. rewrite Hi.
      destruct w; cbn in Hact; try discriminate; eauto.
      - destruct (Nat.leb _ _); eauto.
      - destruct (Nat.leb _ _); eauto. }
    assert (Hown : (forall pc, main s <> MLocked pc) -> qowner s = None).
    { intros Hnl. destruct (qowner s) as [[|i]|] eqn:Eo; auto; exfalso.
      - destruct (id_ownm _ HD Eo) as [pc Hpc]. eapply Hnl; eauto.
      - pose proof (id_ownw _ HD i Eo) as Hi. specialize (Hnone _ _ Hi). discriminate. }
    assert (Hmainstep : forall s', mstep N P [] s = Some s' -> exists l s', is_spurious l = false /\
       match l with LMain bs => mstep N P bs s | LWorker i b => wstep N i b s | LSpurious o => spurious o s end = Some s').
    { intros s' Hs. exists (LMain []), s'. auto. }
    assert (HI : (forall pc, main s <> MLocked pc) -> (exists i, nth_error (workers s) i = Some WIdle) ->
      exists l s', is_spurious l = false /\
       match l with LMain bs => mstep N P bs s | LWorker i b => wstep N i b s | LSpurious o => spurious o s end = Some s').
    { intros Hnl [i Hi]. exists (LWorker i false). cbn. unfold wstep. rewrite Hi, (Hown Hnl). eauto. }
    destruct (main s) as [pc|pc|pc|pc|pc|pc|pc| |] eqn:Em.
    - (* at *) eapply Hmainstep. unfold mstep. rewrite Em. replace (N =? 0) with false by lia.
      rewrite Hown by congruence. reflexivity.
    - eapply Hmainstep. unfold mstep. rewrite Em. reflexivity.
    - eapply Hmainstep. unfold mstep. rewrite Em. reflexivity.
    - destruct (N + 1 <=? nwait (set_nwait (incr (nwait s) pc) s) pc) eqn:E;
        eapply Hmainstep; unfold mstep; rewrite Em; cbn zeta; rewrite E; reflexivity.
    - (* asleep in a barrier *)
      assert (Hb : nth_error P pc = Some Barrier) by (pose proof (ia_main _ HA) as Hm; rewrite Em in Hm; exact Hm).
      assert (Hclosed : nwait s pc < N + 1).
      { destruct (Nat.lt_ge_cases (nwait s pc) (N + 1)); auto.
        destruct (ic_sleepm _ HC pc Em ltac:(lia)) as [j Hj]. specialize (Hnone _ _ Hj). discriminate. }
      destruct (exists_or_forall (fun w => match w with WIdle => true | _ => false end) (workers s))
        as [(i & w & Hi & Hw)|Hnoidle].
      { apply HI; [congruence|]. exists i. destruct w; discriminate || auto. }
      exfalso.
      pose proof (ic_acc _ HC pc Hb) as Hacc. rewrite Em in Hacc. cbn in Hacc.
      rewrite Nat.leb_refl in Hacc. cbn in Hacc.
      rewrite (cntw_zero (is_wbar pc)) in Hacc.
      2:{ intros w Hw. apply In_nth_error in Hw as [i Hi]. specialize (Hnone _ _ Hi). destruct w; auto; discriminate. }
      destruct (ia_q _ HA) as (k & r & HQ).
      assert (Hq : queue s <> []).
      { rewrite (qs_q _ _ _ HQ). unfold items. rewrite Em. cbn [pushed].
        destruct (Nat.ltb_spec k (S pc)); [discriminate|].
        pose proof (qs_st _ _ _ HQ pc) as Hst. replace (pc <? k) with true in Hst by lia.
        rewrite (full_bar _ Hb) in Hst. lia. }
      assert (Hpall : forall w, In w (workers s) -> is_busy pc w = true).
      { intros w Hw. apply In_nth_error in Hw as [i Hi].
        pose proof (Hnone _ _ Hi) as Hn1. pose proof (Hnoidle _ _ Hi) as Hn2.
        destruct w as [ | | | t | b | b | b | b | | ]; try discriminate.
        - destruct (id_sleep _ HD _ Hi Hq). congruence.
        - cbn. apply Nat.eqb_eq. pose proof (ib_kind _ HB _ _ Hi) as Hk. cbn in Hk.
          assert (Hcl : nwait s b < N + 1).
          { destruct (Nat.lt_ge_cases (nwait s b) (N + 1)); auto. exfalso.
            destruct (ic_sleepw _ HC _ _ Hi ltac:(lia)) as [E|[j Hj]]; [congruence|].
            specialize (Hnone _ _ Hj). discriminate. }
          destruct (Nat.lt_trichotomy b pc) as [Hlt|[->|Hgt]]; auto; exfalso.
          + pose proof (ic_passed _ HC b Hk) as Hp. rewrite Em in Hp. cbn in Hp.
            specialize (Hp (proj2 (Nat.ltb_lt _ _) Hlt)). lia.
          + pose proof (ib_cnt _ HB b) as Hcb.
            pose proof (cntw_pos (is_busy b) _ _ _ Hi (Nat.eqb_refl b)).
            pose proof (qs_st _ _ _ HQ b) as Hst. pose proof (qs_kp _ _ _ HQ) as Hkp.
            pose proof (qs_end _ _ _ HQ) as Hke.
            rewrite Em in Hkp, Hke. cbn in Hkp, Hke.
            bsplit; lia.
        - destruct (ia_term _ HA _ _ Hi (or_intror eq_refl)) as [_ E]. rewrite Em in E. cbn in E.
          apply nth_error_Some_L in Hb. lia. }
      pose proof (cntw_full _ _ Hpall) as Hful. rewrite (ia_len _ HA) in Hful.
      pose proof (ib_cnt _ HB pc). lia.
    - destruct (N + 1 <=? nwait s pc) eqn:E;
        eapply Hmainstep; unfold mstep; rewrite Em; rewrite E; reflexivity.
    - eapply Hmainstep. unfold mstep. rewrite Em. reflexivity.
    - (* join *)
      destruct (exists_or_forall (fun w => match w with WIdle => true | _ => false end) (workers s))
        as [(i & w & Hi & Hw)|Hnoidle].
      { apply HI; [congruence|]. exists i. destruct w; discriminate || auto. }
      eapply Hmainstep. unfold mstep. rewrite Em. rewrite all_forallb; [reflexivity|].
      intros i w Hi. pose proof (Hnone _ _ Hi) as Hn1. pose proof (Hnoidle _ _ Hi) as Hn2.
      destruct w as [ | | | t | b | b | b | b | | ]; try discriminate; auto; exfalso.
      + destruct (ia_q _ HA) as (k & r & HQ).
        assert (Hq : queue s <> []).
        { rewrite (qs_q _ _ _ HQ). unfold items. rewrite Em. cbn [pushed].
          pose proof (qs_kL _ _ _ HQ). replace (k <? S L) with true by lia. discriminate. }
        destruct (id_sleep _ HD _ Hi Hq). congruence.
      + pose proof (ib_kind _ HB _ _ Hi) as Hk. cbn in Hk.
        pose proof (ic_passed _ HC b Hk) as Hp. rewrite Em in Hp. cbn in Hp.
        specialize (Hp (proj2 (Nat.ltb_lt _ _) (nth_error_Some_L _ _ Hk))).
        destruct (ic_sleepw _ HC _ _ Hi Hp) as [E|[j Hj]]; [congruence|].
        specialize (Hnone _ _ Hj). discriminate.
    - exfalso. apply Hnf. split; auto. apply (id_end _ HD). auto.
  Qed.

  (** ---- Termination: every step other than a spurious wake-up decreases a measure ---- *)
  Definition wpot (w : wstate) : nat :=
    match w with
    | WIdle => 4 | WHold => 3 | WSleep => 0 | WRun _ => 5
    | WBar _ => N + 7 | WBarSleep _ => 5 | WBarWake _ => 6 | WBarNotify _ => N + 6
    | WTermU => 1 | WDone => 0
    end.
  Fixpoint sumw (ws : list wstate) : nat := match ws with [] => 0 | w :: r => wpot w + sumw r end.
  Definition ipot (x : item) : nat :=
    match it_kind x with KEnd => 0 | _ => Z.to_nat (it_rc x) * (N + 5) end.
  Fixpoint sumq (q : list item) : nat := match q with [] => 0 | x :: r => ipot x + sumq r end.
  Definition opcost (o : op) : nat :=
    match o with Dispatch n => Z.to_nat n * (N + 5) | Barrier => N * (N + 5) + N + 5 end + 4 * N + 5.
  Fixpoint progcost (l : list op) : nat := match l with [] => 4 * N + 5 | o :: r => opcost o + progcost r end.
  Definition rest (pc : nat) : nat := progcost (skipn pc P).
  (** potential of the main thread: remaining work after the current operation plus its current phase *)
  Definition mpot (m : mstate) : nat :=
    match m with
    | MAt pc => rest pc
    | MLocked pc => rest pc - 1
    | MNotify pc => match nth_error P pc with
                    | Some (Dispatch _) => rest (S pc) + 4 * N + 1
                    | Some Barrier => rest (S pc) + 5 * N + 7
                    | None => 4 * N + 2
                    end
    | MBar pc => rest (S pc) + N + 4
    | MBarNotify pc => rest (S pc) + N + 3
    | MBarWake pc => rest (S pc) + 3
    | MBarSleep pc => rest (S pc) + 2
    | MJoin => 1
    | MEnd => 0
    end.
  Definition measure (s : st) : nat := mpot (main s) + sumw (workers s) + sumq (queue s).

  Lemma sumw_upd ws i x w : nth_error ws i = Some w -> sumw (upd ws i x) + wpot w = sumw ws + wpot x.
  Proof.
    revert i; induction ws as [|a ws IH]; intros [|i] H; cbn in H; try discriminate.
    - inversion H; subst. unfold upd; cbn. lia.
    - rewrite upd_cons_S. cbn. specialize (IH _ H). lia.
  Qed.
  Lemma sumw_wake_queue ws : sumw (map wake_queue ws) <= sumw ws + 4 * length ws.
  Proof. induction ws as [|a ws IH]; cbn; auto. destruct a; cbn; lia. Qed.
  Lemma sumw_wake_bar b ws : sumw (map (wake_bar b) ws) <= sumw ws + length ws.
  Proof. induction ws as [|a ws IH]; cbn; auto. destruct a; cbn; try lia. destruct (b =? b0); cbn; lia. Qed.
  Lemma sumw_wake_bar_one b ws i w : nth_error ws i = Some w -> (forall c, w <> WBarSleep c) ->
    sumw (map (wake_bar b) ws) + 1 <= sumw ws + length ws.
  Proof.
    revert i; induction ws as [|a ws IH]; intros [|i] H Hw; cbn in H; try discriminate.
    - inversion H; subst. cbn. pose proof (sumw_wake_bar b ws). destruct w; cbn; try lia.
      exfalso; eapply Hw; eauto.
    - cbn. specialize (IH _ H Hw). destruct a; cbn; try lia. destruct (b =? b0); cbn; lia.
  Qed.
  Lemma sumq_app a b : sumq (a ++ b) = sumq a + sumq b.
  Proof. induction a; cbn; lia. Qed.

  Lemma progcost_step l : forall pc o, nth_error l pc = Some o ->
    progcost (skipn pc l) = opcost o + progcost (skipn (S pc) l).
  Proof.
    induction l as [|a l IH]; intros [|pc] o H; cbn in H; try discriminate.
    - inversion H; subst. reflexivity.
    - change (skipn (S pc) (a :: l)) with (skipn pc l). rewrite (IH _ _ H). reflexivity.
  Qed.
  Lemma rest_step pc o : nth_error P pc = Some o -> rest pc = opcost o + rest (S pc).
  Proof. apply progcost_step. Qed.
  Lemma rest_end pc : nth_error P pc = None -> rest pc = 4 * N + 5.
  Proof. intros H. apply nth_error_None in H. unfold rest. rewrite skipn_all2 by auto. reflexivity. Qed.

  Lemma mpot_wake b m : mpot (wake_bar_main b m) <= mpot m + 1.
  Proof. destruct m; cbn; try lia. destruct (b =? pc); cbn; lia. Qed.

  Lemma rest_ge pc : 4 * N + 5 <= rest pc.
  Proof.
    unfold rest. generalize (skipn pc P). induction l as [|o l IH]; cbn; [lia|]. lia.
  Qed.

  Lemma measure_tr sp s s' : Inv s -> tr sp s s' ->
    measure s' + (if sp then 0 else 1) <= measure s + (if sp then 4 else 0).
  Proof.
    intros [HA HB HC HD] Htr. pose proof (ia_len _ HA) as Hlen. pose proof (ia_main _ HA) as Hmain.
    unfold measure. destruct Htr; cbn -[mpot]; try rewrite H; rewrite ?sumq_app;
      try (pose proof (sumw_upd _ _ WIdle _ H) as Hu; pose proof (sumw_upd _ _ WHold _ H) as Hu1; pose proof (sumw_upd _ _ WSleep _ H) as Hu2;
           pose proof (sumw_upd _ _ WTermU _ H) as Hu3; pose proof (sumw_upd _ _ WDone _ H) as Hu4).
    - cbn. pose proof (rest_ge pc). lia.
    - cbn. unfold ipot, TaskletModel.mkitem. destruct (nth_error P pc) as [[n|]|] eqn:E; cbn.
      + rewrite (rest_step _ _ E). cbn. lia.
      + rewrite (rest_step _ _ E). cbn. lia.
      + rewrite (rest_end _ E). lia.
    - pose proof (sumw_wake_queue (workers s)). rewrite Hlen in *. subst m. cbn.
      destruct (nth_error P pc) as [[n|]|] eqn:E; cbn; lia.
    - cbn. lia.
    - cbn. lia.
    - cbn. lia.
    - cbn. lia.
    - cbn. pose proof (sumw_wake_bar pc (workers s)). rewrite Hlen in *. lia.
    - cbn. lia.
    - cbn in *; lia.
    - cbn in *; lia.
    - exfalso. destruct (ia_q _ HA) as (k & r & HQ). rewrite (qs_q _ _ _ HQ) in H0. unfold items in H0.
      destruct (Nat.ltb_spec k (pushed (main s))); [|discriminate].
      inversion H0; subst. cbn in H1. apply kind_end in H1.
      assert (k = L) by (apply nth_error_None_L; auto; apply (qs_kL _ _ _ HQ)). subst.
      pose proof (pushed_L _ Hmain). replace (pushed (main s) - S L) with 0 in H5 by lia. discriminate.
    - cbn in *; lia.
    - pose proof (sumw_upd _ _ (match it_kind x with KBar => WBar (it_id x) | _ => WRun (it_id x) end) _ H) as Hu5.
      destruct (ia_q _ HA) as (k & r & HQ). pose proof H0 as Hq. rewrite (qs_q _ _ _ HQ) in H0. unfold items in H0.
      destruct (Nat.ltb_spec k (pushed (main s))); [|discriminate].
      injection H0 as Hx Hqq. subst q. pose proof (qs_r _ _ _ HQ) as Hr.
      rewrite Hq. cbn [sumq].
      assert (Hrc : it_rc x = r) by (subst x; reflexivity).
      assert (Hip : ipot x = Z.to_nat (it_rc x) * (N + 5)) by (unfold ipot; destruct (it_kind x); congruence || reflexivity).
      assert (Hw : wpot (match it_kind x with KBar => WBar (it_id x) | _ => WRun (it_id x) end) <= N + 7)
        by (destruct (it_kind x); cbn; lia).
      rewrite Hip. rewrite Hrc in *. clear Hx Hip. cbn [wpot] in Hu5.
      destruct (Z.eqb_spec (r - 1) 0) as [E|E].
      + replace (Z.to_nat r) with 1 by lia. lia.
      + cbn [sumq]. unfold ipot. cbn [it_kind it_rc].
        assert (Hk : match it_kind x with KEnd => 0 | _ => Z.to_nat (r - 1) * (N + 5) end = Z.to_nat (r - 1) * (N + 5))
          by (destruct (it_kind x); congruence || reflexivity).
        rewrite Hk. replace (Z.to_nat r) with (S (Z.to_nat (r - 1))) by lia. cbn. lia.
    - cbn in *; lia.
    - pose proof (sumw_upd _ _ (WBarNotify t) _ H) as Hu5. cbn in *. lia.
    - pose proof (sumw_upd _ _ (WBarSleep t) _ H) as Hu5. cbn in *. lia.
    - cbn in *; lia.
    - pose proof (sumw_upd _ _ (WBarSleep t) _ H) as Hu5. cbn in *. lia.
    - assert (Hm: nth_error (map (wake_bar t) (workers s)) i = Some (WBarNotify t))
        by (rewrite nth_error_map, H; reflexivity).
      pose proof (sumw_upd _ _ WIdle _ Hm) as Hu5. pose proof (mpot_wake t (main s)).
      pose proof (sumw_wake_bar_one t _ _ _ H ltac:(congruence)). rewrite Hlen in *. cbn in Hu5. lia.
    - cbn in *; lia.
    - cbn in *; lia.
    - cbn in *; lia.
    - pose proof (sumw_upd _ _ (WBarWake t) _ H) as Hu5. cbn in *. lia.
  Qed.

  Lemma measure_run ls : forall s s', Inv s -> run N P ls s = Some s' ->
    measure s' + (length ls - count_spurious ls) <= measure s + 4 * count_spurious ls.
  Proof.
    unfold count_spurious.
    induction ls as [|l ls IH]; cbn [run filter length]; intros s s' HI Hr.
    - inversion Hr; subst; lia.
    - destruct (step N P l s) as [s1|] eqn:E; [|discriminate].
      apply step_tr in E as [_ Htr]. pose proof (measure_tr _ _ _ HI Htr) as Hm.
      specialize (IH _ _ (Inv_tr _ _ _ HI Htr) Hr).
      assert (length (filter is_spurious ls) <= length ls).
      { clear. induction ls as [|a l IHl]; cbn; auto. destruct (is_spurious a); cbn; lia. }
      destruct (is_spurious l); cbn [length]; lia.
  Qed.

  (** ---- the queue mutex ---- *)
  Record InvE (s : st) : Prop := {
    ie_hold : (forall i w, nth_error (workers s) i = Some w -> terminated w = false) ->
       ub s = false /\
       (forall i, nth_error (workers s) i = Some WHold -> qowner s = Some (OWorker i)) /\
       (forall pc, main s = MLocked pc -> qowner s = Some OMain) }.

  Lemma InvE_init : InvE (init N).
  Proof.
    constructor. cbn. intros _. repeat split; try discriminate.
    intros i H. apply nth_error_In, repeat_spec in H. congruence.
  Qed.

  Lemma no_term_before sp s s' : tr sp s s' ->
    (forall i w, nth_error (workers s') i = Some w -> terminated w = false) ->
    (forall i w, nth_error (workers s) i = Some w -> terminated w = false).
  Proof.
    intros Htr Hn j w Hj. destruct Htr; cbn in *; eauto;
      try (destruct (Nat.eq_dec i j) as [->|Hij];
           [ rewrite H in Hj; inversion Hj; subst; try reflexivity
           | apply (Hn j); rewrite nth_upd_ne by auto; exact Hj ]).
    - specialize (Hn j (wake_queue w)). rewrite nth_error_map, Hj in Hn. specialize (Hn eq_refl).
      destruct w; auto.
    - specialize (Hn j (wake_bar pc w)). rewrite nth_error_map, Hj in Hn. specialize (Hn eq_refl).
      destruct w; auto.
    - destruct (Nat.eq_dec i j) as [->|Hij]; [rewrite H in Hj; inversion Hj; reflexivity|].
      specialize (Hn j (wake_bar t w)). rewrite nth_upd_ne, nth_error_map, Hj in Hn by auto.
      specialize (Hn eq_refl). destruct w; auto.
    - specialize (Hn j WDone). rewrite (nth_upd_eq _ _ _ _ H) in Hn. specialize (Hn eq_refl). discriminate.
  Qed.

  Lemma InvE_step sp s s' : Inv s -> InvE s -> tr sp s s' -> InvE s'.
  Proof.
    intros [HA HB HC HD] [HE] Htr. constructor. intros Hn.
    destruct (HE (no_term_before _ _ _ Htr Hn)) as (Hub & Hw & Hm).
    destruct Htr; cbn in *;
      try (repeat split; auto; try congruence;
           try (intros j Hj; apply nth_upd_inv in Hj; destruct Hj as [[_ Hj]|[? Hj]]; [discriminate|]; auto); fail).
    - (* mlock *) repeat split; auto. intros i Hi. specialize (Hw _ Hi). congruence.
    - (* mpush *) rewrite (Hm _ H). cbn. rewrite orb_false_r. repeat split; auto; [|congruence].
      intros i Hi. specialize (Hw _ Hi). rewrite (Hm _ H) in Hw. discriminate.
    - (* mnotify *) repeat split; auto.
      + intros i Hi. apply nth_map_inv in Hi as (w & Hi & E). destruct w; try discriminate. auto.
      + intros pc' E. subst m. destruct (nth_error P pc) as [[]|]; discriminate.
    - (* mbnot *) repeat split; auto; try congruence.
      intros i Hi. apply nth_map_inv in Hi as (w & Hi & E). destruct w; try discriminate; auto.
      cbn in E. destruct (pc =? b); discriminate.
    - (* wlock *) repeat split; auto.
      + intros j Hj. apply nth_upd_inv in Hj; destruct Hj as [[-> Hj]|[? Hj]]; auto.
        specialize (Hw _ Hj). congruence.
      + intros pc Hpc. specialize (Hm _ Hpc). congruence.
    - (* wsleep *) rewrite (Hw _ H). cbn. rewrite Nat.eqb_refl. cbn. rewrite orb_false_r. repeat split; auto.
      + intros j Hj. apply nth_upd_inv in Hj; destruct Hj as [[_ Hj]|[? Hj]]; [discriminate|].
        specialize (Hw _ Hj) as Hw2. rewrite (Hw _ H) in Hw2. congruence.
      + intros pc Hpc. specialize (Hm _ Hpc). rewrite (Hw _ H) in Hm. congruence.
    - (* wterm *) specialize (Hn i WTermU). rewrite (nth_upd_eq _ _ _ _ H) in Hn. specialize (Hn eq_refl). discriminate.
    - (* wtake *) rewrite (Hw _ H). cbn. rewrite Nat.eqb_refl. cbn. rewrite orb_false_r. repeat split; auto.
      + intros j Hj. apply nth_upd_inv in Hj; destruct Hj as [[_ Hj]|[? Hj]]; [destruct (it_kind x); discriminate|].
        specialize (Hw _ Hj) as Hw2. rewrite (Hw _ H) in Hw2. congruence.
      + intros pc Hpc. specialize (Hm _ Hpc). rewrite (Hw _ H) in Hm. congruence.
    - (* wbnot *) repeat split; auto.
      + intros j Hj. apply nth_upd_inv in Hj; destruct Hj as [[_ Hj]|[? Hj]]; [discriminate|].
        apply nth_map_inv in Hj as (w & Hj & E). destruct w; try discriminate; auto.
        cbn in E. destruct (t =? b); discriminate.
      + intros pc Hpc. apply (Hm pc). destruct (main s); cbn in *; auto; try discriminate.
        destruct (t =? pc0); discriminate.
    - (* unlock *) specialize (Hn i WDone). rewrite (nth_upd_eq _ _ _ _ H) in Hn. specialize (Hn eq_refl). discriminate.
  Qed.

  Lemma InvE_run ls : forall s s', Inv s -> InvE s -> run N P ls s = Some s' -> InvE s'.
  Proof.
    induction ls as [|l ls IH]; cbn; intros s s' HI HE Hr.
    - inversion Hr; subst; auto.
    - destruct (step N P l s) as [s1|] eqn:E; [|discriminate].
      apply step_tr in E as [_ Htr].
      exact (IH _ _ (Inv_tr _ _ _ HI Htr) (InvE_step _ _ _ HI HE Htr) Hr).
  Qed.

  Lemma InvE_reachable s : reachable N P s -> InvE s.
  Proof. intros [ls H]. eapply InvE_run; eauto. apply Inv_init. apply InvE_init. Qed.

  (** A worker between the direct unlock and the destructor of its lock object never owns the mutex. *)
  Lemma termu_not_owner s i : Inv s -> nth_error (workers s) i = Some WTermU ->
    qowner s <> Some (OWorker i).
  Proof. intros HI Hi Ho. pose proof (id_ownw _ (iD _ HI) _ Ho). congruence. Qed.

  Lemma done_ub sp s s' : Inv s ->
    ((exists w, In w (workers s) /\ w = WDone) -> ub s = true) -> tr sp s s' ->
    ((exists w, In w (workers s') /\ w = WDone) -> ub s' = true).
  Proof.
    intros HI Hold Htr [w [Hw ->]].
    assert (Hin : forall i, nth_error (workers s) i = Some WDone -> In WDone (workers s))
      by (intros; eapply nth_error_In; eauto).
    apply In_nth_error in Hw as [j Hj].
    assert (Hkeep : nth_error (workers s) j = Some WDone -> ub s' = true).
    { intros Hd. assert (ub s = true) by eauto. destruct Htr; cbn; rewrite ?H; auto; rewrite H0; auto. }
    destruct Htr; cbn -[ub] in Hj; auto;
      try (apply nth_upd_inv in Hj; destruct Hj as [[-> Hj]|[? Hj]]; [try discriminate|auto]).
    - apply nth_map_inv in Hj as (w & Hj & E). destruct w; try discriminate. auto.
    - apply nth_map_inv in Hj as (w & Hj & E). destruct w; try discriminate; auto.
      cbn in E. destruct (pc =? b); discriminate.
    - destruct (it_kind x); discriminate.
    - apply nth_map_inv in Hj as (w & Hj & E). destruct w; try discriminate; auto.
      cbn in E. destruct (t =? b); discriminate.
    - cbn. pose proof (termu_not_owner _ _ HI H) as Hno. destruct (qowner s) as [[|k]|]; cbn; rewrite ?orb_true_r; auto.
      destruct (Nat.eqb_spec j k); cbn; rewrite ?orb_true_r; auto. subst; congruence.
  Qed.

  Lemma done_ub_run ls : forall s s', Inv s ->
    ((exists w, In w (workers s) /\ w = WDone) -> ub s = true) -> run N P ls s = Some s' ->
    ((exists w, In w (workers s') /\ w = WDone) -> ub s' = true).
  Proof.
    induction ls as [|l ls IH]; cbn; intros s s' HI HE Hr.
    - inversion Hr; subst; auto.
    - destruct (step N P l s) as [s1|] eqn:E; [|discriminate].
      apply step_tr in E as [_ Htr].
      exact (IH _ _ (Inv_tr _ _ _ HI Htr) (done_ub _ _ _ HI HE Htr) Hr).
  Qed.

  Lemma final_counts s : Inv s -> main s = MEnd -> forall t o, nth_error P t = Some o ->
    Z.of_nat (starts t (hist s)) = full t /\ Z.of_nat (ends t (hist s)) = full t.
  Proof.
    intros [HA HB HC HD] Hm t o Ho. pose proof (id_end _ HD Hm) as Hd.
    assert (Hz : cntw (is_busy t) (workers s) = 0).
    { apply cntw_zero. intros w Hw. rewrite (Hd _ Hw). reflexivity. }
    pose proof (ib_cnt _ HB t) as Hc. rewrite Hz in Hc.
    destruct (ia_q _ HA) as (k & r & HQ).
    destruct (workers s) as [|w ws] eqn:Ew.
    { pose proof (ia_len _ HA) as Hl. rewrite Ew in Hl. cbn in Hl. lia. }
    assert (Hw : w = WDone) by (apply Hd; left; auto). subst w.
    assert (Hd0 : nth_error (workers s) 0 = Some WDone) by (rewrite Ew; reflexivity).
    destruct (ia_term _ HA 0 WDone Hd0 (or_intror eq_refl)) as [Hq Hp].
    rewrite (qs_q _ _ _ HQ) in Hq. unfold items in Hq.
    destruct (Nat.ltb_spec k (pushed (main s))); [|discriminate]. injection Hq as Hq _.
    apply (f_equal it_id) in Hq. rewrite it_id_mkitem in Hq. cbn in Hq. subst k.
    pose proof (qs_st _ _ _ HQ t) as Hst. pose proof (nth_error_Some_L _ _ Ho).
    replace (t <? L) with true in Hst by lia. lia.
  Qed.
End Async.

(** ---- Synchronous mode ---- *)
Section Sync.
  Variable P : list op.

  Definition wanted (t : nat) : nat :=
    match nth_error P t with Some (Dispatch n) => Z.to_nat n | _ => 0 end.
  Definition spc (m : mstate) : nat := match m with MAt pc => pc | _ => length P end.

  Record InvS (s : st) : Prop := {
    sy_main : main s = MEnd \/ exists pc, main s = MAt pc /\ pc <= length P;
    sy_w : workers s = [];
    sy_cr : crashed s = false;
    sy_q : qowner s = None /\ queue s = [] /\ ub s = false;
    sy_st : forall t, starts t (hist s) = if t <? spc (main s) then wanted t else 0;
    sy_en : forall t, ends t (hist s) = if t <? spc (main s) then wanted t else 0;
    sy_fail : failflag s = true <-> some_threw (hist s);
    sy_bar : forall l2 b l1, hist s = l2 ++ EvReturn b :: l1 ->
       nth_error P b = Some Barrier /\ forall t, t < b -> ends t l1 = wanted t;
    sy_fifo : fifo_hist (hist s);
    sy_fifo2 : forall t, In (EvStart t) (hist s) -> t < spc (main s) }.

  Lemma sync_run_keep pc k bs s :
    main (sync_run pc k bs s) = main s /\ workers (sync_run pc k bs s) = workers s /\
    crashed (sync_run pc k bs s) = crashed s /\ qowner (sync_run pc k bs s) = qowner s /\
    queue (sync_run pc k bs s) = queue s /\ ub (sync_run pc k bs s) = ub s.
  Proof.
    revert bs s; induction k as [|k IH]; cbn; intros; auto 10.
    destruct (IH (tl bs) (set_fail (failflag s || hd false bs) (log (EvEnd pc (hd false bs)) (log (EvStart pc) s)))) as (?&?&?&?&?&?).
    repeat split; cbn in *; congruence.
  Qed.

  Lemma sync_run_counts pc t k bs s :
    starts t (hist (sync_run pc k bs s)) = starts t (hist s) + (if t =? pc then k else 0) /\
    ends t (hist (sync_run pc k bs s)) = ends t (hist s) + (if t =? pc then k else 0).
  Proof.
    revert bs s; induction k as [|k IH]; cbn; intros.
    - destruct (t =? pc); lia.
    - edestruct IH as [-> ->]. cbn. destruct (t =? pc); lia.
  Qed.

  Lemma sync_run_fail pc k bs s : (failflag s = true <-> some_threw (hist s)) ->
    (failflag (sync_run pc k bs s) = true <-> some_threw (hist (sync_run pc k bs s))).
  Proof.
    revert bs s; induction k as [|k IH]; cbn; intros; auto.
    apply IH. cbn. rewrite !some_threw_cons. destruct (hd false bs); rewrite ?orb_true_r, ?orb_false_r; tauto.
  Qed.

  Lemma sync_run_hist pc k bs s :
    exists h, hist (sync_run pc k bs s) = h ++ hist s /\
      (forall b, ~ In (EvReturn b) h) /\ (forall t, In (EvStart t) h -> t = pc) /\
      ((forall t', In (EvStart t') (hist s) -> t' <= pc) -> fifo_hist (hist s) -> fifo_hist (h ++ hist s)).
  Proof.
    revert bs s; induction k as [|k IH]; cbn; intros.
    - exists []. cbn. tauto.
    - edestruct IH as (h & E & H1 & H2 & H3). eexists (h ++ [EvEnd pc _; EvStart pc]).
      rewrite <- app_assoc. cbn. split; [exact E|]. split; [|split].
      + intros b Hin. apply in_app_or in Hin as [Hin|Hin]; [eapply H1; eauto|].
        cbn in Hin. intuition discriminate.
      + intros t Hin. apply in_app_or in Hin as [Hin|Hin]; [eapply H2; eauto|].
        cbn in Hin. intuition congruence.
      + intros Hle Hf. cbn in H3. apply H3; auto. intros t' [E'|[E'|Hin]]; auto; inversion E'; subst; auto.
  Qed.

  Lemma app_split_return h l l2 b l1 : (forall b, ~ In (EvReturn b) h) ->
    h ++ l = l2 ++ EvReturn b :: l1 -> exists l2', l = l2' ++ EvReturn b :: l1.
  Proof.
    revert l2. induction h as [|e h IH]; cbn; intros l2 Hn E.
    - eauto.
    - destruct l2 as [|e2 l2]; cbn in E.
      + inversion E; subst. exfalso. eapply Hn; eauto.
      + inversion E; subst. eapply IH; eauto. intros b0 Hb. eapply Hn; eauto.
  Qed.

  Lemma InvS_init : InvS (init 0).
  Proof.
    constructor; cbn; auto.
    - right. exists 0. split; auto. lia.
    - split; [discriminate|]. intros [t []].
    - intros [|? ?] b l1 E; discriminate.
    - tauto.
  Qed.

  Lemma InvS_step l s s' : InvS s -> step 0 P l s = Some s' -> InvS s'.
  Proof.
    intros [Hm Hw Hc Hq Hst Hen Hf Hb Hff Hf2] E. unfold step in E. rewrite Hc in E.
    destruct l as [bs|i b|o].
    2:{ unfold wstep in E. rewrite Hw in E. destruct i; discriminate. }
    2:{ unfold spurious in E. rewrite Hw in E. destruct o as [|i]; [|destruct i; discriminate].
        destruct Hm as [Hm|(pc & Hm & _)]; rewrite Hm in E; discriminate. }
    destruct Hm as [Hm|(pc & Hm & Hpc)]; [unfold mstep in E; rewrite Hm in E; discriminate|].
    unfold mstep in E. rewrite Hm in *. rewrite Nat.eqb_refl in E. destruct (nth_error P pc) as [[n|]|] eqn:Ep.
    - assert (pc < length P) by (apply nth_error_Some; congruence).
      inversion E; subst s'; clear E.
      destruct (sync_run_keep pc (Z.to_nat n) bs s) as (K1 & K2 & K3 & K4 & K5 & K6).
      constructor; cbn; try congruence.
      + right. eauto.
      + intros t. destruct (sync_run_counts pc t (Z.to_nat n) bs s) as [-> _]. rewrite Hst. cbn.
        destruct (Nat.eqb_spec t pc).
        * subst. unfold wanted. rewrite Ep. bsplit; lia.
        * bsplit; lia.
      + intros t. destruct (sync_run_counts pc t (Z.to_nat n) bs s) as [_ ->]. rewrite Hen. cbn.
        destruct (Nat.eqb_spec t pc).
        * subst. unfold wanted. rewrite Ep. bsplit; lia.
        * bsplit; lia.
      + apply sync_run_fail; auto.
      + intros l2 b l1 E. destruct (sync_run_hist pc (Z.to_nat n) bs s) as (h & Eh & Hn & _).
        rewrite Eh in E. apply app_split_return in E as [l2' E]; auto. eauto.
      + destruct (sync_run_hist pc (Z.to_nat n) bs s) as (h & -> & Hn & _ & Hf3).
        apply Hf3; auto. intros t' Hin. specialize (Hf2 _ Hin). cbn in Hf2. lia.
      + destruct (sync_run_hist pc (Z.to_nat n) bs s) as (h & -> & Hn & Hs & _).
        intros t Hin. apply in_app_or in Hin as [Hin|Hin].
        * rewrite (Hs _ Hin). lia.
        * specialize (Hf2 _ Hin). cbn in Hf2. lia.
    - assert (pc < length P) by (apply nth_error_Some; congruence).
      inversion E; subst s'; clear E. constructor; cbn; auto.
      + right. eauto.
      + intros t. rewrite Hst. cbn. destruct (Nat.eqb_spec t pc).
        * subst. unfold wanted. rewrite Ep. bsplit; lia.
        * bsplit; lia.
      + intros t. rewrite Hen. cbn. destruct (Nat.eqb_spec t pc).
        * subst. unfold wanted. rewrite Ep. bsplit; lia.
        * bsplit; lia.
      + rewrite some_threw_cons. tauto.
      + intros [|e l2] b l1 E; cbn in E; inversion E; subst; eauto.
        split; auto. intros t Ht. rewrite Hen. cbn. bsplit; lia.
      + intros t [?|Hin]; [discriminate|]. specialize (Hf2 _ Hin). cbn in Hf2. lia.
    - apply nth_error_None in Ep. assert (pc = length P) by lia. subst pc.
      inversion E; subst s'; clear E. constructor; cbn; auto.
  Qed.

  Lemma InvS_reachable s : reachable 0 P s -> InvS s.
  Proof.
    intros [ls H]. revert H. generalize InvS_init. generalize (init 0).
    induction ls as [|l ls IH]; cbn; intros s0 H0 E.
    - inversion E; subst; auto.
    - destruct (step 0 P l s0) as [s1|] eqn:E1; [|discriminate]. exact (IH _ (InvS_step _ _ _ H0 E1) E).
  Qed.

  Lemma sync_progress s : InvS s -> main s <> MEnd ->
    exists s', step 0 P (LMain []) s = Some s'.
  Proof.
    intros [Hm Hw Hc _ _ _ _ _ _ _] Hn. unfold step. rewrite Hc. unfold mstep.
    destruct Hm as [|(pc & -> & _)]; [contradiction|]. rewrite Nat.eqb_refl.
    destruct (nth_error P pc) as [[]|]; eauto.
  Qed.

  Definition smeasure (s : st) : nat := match main s with MAt pc => S (length P) - pc | _ => 0 end.
  Lemma sync_measure l s s' : InvS s -> step 0 P l s = Some s' ->
    is_spurious l = false /\ S (smeasure s') <= smeasure s.
  Proof.
    intros HI E. pose proof (InvS_step _ _ _ HI E) as HI'.
    destruct HI as [Hm Hw Hc _ _ _ _ _ _ _]. unfold step in E. rewrite Hc in E.
    destruct l as [bs|i b|o].
    2:{ unfold wstep in E. rewrite Hw in E. destruct i; discriminate. }
    2:{ unfold spurious in E. rewrite Hw in E. destruct o as [|i]; [|destruct i; discriminate].
        destruct Hm as [Hm|(pc & Hm & _)]; rewrite Hm in E; discriminate. }
    split; auto. unfold mstep in E. destruct Hm as [Hm|(pc & Hm & Hpc)]; rewrite Hm in E; [discriminate|].
    rewrite Nat.eqb_refl in E. unfold smeasure. rewrite Hm.
    destruct (nth_error P pc) as [[n|]|] eqn:Ep.
    - inversion E; subst; cbn -[Nat.sub]. assert (pc < length P) by (apply nth_error_Some; congruence). lia.
    - inversion E; subst; cbn -[Nat.sub]. assert (pc < length P) by (apply nth_error_Some; congruence). lia.
    - inversion E; subst; cbn -[Nat.sub]. lia.
  Qed.

  Lemma sync_measure_run ls : forall s s', InvS s -> run 0 P ls s = Some s' ->
    smeasure s' + length ls <= smeasure s.
  Proof.
    induction ls as [|l ls IH]; cbn [run length]; intros s s' HI E.
    - inversion E; subst. lia.
    - destruct (step 0 P l s) as [s1|] eqn:E1; [|discriminate].
      destruct (sync_measure _ _ _ HI E1) as [_ H]. specialize (IH _ _ (InvS_step _ _ _ HI E1) E). lia.
  Qed.
End Sync.

(** ---- Statements used by the property file ---- *)
Lemma runs_exactly N P s t n :
  positive P -> reachable N P s -> nth_error P t = Some (Dispatch n) ->
  (Z.of_nat (starts t (hist s)) <= n)%Z /\ ends t (hist s) <= starts t (hist s) /\
  (destroyed s -> Z.of_nat (starts t (hist s)) = n /\ Z.of_nat (ends t (hist s)) = n).
Proof.
  intros HP Hr Ht. destruct (Nat.eq_dec N 0) as [->|HN].
  - apply InvS_reachable in Hr. destruct Hr as [Hm Hw Hc _ Hst Hen _ _ _ _].
    assert (1 <= n)%Z by (apply HP; eapply nth_error_In; eauto).
    rewrite Hst, Hen. unfold wanted. rewrite Ht. split; [|split].
    + destruct (t <? _); lia.
    + lia.
    + intros Hd. unfold destroyed in Hd. rewrite Hd. cbn [spc].
      assert (t < length P) by (apply nth_error_Some; congruence). replace (t <? length P) with true by lia. lia.
  - apply (Inv_reachable N P HN HP) in Hr. split; [|split].
    + pose proof (starts_le N P HN HP s t (iA _ _ _ Hr)). rewrite (full_task _ _ _ _ Ht) in H. auto.
    + pose proof (ib_cnt _ _ (iB _ _ _ Hr) t). lia.
    + intros Hd. pose proof (final_counts N P HN s Hr Hd t _ Ht). rewrite (full_task _ _ _ _ Ht) in H. auto.
Qed.

Lemma starts_zero_in t h : starts t h = 0 -> ~ In (EvStart t) h.
Proof.
  induction h as [|e h IH]; cbn; [tauto|]. intros H [->|Hin].
  - rewrite Nat.eqb_refl in H. lia.
  - destruct e; try (apply IH in H; tauto). apply IH; auto; lia.
Qed.
Lemma ends_zero_in t h b : ends t h = 0 -> ~ In (EvEnd t b) h.
Proof.
  induction h as [|e h IH]; cbn; [tauto|]. intros H [->|Hin].
  - rewrite Nat.eqb_refl in H. lia.
  - destruct e; try (apply IH in H; tauto). apply IH; auto; lia.
Qed.

Lemma only_dispatched_run N P s t :
  positive P -> reachable N P s -> length P <= t -> starts t (hist s) = 0 /\ ends t (hist s) = 0.
Proof.
  intros HP Hr Ht. destruct (Nat.eq_dec N 0) as [->|HN].
  - apply InvS_reachable in Hr. destruct Hr as [Hm Hw Hc _ Hst Hen _ _ _ _]. rewrite Hst, Hen.
    unfold wanted. rewrite (proj2 (nth_error_None P t)) by auto. destruct (t <? _); auto.
  - apply (Inv_reachable N P HN HP) in Hr. destruct (ia_q _ _ _ (iA _ _ _ Hr)) as (k & r & HQ).
    pose proof (qs_st _ _ _ _ _ HQ t). pose proof (ib_cnt _ _ (iB _ _ _ Hr) t).
    pose proof (qs_kL _ _ _ _ _ HQ). pose proof (qs_r _ _ _ _ _ HQ) as Hrr.
    assert (Hf : k = t -> full N P k = 1%Z).
    { intros ->. unfold full, mkitem. rewrite (proj2 (nth_error_None P t)) by auto. reflexivity. }
    destruct (Nat.ltb_spec t k); [lia|]. destruct (Nat.eqb_spec t k); [|lia]. subst.
    rewrite (Hf eq_refl) in *. lia.
Qed.

Lemma bar_hist_split N P h l2 b l1 : bar_hist N P h -> h = l2 ++ EvReturn b :: l1 ->
  forall t, t < b -> Z.of_nat (ends t l1) = full N P t.
Proof.
  intros Hb ->. induction l2 as [|e l2 IH]; cbn in Hb.
  - tauto.
  - apply IH. destruct e; tauto.
Qed.

Lemma barrier_waits N P s l2 b l1 t n :
  positive P -> reachable N P s -> hist s = l2 ++ EvReturn b :: l1 ->
  t < b -> nth_error P t = Some (Dispatch n) -> Z.of_nat (ends t l1) = n.
Proof.
  intros HP Hr Hh Ht Hn. destruct (Nat.eq_dec N 0) as [->|HN].
  - apply InvS_reachable in Hr. destruct (sy_bar _ _ Hr _ _ _ Hh) as [_ H]. rewrite (H _ Ht).
    unfold wanted. rewrite Hn. assert (1 <= n)%Z by (apply HP; eapply nth_error_In; eauto). lia.
  - apply (Inv_reachable N P HN HP) in Hr. pose proof (id_bar _ _ _ (iD _ _ _ Hr)) as Hb.
    rewrite (bar_hist_split _ _ _ _ _ _ Hb Hh t Ht). eapply full_task; eauto.
Qed.

Lemma fifo_split h l2 t l1 : fifo_hist h -> h = l2 ++ EvStart t :: l1 ->
  forall t', In (EvStart t') l1 -> t' <= t.
Proof.
  intros Hb ->. induction l2 as [|e l2 IH]; cbn in Hb.
  - tauto.
  - apply IH. destruct e; tauto.
Qed.

Lemma starts_in_order N P s l2 t l1 t' :
  positive P -> reachable N P s -> hist s = l2 ++ EvStart t :: l1 -> In (EvStart t') l1 -> t' <= t.
Proof.
  intros HP Hr Hh Hin. destruct (Nat.eq_dec N 0) as [->|HN].
  - apply InvS_reachable in Hr. eapply fifo_split; eauto. apply (sy_fifo _ _ Hr).
  - apply (Inv_reachable N P HN HP) in Hr. eapply fifo_split; eauto. apply (id_fifo _ _ _ (iD _ _ _ Hr)).
Qed.

Lemma no_deadlock N P s :
  positive P -> reachable N P s ->
  ~ (destroyed s /\ forall w, In w (workers s) -> w = WDone) ->
  exists l s', is_spurious l = false /\ step N P l s = Some s'.
Proof.
  intros HP Hr Hn. destruct (Nat.eq_dec N 0) as [->|HN].
  - apply InvS_reachable in Hr. destruct (sync_progress P s Hr) as [s' Hs'].
    + intros E. apply Hn. split; auto. rewrite (sy_w _ _ Hr). intros w [].
    + exists (LMain []), s'. auto.
  - apply (Inv_reachable N P HN HP) in Hr. eapply progress; eauto.
Qed.

Lemma terminates N P :
  positive P ->
  exists B, forall ls s, run N P ls (init N) = Some s ->
    length ls <= B + 5 * count_spurious ls.
Proof.
  intros HP. destruct (Nat.eq_dec N 0) as [->|HN].
  - exists (smeasure P (init 0)). intros ls s Hr.
    pose proof (sync_measure_run P ls _ _ (InvS_init P) Hr). lia.
  - exists (measure N P (init N)). intros ls s Hr.
    pose proof (measure_run N P HN HP ls _ _ (Inv_init N P HN HP) Hr). lia.
Qed.

Lemma never_crashes N P s : positive P -> reachable N P s -> crashed s = false.
Proof.
  intros HP Hr. destruct (Nat.eq_dec N 0) as [->|HN].
  - apply InvS_reachable in Hr. apply (sy_cr _ _ Hr).
  - apply (Inv_reachable N P HN HP) in Hr. apply (ia_crash _ _ _ (iA _ _ _ Hr)).
Qed.

Lemma failure_flag_iff N P s : positive P -> reachable N P s -> (failflag s = true <-> some_threw (hist s)).
Proof.
  intros HP Hr. destruct (Nat.eq_dec N 0) as [->|HN].
  - apply InvS_reachable in Hr. apply (sy_fail _ _ Hr).
  - apply (Inv_reachable N P HN HP) in Hr. apply (id_fail _ _ _ (iD _ _ _ Hr)).
Qed.

Lemma destroyed_unlocked_twice N P s :
  N <> 0 -> positive P -> reachable N P s -> destroyed s -> ub s = true.
Proof.
  intros HN HP [ls Hr] Hd. pose proof (Inv_run N P HN HP ls _ _ (Inv_init N P HN HP) Hr) as HI.
  apply (done_ub_run N P HN HP ls (init N) s (Inv_init N P HN HP)); [|exact Hr|].
  - intros [w [Hw ->]]. cbn in Hw. apply repeat_spec in Hw. discriminate.
  - pose proof (id_end _ _ _ (iD _ _ _ HI) Hd) as Hall. pose proof (ia_len _ _ _ (iA _ _ _ HI)) as Hl.
    destruct (workers s) as [|w ws]; cbn in Hl; [lia|]. exists w. split; [left; auto|]. apply Hall. left; auto.
Qed.

Lemma mutex_ok_before_termination N P s :
  positive P -> reachable N P s ->
  (forall w, In w (workers s) -> w <> WTermU /\ w <> WDone) -> ub s = false.
Proof.
  intros HP Hr Hn. destruct (Nat.eq_dec N 0) as [->|HN].
  - apply InvS_reachable in Hr. apply (sy_q _ _ Hr).
  - apply (InvE_reachable N P HN HP) in Hr. destruct Hr as [HE].
    apply HE. intros i w Hi. apply nth_error_In in Hi. specialize (Hn _ Hi). destruct w; cbn; try reflexivity; destruct Hn; congruence.
Qed.

(** With a zero count a threaded runner executes the tasklet over and over. *)
Definition zero_prog : list op := [Dispatch 0].
Definition zero_cycle : list label := [LWorker 0 false; LWorker 0 false; LWorker 0 false].
Fixpoint cycles (m : nat) : list label := match m with O => [] | S k => zero_cycle ++ cycles k end.

Lemma run_app N P a : forall b s s', run N P a s = Some s' -> run N P (a ++ b) s = run N P b s'.
Proof.
  induction a as [|l a IH]; cbn; intros b s s' H.
  - inversion H; auto.
  - destruct (step N P l s); [|discriminate]. auto.
Qed.

Lemma zero_cycles m : forall s z,
  main s = MAt 1 -> workers s = [WIdle] -> qowner s = None -> crashed s = false ->
  queue s = [{| it_id := 0; it_kind := KTask; it_rc := z |}] -> (z <= 0)%Z ->
  exists s', run 1 zero_prog (cycles m) s = Some s' /\ starts 0 (hist s') = starts 0 (hist s) + m.
Proof.
  induction m as [|m IH]; intros s z H1 H2 H3 H4 H5 Hz.
  - exists s. split; auto. 
  - assert (exists s1, run 1 zero_prog zero_cycle s = Some s1 /\
       main s1 = MAt 1 /\ workers s1 = [WIdle] /\ qowner s1 = None /\ crashed s1 = false /\
       queue s1 = [{| it_id := 0; it_kind := KTask; it_rc := z - 1 |}] /\
       starts 0 (hist s1) = S (starts 0 (hist s))) as (s1 & E & K1 & K2 & K3 & K4 & K5 & K6).
    { destruct s as [m0 q0 o0 w0 nw0 h0 f0 u0 c0]. cbn in H1, H2, H3, H4, H5. subst.
      unfold zero_cycle. cbn [run]. unfold step at 1. cbn. unfold worker_critical. cbn.
      replace (Z.eqb (z - 1) 0) with false by lia.
      eexists. split; [reflexivity|]. cbn. repeat split; auto. replace (Z.eqb (z - 1) 0) with false by lia. reflexivity. }
    destruct (IH s1 (z - 1)%Z) as (s' & E' & C); auto; [lia|].
    exists s'. cbn [cycles]. rewrite (run_app _ _ _ _ _ _ E). split; auto. lia.
Qed.

Lemma zero_count_unbounded m :
  exists s, reachable 1 zero_prog s /\ starts 0 (hist s) = m.
Proof.
  destruct (run 1 zero_prog [LMain []; LMain []; LMain []] (init 1)) as [s0|] eqn:E0; [|discriminate].
  pose proof E0 as E0'. cbn in E0'. inversion E0'. clear E0'.
  destruct (zero_cycles m s0 0) as (s & E & C); subst s0; try reflexivity.
  exists s. split.
  - exists ([LMain []; LMain []; LMain []] ++ cycles m). rewrite (run_app _ _ _ _ _ _ E0). exact E.
  - rewrite C. reflexivity.
Qed.

Lemma zero_count_sync s : reachable 0 zero_prog s -> starts 0 (hist s) = 0.
Proof.
  intros Hr. apply InvS_reachable in Hr. rewrite (sy_st _ _ Hr). unfold wanted. cbn. destruct (0 <? _); auto.
Qed.

(** Round-robin scheduler, used only to exhibit concrete runs. *)
Fixpoint sched (N : nat) (P : list op) (fuel : nat) (s : st) : list label :=
  match fuel with
  | O => []
  | S f =>
      let cands := LMain [] :: map (fun i => LWorker i (Nat.even (length (hist s)))) (seq 0 N) in
      match find (fun l => match step N P l s with Some _ => true | None => false end) cands with
      | Some l => match step N P l s with Some s' => l :: sched N P f s' | None => [] end
      | None => []
      end
  end.
