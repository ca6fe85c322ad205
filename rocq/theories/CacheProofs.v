From Verif Require Import CacheModel CacheSpec.

Lemma upd_same {A} (f : nat -> A) k v : upd f k v k = v.
Proof. unfold upd. rewrite Nat.eqb_refl. reflexivity. Qed.
Lemma upd_other {A} (f : nat -> A) k v i : i <> k -> upd f k v i = f i.
Proof. intros H. unfold upd. destruct (Nat.eqb_spec i k); congruence. Qed.
Arguments upd : simpl never.

Section Proofs.
  Context {PV IQ : Type}.
  Variable F : nat -> PV -> IQ.
  Variable g : flags.
  Notation state := (@st PV IQ).
  Notation ok s t i := (valid s t i = true -> cache s t i = F i (sol s t i)).

  Lemma cached_some (s : state) t i q : cachedIntensiveQuantities g s t i = Some q ->
    g_cache g = true /\ valid s t i = true /\ q = cache s t i.
  Proof.
    unfold cachedIntensiveQuantities. destruct (g_cache g), (valid s t i); cbn; try discriminate.
    intros H. inversion H. auto.
  Qed.

  Lemma access_sol t i (s : state) : sol (access F g t i s) = sol s.
  Proof. unfold access, updateCached. destruct (cachedIntensiveQuantities g s t i); auto. destruct (negb (store_iq g)); auto. Qed.
  Lemma access_all_sol t l : forall (s : state), sol (access_all F g t l s) = sol s.
  Proof. induction l as [|i l IH]; intros s; cbn; auto. unfold access_all in IH. rewrite IH. apply access_sol. Qed.

  Lemma access_ok t i (s : state) t' i' : ok s t' i' -> ok (access F g t i s) t' i'.
  Proof.
    unfold access. destruct (cachedIntensiveQuantities g s t i); auto.
    unfold updateCached. destruct (negb (store_iq g)); auto. cbn. intros H.
    destruct (Nat.eq_dec t' t) as [-> |Ht]; [|rewrite !upd_other by auto; auto].
    rewrite !upd_same. destruct (Nat.eq_dec i' i) as [-> |Hi]; [rewrite !upd_same; auto|rewrite !upd_other by auto; auto].
  Qed.
  Lemma access_all_ok t l : forall (s : state) t' i', ok s t' i' -> ok (access_all F g t l s) t' i'.
  Proof. induction l as [|i l IH]; intros s t' i' H; cbn; auto. apply IH. apply access_ok, H. Qed.

  (** Other levels are left alone. *)
  Lemma access_other t i (s : state) t' i' : t' <> t -> valid (access F g t i s) t' i' = valid s t' i' /\ cache (access F g t i s) t' i' = cache s t' i'.
  Proof.
    intros H. unfold access. destruct (cachedIntensiveQuantities g s t i); auto.
    unfold updateCached. destruct (negb (store_iq g)); auto. cbn. rewrite !upd_other by auto. auto.
  Qed.
  Lemma access_all_other t l : forall (s : state) t' i', t' <> t -> valid (access_all F g t l s) t' i' = valid s t' i'.
  Proof.
    induction l as [|i l IH]; intros s t' i' H; cbn; auto. unfold access_all in IH. rewrite IH by auto. apply access_other, H.
  Qed.

  Lemma setValidity_sol t i v (s : state) : sol (setValidity g t i v s) = sol s /\ cache (setValidity g t i v s) = cache s.
  Proof. unfold setValidity. destruct (negb (store_iq g)); auto. Qed.
  Lemma setValidity_false t i (s : state) t' i' : valid (setValidity g t i false s) t' i' = true -> valid s t' i' = true.
  Proof.
    unfold setValidity. destruct (negb (store_iq g)); auto. cbn.
    destruct (Nat.eq_dec t' t) as [-> |Ht]; [|rewrite upd_other by auto; auto].
    rewrite upd_same. destruct (Nat.eq_dec i' i) as [-> |Hi]; [rewrite upd_same; discriminate|rewrite upd_other by auto; auto].
  Qed.

  Lemma invalidate_dofs_sol n (s : state) : sol (invalidate_dofs g n s) = sol s /\ cache (invalidate_dofs g n s) = cache s.
  Proof.
    induction n as [|n [IH1 IH2]]; cbn; auto. destruct (setValidity_sol 0 n false (invalidate_dofs g n s)) as [A B]. rewrite A, B. auto.
  Qed.
  Lemma invalidate_dofs_valid n (s : state) t i : valid (invalidate_dofs g n s) t i = true -> valid s t i = true.
  Proof. induction n as [|n IH]; cbn; auto. intros H. apply IH. eapply setValidity_false, H. Qed.
  Lemma invalidate_dofs_done n (s : state) i : g_cache g = true -> i < n -> valid (invalidate_dofs g n s) 0 i = false.
  Proof.
    intros Hc. induction n as [|n IH]; [lia|]. intros H. cbn. unfold setValidity, store_iq. rewrite Hc. cbn.
    rewrite upd_same. destruct (Nat.eq_dec i n) as [-> |Hi]; [apply upd_same|]. rewrite upd_other by auto. apply IH. lia.
  Qed.
  Lemma invalidate_dofs_other n (s : state) t i : t <> 0 -> valid (invalidate_dofs g n s) t i = valid s t i.
  Proof.
    intros H. induction n as [|n IH]; cbn; auto. unfold setValidity. destruct (negb (store_iq g)); auto. cbn. rewrite upd_other by auto. auto.
  Qed.

  Lemma invalidate_sol t (s : state) : sol (invalidate g t s) = sol s /\ cache (invalidate g t s) = cache s.
  Proof. unfold invalidate. destruct (store_iq g); auto. Qed.
  Lemma invalidate_valid t (s : state) t' i : valid (invalidate g t s) t' i = true -> valid s t' i = true.
  Proof.
    unfold invalidate. destruct (store_iq g); auto. cbn. destruct (Nat.eq_dec t' t) as [-> |H]; [rewrite upd_same; discriminate|rewrite upd_other; auto].
  Qed.
  Lemma invalidate_done t (s : state) i : g_cache g = true -> valid (invalidate g t s) t i = false.
  Proof. intros Hc. unfold invalidate, store_iq. rewrite Hc. cbn. rewrite upd_same. reflexivity. Qed.
  Lemma invalidate_other t (s : state) t' i : t' <> t -> valid (invalidate g t s) t' i = valid s t' i.
  Proof. intros H. unfold invalidate. destruct (store_iq g); auto. cbn. rewrite upd_other; auto. Qed.

  (** *** The invariant for two time levels *)
  Record CInv (s : state) : Prop := mkCInv {
    k_ok : forall t i, t < 2 -> i < g_dofs g -> ok s t i;
    k_lvl1 : g_storage g && g_recycle g = true -> forall i, valid s 1 i = false
  }.

  Lemma invalidateAndUpdate_ok t l (s : state) : g_cache g = true ->
    (forall t' i, t' < 2 -> i < g_dofs g -> t' <> t -> ok s t' i) ->
    forall t' i, t' < 2 -> i < g_dofs g -> ok (invalidateAndUpdate F g t l s) t' i.
  Proof.
    intros Hc H t' i Ht Hi. unfold invalidateAndUpdate. apply access_all_ok.
    destruct (invalidate_sol t s) as [A B]. rewrite A, B.
    destruct (Nat.eq_dec t' t) as [-> |N].
    - rewrite invalidate_done by auto. discriminate.
    - intros V. apply H; auto. eapply invalidate_valid, V.
  Qed.

  Lemma shift_two (s : state) : g_history g = 2 -> g_cache g = true ->
    shift g 1 s = if g_storage g && g_recycle g then s
                  else mkSt (sol s) (upd (cache s) 1 (cache s 0)) (upd (valid s) 1 (valid s 0)).
  Proof.
    intros Hh Hc. unfold shift, store_iq. rewrite Hc, Hh. cbn [orb negb Nat.sub shift_loop Nat.add]. reflexivity.
  Qed.

  Lemma CInv_step o (s : state) : g_history g = 2 -> g_cache g = true -> safe g o -> CInv s -> CInv (step F g o s).
  Proof.
    intros Hh Hc So [K L]. destruct o as [t i|t|t i|t l|u|l| |u r|u]; cbn [step safe] in *.
    - constructor.
      + intros t' i' Ht Hi. apply access_ok. auto.
      + intros Hs i'. destruct So as [-> |So]; [|congruence].
        destruct (access_other 0 i s 1 i' ltac:(lia)) as [E _]. rewrite E. auto.
    - destruct (invalidate_sol t s) as [A B]. constructor.
      + intros t' i' Ht Hi V. rewrite A, B. apply K; auto. eapply invalidate_valid, V.
      + intros Hs i'. destruct (valid (invalidate g t s) 1 i') eqn:E; auto. apply invalidate_valid in E. rewrite L in E; auto.
    - destruct (setValidity_sol t i false s) as [A B]. constructor.
      + intros t' i' Ht Hi V. rewrite A, B. apply K; auto. eapply setValidity_false, V.
      + intros Hs i'. destruct (valid (setValidity g t i false s) 1 i') eqn:E; auto. apply setValidity_false in E. rewrite L in E; auto.
    - constructor.
      + apply invalidateAndUpdate_ok; auto.
      + intros Hs i'. destruct So as [-> |So]; [|congruence]. unfold invalidateAndUpdate.
        rewrite access_all_other, invalidate_other by lia. auto.
    - unfold newton_update. destruct (invalidate_dofs_sol (g_dofs g) (set_sol 0 u s)) as [A B]. constructor.
      + intros t' i' Ht Hi V. rewrite A, B. destruct (Nat.eq_dec t' 0) as [-> |N].
        * rewrite (invalidate_dofs_done (g_dofs g) _ i' Hc Hi) in V. discriminate.
        * apply invalidate_dofs_valid in V. cbn in *. rewrite upd_other by auto. apply K; auto.
      + intros Hs i'. rewrite invalidate_dofs_other by lia. cbn. auto.
    - unfold updateFailed. constructor.
      + apply invalidateAndUpdate_ok; auto. intros t' i' Ht Hi N V. cbn in *. rewrite upd_other by auto. apply K; auto.
      + intros Hs i'. unfold invalidateAndUpdate. rewrite access_all_other, invalidate_other by lia. cbn. auto.
    - unfold advanceTimeLevel. rewrite shift_two by auto.
      destruct (g_storage g && g_recycle g) eqn:Es.
      + constructor; [|intros Hs i0; exact (L eq_refl i0)]. cbn. intros t' i' Ht Hi V. destruct (Nat.eq_dec t' 1) as [-> |N].
        * rewrite L in V by auto. discriminate.
        * rewrite upd_other by auto. apply K; auto.
      + constructor; [|congruence]. cbn. intros t' i' Ht Hi V. destruct (Nat.eq_dec t' 1) as [-> |N].
        * rewrite !upd_same; rewrite upd_same in V. apply K; auto.
        * rewrite !upd_other by auto; rewrite upd_other in V by auto. apply K; auto.
    - congruence.
    - congruence.
  Qed.

  Lemma CInv_steps os : forall (s : state), g_history g = 2 -> g_cache g = true -> Forall (safe g) os -> CInv s -> CInv (steps F g os s).
  Proof.
    induction os as [|o os IH]; intros s Hh Hc Sf I; cbn; auto. inversion Sf as [|? ? S1 S2]; subst.
    apply IH; auto. apply CInv_step; auto.
  Qed.

  Lemma coherent_steps os (s : state) : g_history g = 2 -> Forall (safe g) os -> empty_cache s -> coherent F g (steps F g os s).
  Proof.
    intros Hh Sf He t i q Ht Hi Hq. destruct (cached_some _ _ _ _ Hq) as (Hc & V & ->).
    assert (I : CInv s) by (constructor; intros; [rewrite He in *; discriminate|apply He]).
    apply (k_ok _ (CInv_steps os s Hh Hc Sf I)); auto. lia.
  Qed.

  Lemma read_coherent (s : state) t i : coherent F g s -> t < g_history g -> i < g_dofs g -> read F g s t i = F i (sol s t i).
  Proof.
    intros C Ht Hi. unfold read. destruct (cachedIntensiveQuantities g s t i) as [q|] eqn:E; auto. 
  Qed.

  (** *** Failed updates *)
  Record FInv (s0 s : state) : Prop := mkFInv {
    f_sol : forall t i, t <> 0 -> sol s t i = sol s0 t i;
    f_ok : g_cache g = true -> forall t i, t <> 0 -> t < g_history g -> i < g_dofs g -> ok s t i
  }.

  Lemma FInv_inner s0 o (s : state) : FInv s0 s -> FInv s0 (inner_step F g o s).
  Proof.
    intros [A B]. destruct o as [t i|u|u]; cbn.
    - constructor.
      + intros t' i' N. rewrite access_sol. auto.
      + intros Hc t' i' N Ht Hi. apply access_ok. auto.
    - unfold newton_update. destruct (invalidate_dofs_sol (g_dofs g) (set_sol 0 u s)) as [C D]. constructor.
      + intros t' i' N. rewrite C. cbn. rewrite upd_other by auto. auto.
      + intros Hc t' i' N Ht Hi V. rewrite C, D. rewrite invalidate_dofs_other in V by auto. cbn in *. rewrite upd_other by auto. apply B; auto.
    - constructor; cbn.
      + intros t' i' N. rewrite upd_other by auto. auto.
      + intros Hc t' i' N Ht Hi. rewrite upd_other by auto. apply B; auto.
  Qed.
  Lemma FInv_inners s0 os : forall (s : state), FInv s0 s -> FInv s0 (fold_left (fun a o => inner_step F g o a) os s).
  Proof. induction os as [|o os IH]; intros s I; cbn; auto. apply IH, FInv_inner, I. Qed.

  Lemma failed_restores os dofs (s : state) : 2 <= g_history g -> coherent F g s ->
    (forall i, sol s 0 i = sol s 1 i) ->
    (forall t i, sol (failed_update F g os dofs s) t i = sol s t i) /\
    coherent F g (failed_update F g os dofs s).
  Proof.
    intros Hh C E.
    assert (I : FInv s (fold_left (fun a o => inner_step F g o a) os s)).
    { apply FInv_inners. constructor; auto. intros Hc t i N Ht Hi V. symmetry. 
      symmetry. apply (C t i); auto. unfold cachedIntensiveQuantities. rewrite Hc, V. reflexivity. }
    unfold failed_update, updateFailed. set (s1 := fold_left _ _ _) in *. destruct I as [A B].
    assert (S' : forall t i, sol (invalidateAndUpdate F g 0 dofs (set_sol 0 (sol s1 1) s1)) t i = sol s t i).
    { intros t i. unfold invalidateAndUpdate. rewrite access_all_sol. destruct (invalidate_sol 0 (set_sol 0 (sol s1 1) s1)) as [D _].
      rewrite D. cbn. destruct (Nat.eq_dec t 0) as [-> |N]; [rewrite upd_same, A, E by lia; auto|rewrite upd_other by auto; auto]. }
    split; auto.
    intros t i q Ht Hi Hq. destruct (cached_some _ _ _ _ Hq) as (Hc & V & ->). revert V.
    unfold invalidateAndUpdate. apply access_all_ok. destruct (invalidate_sol 0 (set_sol 0 (sol s1 1) s1)) as [D D']. rewrite D, D'.
    destruct (Nat.eq_dec t 0) as [-> |N].
    - rewrite invalidate_done by auto. discriminate.
    - rewrite invalidate_other by auto. cbn. rewrite upd_other by auto. apply B; auto.
  Qed.

  (** *** Shifts *)
  Lemma shift_loop_spec n : forall t0 (s : state),
    let s' := shift_loop n t0 1 s in
    sol s' = sol s /\
    (forall t i, t <= t0 \/ t0 + n < t -> cache s' t i = cache s t i /\ valid s' t i = valid s t i) /\
    (forall t i, t0 < t <= t0 + n -> cache s' t i = cache s t0 i /\ valid s' t i = valid s t0 i).
  Proof.
    induction n as [|n IH]; intros t0 s; cbn.
    - repeat split; auto; lia.
    - set (s1 := mkSt _ _ _). destruct (IH (S t0) s1) as (A & B & C). cbn in *. split; [rewrite A; reflexivity|]. split.
      + intros t i H. destruct (B t i ltac:(lia)) as [B1 B2]. rewrite B1, B2. subst s1; cbn.
        rewrite !upd_other by lia. auto.
      + intros t i H. destruct (Nat.eq_dec t (S t0)) as [-> |N].
        * destruct (B (S t0) i ltac:(lia)) as [B1 B2]. rewrite B1, B2. subst s1; cbn.
          replace (t0 + 1) with (S t0) by lia. rewrite !upd_same. auto.
        * destruct (C t i ltac:(lia)) as [C1 C2]. rewrite C1, C2. subst s1; cbn.
          replace (t0 + 1) with (S t0) by lia. rewrite !upd_same. auto.
  Qed.
End Proofs.
