(** * Proofs about the initialization of the polymer and foam modules *)
From Coq Require Import List Bool Arith Lia.
From Verif Require Import DeckInitModel DeckInitSpec.
Import ListNotations.

Section Proofs.
  Context {T : Type} (initial shrateDefault : T) (convert : T -> T -> T).

  Lemma put_length : forall (dst : list T) i x, length (put dst i x) = length dst.
  Proof. induction dst; intros [|i] x; cbn; congruence. Qed.

  Lemma put_nth : forall (dst : list T) i x j, i < length dst ->
    nth_error (put dst i x) j = if i =? j then Some x else nth_error dst j.
  Proof.
    induction dst as [|y dst IH]; intros i x j H; [cbn in H; lia|].
    destruct i, j; cbn; try reflexivity. apply IH. cbn in H; lia.
  Qed.

  Fixpoint loop (f : nat -> option T) (is : list nat) (dst : list T) : option (list T) :=
    match is with
    | [] => Some dst
    | i :: is' => match f i with Some x => loop f is' (put dst i x) | None => None end
    end.

  Lemma loop_some : forall f n i dst, (forall j, i <= j -> j < i + n -> f j <> None) -> i + n <= length dst ->
    exists d', loop f (seq i n) dst = Some d' /\ length d' = length dst /\
      forall j, nth_error d' j = if (i <=? j) && (j <? i + n) then f j else nth_error dst j.
  Proof.
    induction n as [|n IH]; intros i dst H L.
    - exists dst. split; [reflexivity|]. split; [reflexivity|]. intros j.
      destruct (i <=? j) eqn:A, (j <? i + 0) eqn:B; cbn; try reflexivity.
      apply Nat.leb_le in A; apply Nat.ltb_lt in B; lia.
    - cbn [seq loop]. destruct (f i) as [x|] eqn:E; [|exfalso; apply (H i); try lia; exact E].
      destruct (IH (S i) (put dst i x)) as (d' & D1 & D2 & D3).
      + intros j A B. apply H; lia.
      + rewrite put_length; lia.
      + exists d'. split; [exact D1|]. split; [rewrite D2, put_length; reflexivity|].
        intros j. rewrite D3, put_nth by lia.
        destruct (i =? j) eqn:Q.
        * apply Nat.eqb_eq in Q. subst j.
          replace (S i <=? i) with false by (symmetry; apply Nat.leb_gt; lia).
          replace (i <=? i) with true by (symmetry; apply Nat.leb_le; lia).
          replace (i <? i + S n) with true by (symmetry; apply Nat.ltb_lt; lia). cbn. symmetry; exact E.
        * apply Nat.eqb_neq in Q.
          replace (j <? i + S n) with (j <? S i + n) by (f_equal; lia).
          replace (S i <=? j) with (i <=? j); [reflexivity|].
          destruct (i <=? j) eqn:A, (S i <=? j) eqn:B; try reflexivity;
            [apply Nat.leb_le in A; apply Nat.leb_gt in B|apply Nat.leb_gt in A; apply Nat.leb_le in B]; lia.
  Qed.

  Lemma loop_none : forall f n i dst j, i <= j -> j < i + n -> f j = None -> loop f (seq i n) dst = None.
  Proof.
    induction n as [|n IH]; intros i dst j A B E; [lia|].
    cbn [seq loop]. destruct (Nat.eq_dec i j) as [->|N]; [rewrite E; reflexivity|].
    destruct (f i); [|reflexivity]. apply (IH (S i) _ j); [lia|lia|exact E].
  Qed.

  Lemma fill_loop : forall src is (dst : list T),
    fill src is dst = match loop (nth_error src) is dst with Some d => Done d | None => PastEnd end.
  Proof. induction is as [|i is IH]; intros dst; cbn; [reflexivity|]. destruct (nth_error src i); [apply IH|reflexivity]. Qed.

  Lemma copy_done : forall n (src : list T), n <= length src ->
    exists d', copy initial n src = Done d' /\ sameUpTo n d' src.
  Proof.
    intros n src L. unfold copy. rewrite fill_loop.
    destruct (loop_some (nth_error src) n 0 (repeat initial n)) as (d' & D1 & D2 & D3).
    - intros j _ B. apply nth_error_Some. lia.
    - rewrite repeat_length. lia.
    - rewrite D1. exists d'. split; [reflexivity|]. split; [rewrite D2; apply repeat_length|].
      intros i Hi. rewrite D3. cbn [Nat.leb andb Nat.add]. replace (i <? n) with true by (symmetry; apply Nat.ltb_lt; exact Hi). reflexivity.
  Qed.

  Lemma copy_past : forall n (src : list T), length src < n -> copy initial n src = PastEnd.
  Proof.
    intros n src L. unfold copy. rewrite fill_loop, (loop_none _ _ _ _ (length src)); [reflexivity|lia|lia|].
    apply nth_error_None. lia.
  Qed.

  Definition shlogAt (visc src : list T) (i : nat) : option T :=
    match nth_error src i, nth_error visc i with Some x, Some v => Some (convert v x) | _, _ => None end.

  Lemma shlog_loop : forall visc src is (dst : list T),
    fillShlog convert visc src is dst = match loop (shlogAt visc src) is dst with Some d => Done d | None => PastEnd end.
  Proof.
    induction is as [|i is IH]; intros dst; cbn; [reflexivity|]. unfold shlogAt at 1.
    destruct (nth_error src i); [|reflexivity]. destruct (nth_error visc i); [apply IH|reflexivity].
  Qed.

  Lemma shlog_done : forall n visc (src : list T), n <= length visc -> n <= length src ->
    exists d', fillShlog convert visc src (seq 0 n) (repeat initial n) = Done d' /\
      forall i, i < n -> nth_error d' i = shlogAt visc src i.
  Proof.
    intros n visc src L1 L2. rewrite shlog_loop.
    destruct (loop_some (shlogAt visc src) n 0 (repeat initial n)) as (d' & D1 & D2 & D3).
    - intros j _ B. unfold shlogAt.
      destruct (nth_error src j) eqn:E1; [|apply nth_error_None in E1; lia].
      destruct (nth_error visc j) eqn:E2; [discriminate|apply nth_error_None in E2; lia].
    - rewrite repeat_length. lia.
    - rewrite D1. exists d'. split; [reflexivity|]. intros i Hi. rewrite D3. cbn [Nat.leb andb Nat.add].
      replace (i <? n) with true by (symmetry; apply Nat.ltb_lt; exact Hi). reflexivity.
  Qed.

  Lemma shrate_cases : forall n (src : list T),
    match fillShrate shrateDefault n src (seq 0 n) (repeat initial n) with
    | Done d' => (src = [] \/ length src = n \/ n = 0) /\
        forall i, i < n -> nth_error d' i = match src with [] => Some shrateDefault | _ => nth_error src i end
    | Throws e => e = eShrate /\ src <> [] /\ length src <> n /\ n <> 0
    | _ => False
    end.
  Proof.
    intros n src. destruct src as [|x src].
    - assert (E : forall is dst, fillShrate shrateDefault n [] is dst = match loop (fun _ => Some shrateDefault) is dst with Some d => Done d | None => PastEnd end).
      { induction is as [|i is IH]; intros dst; cbn; [reflexivity|apply IH]. }
      rewrite E. destruct (loop_some (fun _ => Some shrateDefault) n 0 (repeat initial n)) as (d' & D1 & D2 & D3);
        [intros; discriminate|rewrite repeat_length; lia|].
      rewrite D1. split; [left; reflexivity|]. intros i Hi. rewrite D3. cbn [Nat.leb andb Nat.add].
      replace (i <? n) with true by (symmetry; apply Nat.ltb_lt; exact Hi). reflexivity.
    - destruct (length (x :: src) =? n) eqn:L.
      + assert (E : forall is dst, fillShrate shrateDefault n (x :: src) is dst = match loop (nth_error (x :: src)) is dst with Some d => Done d | None => PastEnd end).
        { induction is as [|i is IH]; intros dst; [reflexivity|]. cbn [fillShrate nonempty negb loop]. rewrite L.
          destruct (nth_error (x :: src) i); [apply IH|reflexivity]. }
        apply Nat.eqb_eq in L. rewrite E.
        destruct (loop_some (nth_error (x :: src)) n 0 (repeat initial n)) as (d' & D1 & D2 & D3).
        * intros j _ B. apply nth_error_Some. lia.
        * rewrite repeat_length; lia.
        * rewrite D1. split; [right; left; exact L|]. intros i Hi. rewrite D3. cbn [Nat.leb andb Nat.add].
          replace (i <? n) with true by (symmetry; apply Nat.ltb_lt; exact Hi). reflexivity.
      + destruct n as [|n].
        * cbn. split; [right; right; reflexivity|]. intros; lia.
        * cbn [seq fillShrate nonempty negb]. rewrite L. apply Nat.eqb_neq in L. repeat split; [discriminate|exact L|discriminate].
  Qed.

  Lemma nonempty_true : forall (l : list T), nonempty l = true -> l <> [].
  Proof. destruct l; cbn; congruence. Qed.
  Lemma nonempty_false : forall (l : list T), nonempty l = false -> l = [].
  Proof. destruct l; cbn; congruence. Qed.

  (** All outcomes of the initialization of polymer. *)
  Lemma polymer_cases : forall enP enMW (d : polymerDeck T),
    match polymerInit initial shrateDefault convert enP enMW d with
    | Done None => polymerSwitches enP enMW d /\ enP = false
    | Done (Some p) => polymerSwitches enP enMW d /\ enP = true /\ polymerComplete enMW d /\
                       polymerRegions shrateDefault convert enMW d p
    | Throws e => polymerFault enP enMW d e
    | Aborts => (plyrock d <> [] /\ length (plyrock d) <> numSat d) \/ (plyads d <> [] /\ length (plyads d) <> numSat d) \/
                (enMW = false /\ plyvisc d <> [] /\ length (plyvisc d) <> numPvt d) \/
                (enMW = false /\ hasPlyshlog d = true /\ length (plyshlog d) <> numPvt d) \/
                (enMW = true /\ plyvmh d <> [] /\ length (plyvmh d) <> length (plymax d))
    | PastEnd => enMW = false /\ plmixpar d <> [] /\ length (plmixpar d) < length (plymax d)
    end.
  Proof.
    intros enP enMW d. unfold polymerInit, polymerFault.
    destruct enP, (polymer d) eqn:Hp; cbn [andb negb]; [| tauto | tauto |].
    2: { destruct enMW, (polymw d) eqn:Hw; cbn [andb negb]; try tauto.
         unfold polymerSwitches. repeat split; congruence. }
    destruct enMW, (polymw d) eqn:Hw; cbn [andb negb]; try tauto.
    - (* with molecular weights *)
      unfold require, assertion.
      destruct (nonempty (plyrock d)) eqn:N1; cbn [bind]; [|apply nonempty_false in N1; tauto]. apply nonempty_true in N1.
      destruct (numSat d =? length (plyrock d)) eqn:L1; cbn [bind]; [apply Nat.eqb_eq in L1|apply Nat.eqb_neq in L1; left; split; [exact N1|congruence]].
      destruct (copy_done (numSat d) (plyrock d)) as (rock & C1 & R1); [lia|]. rewrite C1; cbn [bind].
      destruct (nonempty (plyads d)) eqn:N2; cbn [bind]; [|apply nonempty_false in N2; tauto]. apply nonempty_true in N2.
      destruct (numSat d =? length (plyads d)) eqn:L2; cbn [bind]; [apply Nat.eqb_eq in L2|apply Nat.eqb_neq in L2; right; left; split; [exact N2|congruence]].
      destruct (copy_done (numSat d) (plyads d)) as (ads & C2 & R2); [lia|]. rewrite C2; cbn [bind].
      assert (V : (if nonempty (plyvisc d) then Done (repeat initial (numPvt d)) else Done (repeat initial (numPvt d))) = Done (repeat initial (numPvt d)))
        by (destruct (nonempty (plyvisc d)); reflexivity).
      rewrite V; clear V; cbn [bind].
      destruct (nonempty (plymax d)) eqn:N3; cbn [bind]; [|apply nonempty_false in N3; tauto]. apply nonempty_true in N3.
      destruct (copy_done (length (plymax d)) (plymax d)) as (mx & C3 & R3); [lia|]. rewrite C3; cbn [bind].
      assert (V : (if nonempty (plmixpar d) then Done (repeat initial (length (plymax d))) else Done (repeat initial (length (plymax d)))) = Done (repeat initial (length (plymax d))))
        by (destruct (nonempty (plmixpar d)); reflexivity).
      rewrite V; clear V; cbn [bind]. rewrite !andb_false_r. cbn [bind].
      destruct (nonempty (plyvmh d)) eqn:N4; cbn [bind]; [|apply nonempty_false in N4; tauto]. apply nonempty_true in N4.
      destruct (length (plyvmh d) =? length (plymax d)) eqn:L4; cbn [bind]; [apply Nat.eqb_eq in L4|apply Nat.eqb_neq in L4; tauto].
      destruct (copy_done (length (plymax d)) (plyvmh d)) as (vmh & C4 & R4); [lia|]. rewrite C4; cbn [bind].
      unfold polymerSwitches, polymerComplete, polymerRegions, forRegions.
      cbn [pRock pAds pVisc pMax pMix pShlog pShrate pVmh].
      repeat split; try congruence; try (intros; discriminate); try apply R1; try apply R2; try apply R3; try apply R4.
    - (* without *)
      unfold require, assertion.
      destruct (nonempty (plyrock d)) eqn:N1; cbn [bind]; [|apply nonempty_false in N1; tauto]. apply nonempty_true in N1.
      destruct (numSat d =? length (plyrock d)) eqn:L1; cbn [bind]; [apply Nat.eqb_eq in L1|apply Nat.eqb_neq in L1; left; split; [exact N1|congruence]].
      destruct (copy_done (numSat d) (plyrock d)) as (rock & C1 & R1); [lia|]. rewrite C1; cbn [bind].
      destruct (nonempty (plyads d)) eqn:N2; cbn [bind]; [|apply nonempty_false in N2; tauto]. apply nonempty_true in N2.
      destruct (numSat d =? length (plyads d)) eqn:L2; cbn [bind]; [apply Nat.eqb_eq in L2|apply Nat.eqb_neq in L2; right; left; split; [exact N2|congruence]].
      destruct (copy_done (numSat d) (plyads d)) as (ads & C2 & R2); [lia|]. rewrite C2; cbn [bind].
      destruct (nonempty (plyvisc d)) eqn:N5; cbn [bind]; [|apply nonempty_false in N5; tauto]. apply nonempty_true in N5.
      destruct (numPvt d =? length (plyvisc d)) eqn:L5; cbn [bind]; [apply Nat.eqb_eq in L5|apply Nat.eqb_neq in L5; right; right; left; repeat split; [exact N5|congruence]].
      destruct (copy_done (numPvt d) (plyvisc d)) as (visc & C5 & R5); [lia|]. rewrite C5; cbn [bind].
      destruct (nonempty (plymax d)) eqn:N3; cbn [bind]; [|apply nonempty_false in N3; tauto]. apply nonempty_true in N3.
      destruct (copy_done (length (plymax d)) (plymax d)) as (mx & C3 & R3); [lia|]. rewrite C3; cbn [bind].
      destruct (nonempty (plmixpar d)) eqn:N6; cbn [bind]; [|apply nonempty_false in N6; tauto]. apply nonempty_true in N6.
      destruct (le_lt_dec (length (plymax d)) (length (plmixpar d))) as [L6|L6];
        [|rewrite (copy_past _ _ L6); cbn [bind]; tauto].
      destruct (copy_done (length (plymax d)) (plmixpar d)) as (mix & C6 & R6); [exact L6|]. rewrite C6; cbn [bind].
      rewrite !andb_true_r.
      assert (SH : (exists shl, (if hasPlyshlog d
                     then bind (if numPvt d =? length (plyshlog d) then Done tt else Aborts) (fun _ =>
                            fillShlog convert visc (plyshlog d) (seq 0 (numPvt d)) (repeat initial (numPvt d)))
                     else Done []) = Done shl /\ (hasPlyshlog d = true -> length (plyshlog d) = numPvt d) /\
                     (hasPlyshlog d = true -> forall i v x, i < numPvt d -> nth_error (plyvisc d) i = Some v -> nth_error (plyshlog d) i = Some x ->
                        nth_error shl i = Some (convert v x))) \/
                   ((if hasPlyshlog d
                     then bind (if numPvt d =? length (plyshlog d) then Done tt else Aborts) (fun _ =>
                            fillShlog convert visc (plyshlog d) (seq 0 (numPvt d)) (repeat initial (numPvt d)))
                     else Done []) = Aborts /\ hasPlyshlog d = true /\ length (plyshlog d) <> numPvt d)).
      { destruct (hasPlyshlog d); [|left; exists []; repeat split; discriminate].
        destruct (numPvt d =? length (plyshlog d)) eqn:L7; cbn [bind];
          [apply Nat.eqb_eq in L7; left|apply Nat.eqb_neq in L7; right; repeat split; congruence].
        destruct R5 as [R5a R5b].
        destruct (shlog_done (numPvt d) visc (plyshlog d)) as (shl & S1 & S2); [lia|lia|].
        exists shl. split; [exact S1|]. split; [congruence|]. intros _ i v x Hi V X. rewrite (S2 i Hi). unfold shlogAt.
        rewrite X, (R5b i Hi), V. reflexivity. }
      destruct SH as [(shl & -> & SH1 & SH2)|(-> & SH1 & SH2)]; cbn [bind]; [|tauto].
      assert (Goal0 : forall shr, (useShrate d = true -> hasPlyshlog d = true /\ (shrate d = [] \/ length (shrate d) = numPvt d \/ numPvt d = 0)) ->
         (useShrate d = true -> forall i, i < numPvt d -> nth_error shr i = match shrate d with [] => Some shrateDefault | _ => nth_error (shrate d) i end) ->
         polymerSwitches true false d /\ true = true /\ polymerComplete false d /\
         polymerRegions shrateDefault convert false d (mkPolymerParams rock ads visc mx mix shl shr [])).
      { intros shr U1 U2. unfold polymerSwitches, polymerComplete, polymerRegions, forRegions.
        cbn [pRock pAds pVisc pMax pMix pShlog pShrate pVmh].
        repeat split; try congruence; try (intros; discriminate); try apply R1; try apply R2; try apply R3; try apply R5; try apply R6;
          try assumption; try (apply U1; assumption). }
      destruct (useShrate d) eqn:US; cbn [bind]; [|apply Goal0; intros; discriminate].
      destruct (hasPlyshlog d) eqn:HP; cbn [bind]; [|tauto].
      pose proof (shrate_cases (numPvt d) (shrate d)) as SC.
      destruct (fillShrate shrateDefault (numPvt d) (shrate d) (seq 0 (numPvt d)) (repeat initial (numPvt d))) as [shr|e| |]; cbn [bind];
        [|tauto|contradiction|contradiction].
      destruct SC as [SC1 SC2]. apply Goal0; [intros _; split; [reflexivity|exact SC1]|intros _; exact SC2].
  Qed.

  Lemma foam_cases : forall en (d : foamDeck T),
    match foamInit initial en d with
    | Done None => en = false /\ foam d = false
    | Done (Some p) => en = true /\ foam d = true /\ foamComplete d /\
        sameUpTo (fNumSat d) (fRock p) (foamrock d) /\ sameUpTo (fNumSat d) (fAds p) (foamads d) /\ sameUpTo (fNumPvt d) (fMob p) (foammob d)
    | Throws e => foamFault en d e
    | _ => False
    end.
  Proof.
    intros en d. unfold foamInit, foamFault.
    destruct en, (foam d) eqn:Hf; cbn [andb negb]; [|tauto|tauto|tauto].
    unfold require.
    destruct (tabModel d) eqn:TM; cbn [bind]; [|tauto].
    destruct (fNumSat d =? length (foamrock d)) eqn:L1; cbn [bind]; [apply Nat.eqb_eq in L1|apply Nat.eqb_neq in L1; assert (length (foamrock d) <> fNumSat d) by congruence; tauto].
    destruct (nonempty (foamads d)) eqn:N1; cbn [bind]; [|apply nonempty_false in N1; tauto]. apply nonempty_true in N1.
    destruct (fNumSat d =? length (foamads d)) eqn:L2; cbn [bind]; [apply Nat.eqb_eq in L2|apply Nat.eqb_neq in L2; assert (length (foamads d) <> fNumSat d) by congruence; tauto].
    destruct (copy_done (fNumSat d) (foamrock d)) as (rock & C1 & R1); [lia|]. rewrite C1; cbn [bind].
    destruct (copy_done (fNumSat d) (foamads d)) as (ads & C2 & R2); [lia|]. rewrite C2; cbn [bind].
    destruct (nonempty (foammob d)) eqn:N2; cbn [bind]; [|apply nonempty_false in N2; tauto]. apply nonempty_true in N2.
    destruct (fNumPvt d =? length (foammob d)) eqn:L3; cbn [bind]; [apply Nat.eqb_eq in L3|apply Nat.eqb_neq in L3; assert (length (foammob d) <> fNumPvt d) by congruence; tauto].
    destruct (copy_done (fNumPvt d) (foammob d)) as (mob & C3 & R3); [lia|]. rewrite C3; cbn [bind].
    unfold foamComplete, forRegions. cbn [fRock fAds fMob]. repeat split; try congruence; try apply R1; try apply R2; try apply R3.
  Qed.
End Proofs.
