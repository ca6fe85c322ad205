From Coq Require Import Arith List Bool Lia Sorted.
From Verif Require Import MpiModel MpiSpec MpiProofs MpiLemmas MpiExchange ExchangeModel
  GlobalIndexModel GlobalIndexProofs ForeignModel ForeignSpec ForeignProofs.
Import ListNotations.

Section Levels.
Variable N : nat.
Variable pt : nat -> partition.
Variable d0 os : nat.
Hypothesis B : borders N pt d0 os.
Hypothesis CO : d0 = 0 -> common N pt.

Notation reaches := (reaches N pt d0).
Notation distance := (distance N pt d0).
Notation lists := (lists pt).
Notation isRow := (isRow pt).

Lemma neighbors_lists : forall p q, In q (neighbors (pt p)) <-> exists i j, lists p i q j.
Proof.
  intros p q. rewrite (proj2 (neighbors_spec (pt p)) q). split.
  - intros (e & He & E). exists (localIdx e), (peerIdx e), e. auto.
  - intros (i & j & e & He & _ & E & _). exists e. auto.
Qed.

Lemma neighbors_symmetric : symmetric N (fun p => neighbors (pt p)).
Proof.
  split.
  - intros p q Hp H. apply neighbors_lists in H. destruct H as (i & j & H).
    apply (bo_range _ _ _ _ B p i q j Hp H).
  - intros p Hp. apply sorted_NoDup. apply neighbors_spec.
  - intros p q Hp H. apply neighbors_lists in H. destruct H as (i & j & H).
    apply neighbors_lists. destruct (bo_sym _ _ _ _ B p i q j Hp H) as (i' & j' & K). eauto.
Qed.

(** All rows which are reached are rows of processes in range. *)
Lemma reaches_ok : forall p q k i, reaches p q k i -> p < N /\ isRow p i /\ q < N /\ q <> p.
Proof.
  induction 1 as [p q i j Hp Hr Hl|p q k i j H IH Hc Hr|p q k i p' i' Hd H IH Hl Hne].
  - split; [auto|]. split; [auto|]. apply (bo_range _ _ _ _ B p i q j Hp Hl).
  - destruct IH as (H1 & _ & H3). auto.
  - destruct IH as (H1 & H2 & H3 & H4).
    destruct (bo_range _ _ _ _ B _ _ _ _ H1 Hl) as [H5 H6].
    split; [auto|]. split; [|split; [auto|congruence]].
    apply (co_row _ _ (CO Hd) p' i' p i); auto. apply (co_sym _ _ (CO Hd)); auto.
Qed.

Lemma reaches_0 : forall p q i, reaches p q 0 i -> exists j, lists p i q j.
Proof.
  assert (G : forall p q k i, reaches p q k i -> k = 0 -> exists j, lists p i q j).
  2:{ intros p q i H. eapply G; eauto. }
  intros p q k i H Ek. induction H as [p q i j Hp Hr Hl|p q k i j H IH Hc Hr|p q k i p' i' Hd H IH Hl Hne]; [eauto|discriminate|].
  destruct (IH Ek) as (j & Hj). destruct (reaches_ok _ _ _ _ H) as (H1 & H2 & H3 & H4).
  destruct (bo_range _ _ _ _ B _ _ _ _ H1 Hl) as [H5 H6].
  exists j. apply (co_trans _ _ (CO Hd) p' i' p i q j); auto.
  apply (co_sym _ _ (CO Hd)); auto.
Qed.

(** Reached by the own rows. *)
Definition own (p q k i : nat) : Prop :=
  match k with
  | 0 => exists j, lists p i q j
  | S k' => exists j, reaches p q k' j /\ In i (columns (pt p) j)
  end.

Lemma reaches_own : forall p q k i, reaches p q k i ->
  own p q k i \/ (d0 = 0 /\ exists r j, lists r j p i /\ r < N /\ p <> q /\ own r q k j /\ reaches r q k j).
Proof.
  induction 1 as [p q i j Hp Hr Hl|p q k i j H IH Hc Hr|p q k i p' i' Hd H IH Hl Hne].
  - left. cbn. eauto.
  - left. cbn. eauto.
  - destruct (reaches_ok _ _ _ _ H) as (H1 & H2 & H3 & H4).
    destruct IH as [IH|(_ & r & j & Hj & Hr & Hpq & IH & Hrr)].
    + right. split; [auto|]. exists p, i. auto.
    + pose proof (CO Hd) as C.
      destruct (Nat.eq_dec r p') as [->|Hrp].
      * left. assert (j = i').
        { apply (co_fun _ _ C p i p' j i'); auto. apply (co_sym _ _ C); auto. }
        subst. auto.
      * right. split; [auto|]. exists r, j. split; [|auto].
        apply (co_trans _ _ C r j p i p' i'); auto.
Qed.


(* ----- one level ----- *)

Definition notified (st : nat -> overlapState) (dist p : nat) : overlapState :=
  fold_left (fun s q => fold_left (receiveIndex dist) (borderIndicesFor (pt q) (st q) p) s)
    (neighbors (pt p)) (st p).

Definition inserted (st : nat -> overlapState) (dist p : nat) : overlapState :=
  let s := notified st dist p in
  mkOverlap (defined s) (fold_left (insertSeed (pt p) dist) (seeds s) (byIndex s)) (seeds s) (peerRanks s).

Definition nextLevel (st : nat -> overlapState) (dist p : nat) : overlapState :=
  let s := inserted st dist p in
  mkOverlap (defined s) (byIndex s) (nextSeeds (pt p) s) (peerRanks s).

Fixpoint levelsDone (levels dist : nat) (st : nat -> overlapState) : nat -> overlapState :=
  match levels with
  | 0 => inserted st dist
  | S l => levelsDone l (S dist) (nextLevel st dist)
  end.

Lemma extend_run : forall levels dist st,
  assuredRun (cfg N (fun p => extend (pt p) levels dist (st p)) noMsg)
             (cfg N (fun p => Ret (levelsDone levels dist st p)) noMsg).
Proof.
  induction levels as [|l IH]; intros dist st.
  - cbn [extend]. eapply phases.
    + apply (exchangeBuffers_run N (fun p => neighbors (pt p)) neighbors_symmetric
        (fun p => borderIndicesFor (pt p) (st p)) (fun _ _ es s => fold_left (receiveIndex dist) es s)).
    + constructor.
  - cbn [extend]. eapply phases.
    + apply (exchangeBuffers_run N (fun p => neighbors (pt p)) neighbors_symmetric
        (fun p => borderIndicesFor (pt p) (st p)) (fun _ _ es s => fold_left (receiveIndex dist) es s)).
    + apply (IH (S dist) (nextLevel st dist)).
Qed.

(** The entries of the levels below k. *)
Definition entries (p k : nat) (m : list indexMap) : Prop :=
  forall i l q d, toLocal (pt p) i = Some l ->
    (mget q (nth l m []) = Some d <-> exists k', d = d0 + k' /\ k' < k /\ distance p q k' i).

Definition peersOf (p k : nat) (ps : list nat) : Prop :=
  StronglySorted lt ps
  /\ forall q, In q ps <-> In q (neighbors (pt p)) \/ exists k' i, k' < k /\ distance p q k' i.

Record level (k : nat) (p : nat) (st : overlapState) : Prop := {
  le_def : defined st = true;
  le_len : length (byIndex st) = numLocalIndices (pt p);
  le_keys : keysOnce (byIndex st);
  le_entries : entries p k (byIndex st);
  le_seeds : forall i q, isRow p i ->
    (hasSeed i q (seeds st) = true <->
     own p q k i /\ forall k', k' < k -> ~ reaches p q k' i);
  le_peers : peersOf p k (peerRanks st)
}.

Lemma no_distance : forall p q i k, (forall k', k' < k -> ~ distance p q k' i) ->
  forall k', k' < k -> ~ reaches p q k' i.
Proof.
  intros p q i k H k'. induction k' as [k' IH] using lt_wf_ind. intros Hk Hr.
  apply (H k' Hk). split; [auto|]. intros k2 H2. apply IH; lia.
Qed.

Lemma noKey : forall p k m i l q, entries p k m -> toLocal (pt p) i = Some l ->
  (hasKey q (nth l m []) = false <-> forall k', k' < k -> ~ reaches p q k' i).
Proof.
  intros p k m i l q H Hl. split.
  - intros Hk. apply no_distance. intros k' Hk' D.
    assert (E : mget q (nth l m []) = Some (d0 + k')) by (apply (H i l q _ Hl); eauto).
    unfold hasKey in Hk. rewrite E in Hk. discriminate.
  - intros Hn. destruct (hasKey q (nth l m [])) eqn:E; [|reflexivity].
    apply hasKey_iff in E. destruct E as (d & E). apply (H i l q d Hl) in E.
    destruct E as (k' & _ & Hk' & D & _). exfalso. apply (Hn k' Hk' D).
Qed.

Lemma toLocal_common : d0 = 0 -> forall p i, p < N -> isRow p i -> toLocal (pt p) i = Some i.
Proof.
  intros Hd p i Hp Hr. apply toLocal_first; [exact Hr|].
  intros j Hj. apply (co_first _ _ (CO Hd) p j i); auto.
Qed.

(** What arrives. *)
Lemma messages : forall k st, (forall p, p < N -> level k p (st p)) ->
  forall p r e, p < N -> r < N -> In e (borderIndicesFor (pt r) (st r) p) ->
  exists i, d0 = 0 /\ lists r i p (peerIdx e) /\ reaches r (peerRank e) k i /\ p <> peerRank e.
Proof.
  intros k st H p r e Hp Hr He.
  apply borderIndicesFor_spec in He; [|apply (le_keys _ _ _ (H r Hr))].
  destruct He as (s & l & Hs & Hl & Hb & Hm & Hne & Hj & Ee).
  apply (le_entries _ _ _ (H r Hr) _ _ _ _ Hl) in Hm.
  destruct Hm as (k' & E0 & Hk' & Hd).
  assert (Hd0 : d0 = 0) by lia. exists l. split; [auto|].
  assert (Hrow : isRow r (seedIdx s)) by (apply toLocal_row; eauto).
  assert (El : l = seedIdx s).
  { rewrite (toLocal_common Hd0 r _ Hr Hrow) in Hl. congruence. }
  subst l.
  apply localToPeerIdx_spec in Hj. destruct Hj as (e' & He' & E1 & E2 & E3).
  split; [exists e'; auto|].
  rewrite Ee. cbn [peerRank]. split; [|auto].
  assert (Hsd : hasSeed (seedIdx s) (seedRank s) (seeds (st r)) = true) by (apply hasSeed_iff; eauto).
  apply (le_seeds _ _ _ (H r Hr) _ _ Hrow) in Hsd. destruct Hsd as [Ho _].
  destruct k as [|k]; [lia|]. destruct Ho as (j & Hj & Hc). eapply reaches_entry; eauto.
Qed.

Lemma messages_complete : forall k st, (forall p, p < N -> level k p (st p)) -> 0 < k ->
  forall p r i q i', d0 = 0 -> p < N -> r < N -> lists r i p i' -> p <> q ->
  own r q k i -> (forall k', k' < k -> ~ reaches r q k' i) ->
  exists e, In e (borderIndicesFor (pt r) (st r) p) /\ peerIdx e = i' /\ peerRank e = q.
Proof.
  intros k st H Hk p r i q i' Hd Hp Hr Hl Hpq Ho Hn.
  pose proof (CO Hd) as C.
  assert (Hrow : isRow r i) by (apply (co_row _ _ C r i p i'); auto).
  assert (Hloc : toLocal (pt r) i = Some i) by (apply toLocal_common; auto).
  assert (Hs : hasSeed i q (seeds (st r)) = true) by (apply (le_seeds _ _ _ (H r Hr)); auto).
  apply hasSeed_iff in Hs. destruct Hs as (s & Hs & Ei & Eq).
  destruct Hl as (e & He & E1 & E2 & E3).
  destruct (localToPeerIdx_found (pt r) e He) as (j & Ej).
  assert (j = i').
  { apply localToPeerIdx_spec in Ej. destruct Ej as (e' & He' & F1 & F2 & F3).
    apply (co_fun _ _ C r i p j i'); auto; [exists e'|exists e]; subst; auto. }
  subst j. rewrite E1, E2 in Ej.
  exists (mkBorder i i' q (seedDist s)). split; [|auto].
  apply borderIndicesFor_spec; [apply (le_keys _ _ _ (H r Hr))|].
  exists s, i. cbn [peerIdx]. rewrite Ei, Eq. repeat split; auto.
  - apply isBorder_spec. exists e. rewrite E1. auto.
  - apply (le_entries _ _ _ (H r Hr) _ _ _ _ Hloc). exists 0. split; [lia|]. split; [auto|].
    split; [|intros; lia]. apply (reaches_border _ _ _ r p i i'); auto. exists e. auto.
Qed.

Lemma notified_spec : forall k st dist, (forall p, p < N -> level k p (st p)) ->
  forall p, p < N ->
  let s := notified st dist p in
  byIndex s = byIndex (st p) /\ defined s = true
  /\ (forall i q, isRow p i -> (hasSeed i q (seeds s) = true <-> distance p q k i))
  /\ peersOf p (S k) (peerRanks s).
Proof.
  intros k st dist H p Hp. cbn zeta.
  pose proof (H p Hp) as L.
  assert (Hnb : forall r, In r (neighbors (pt p)) -> r < N).
  { intros r Hr. apply neighbors_lists in Hr. destruct Hr as (i & j & Hl).
    apply (bo_range _ _ _ _ B p i r j Hp Hl). }
  assert (Hm : forall e, In e (flat_map (fun q => borderIndicesFor (pt q) (st q) p) (neighbors (pt p))) ->
     exists r i, r < N /\ d0 = 0 /\ lists r i p (peerIdx e) /\ reaches r (peerRank e) k i /\ p <> peerRank e).
  { intros e He. apply in_flat_map in He. destruct He as (r & Hr & He).
    destruct (messages k st H p r e Hp (Hnb r Hr) He) as (i & H1). exists r, i. split; auto. }
  assert (Er : notified st dist p = fold_left (receiveIndex dist)
     (flat_map (fun q => borderIndicesFor (pt q) (st q) p) (neighbors (pt p))) (st p)).
  { unfold notified. symmetry. apply fold_left_flat_map. }
  rewrite Er.
  assert (Hes : forall e, (exists r, In r (neighbors (pt p)) /\ In e (borderIndicesFor (pt r) (st r) p)) ->
     In e (flat_map (fun q => borderIndicesFor (pt q) (st q) p) (neighbors (pt p)))).
  { intros e He. apply in_flat_map. exact He. }
  set (es := flat_map _ _) in *. clearbody es. clear Er.
  assert (Hrow : forall e, In e es -> isRow p (peerIdx e)).
  { intros e He. destruct (Hm e He) as (r & i & Hr & Hd & Hl & Hre & Hne).
    apply (co_row _ _ (CO Hd) p _ r i); auto. apply (co_sym _ _ (CO Hd)); auto. }
  destruct (receive_fold (pt p) dist es (st p)) as (R1 & R2 & R3 & R4 & R5).
  { intros e He. destruct (Hm e He) as (r & i & Hr & Hd & Hl & Hre & Hne).
    rewrite (le_len _ _ _ L).
    eapply toLocal_lt. apply (toLocal_common Hd p _ Hp (Hrow e He)). }
  assert (S1 : forall i q, isRow p i ->
    (hasSeed i q (seeds (fold_left (receiveIndex dist) es (st p))) = true <-> distance p q k i)).
  { intros i q Hi. rewrite R3. split.
    - intros [Hs|((e & He & E1 & E2) & Hk)].
      + apply (le_seeds _ _ _ L _ _ Hi) in Hs. destruct Hs as [Ho Hn]. split; [|auto].
        destruct k as [|k]; cbn in Ho.
        * destruct Ho as (j & Hj). eapply reaches_border; eauto.
        * destruct Ho as (j & Hj & Hc). eapply reaches_entry; eauto.
      + destruct (Hm e He) as (r & i' & Hr & Hd & Hl & Hre & Hne). subst.
        split.
        * eapply reaches_common; eauto.
        * apply (noKey p k _ _ _ _ (le_entries _ _ _ L) (toLocal_common Hd p _ Hp Hi)). auto.
    - intros [Hre Hn]. destruct (reaches_own _ _ _ _ Hre) as [Ho|(Hd & r & j & Hl & Hr & Hpq & Ho & Hrr)].
      + left. apply (le_seeds _ _ _ L); auto.
      + destruct (Nat.eq_dec k 0) as [E0|Hk].
        * left. apply (le_seeds _ _ _ L); auto. split; [|auto].
          subst k. cbn. apply reaches_0 in Hre. auto.
        * right. split.
          -- assert (Hnr : forall k', k' < k -> ~ reaches r q k' j).
             { intros k' Hk' Hx. apply (Hn k' Hk'). eapply reaches_common; eauto. }
             destruct (messages_complete k st H (proj1 (Nat.neq_0_lt_0 k) Hk) p r j q i Hd Hp Hr Hl Hpq Ho Hnr)
               as (e & He & E1 & E2).
             exists e. split; [|auto]. apply Hes. exists r. split; [|auto].
             apply neighbors_lists. exists i, j. apply (co_sym _ _ (CO Hd)); auto.
          -- apply (noKey p k _ _ _ _ (le_entries _ _ _ L) (toLocal_common Hd p _ Hp Hi)). auto. }
  split; [exact R1|]. split; [rewrite R2; apply (le_def _ _ _ L)|]. split; [exact S1|].
  destruct (le_peers _ _ _ L) as [P1 P2].
  split; [apply R4; exact P1|].
  intros q. rewrite R5, P2. split.
  - intros [[Hq|(k' & i & Hk & D)]|(i & Hf & Ht)]; [auto|right; exists k', i; auto|].
    right. exists k, i. split; [lia|]. apply S1; [|auto].
    apply R3 in Ht. destruct Ht as [Ht|((e & He & E1 & E2) & _)]; [congruence|]. subst. auto.
  - intros [Hq|(k' & i & Hk & D)]; [auto|].
    destruct (Nat.eq_dec k' k) as [->|Hne]; [|left; right; exists k', i; split; [lia|auto]].
    assert (Hi : isRow p i) by apply (reaches_ok _ _ _ _ (proj1 D)).
    destruct (hasSeed i q (seeds (st p))) eqn:Es.
    + left. apply (le_seeds _ _ _ L _ _ Hi) in Es. destruct Es as [Ho Hn].
      destruct k as [|k]; cbn in Ho.
      * left. apply neighbors_lists. destruct Ho as (j & Hj). eauto.
      * right. destruct Ho as (j & Hj & Hc). exists k, j. split; [lia|].
        split; [auto|]. intros k' Hk' Hx. apply (Hn (S k')); [lia|]. eapply reaches_entry; eauto.
    + right. exists i. split; [auto|]. apply S1; auto.
Qed.

Lemma distance_unique : forall p q i k k', distance p q k i -> distance p q k' i -> k = k'.
Proof.
  intros p q i k k' [H1 H2] [H3 H4].
  destruct (lt_eq_lt_dec k k') as [[Hl|He]|Hg]; [|auto|]; exfalso.
  - apply (H4 k); auto.
  - apply (H2 k'); auto.
Qed.

Lemma inserted_spec : forall k st dist, dist = d0 + k -> (forall p, p < N -> level k p (st p)) ->
  forall p, p < N ->
  let s := inserted st dist p in
  defined s = true /\ length (byIndex s) = numLocalIndices (pt p) /\ keysOnce (byIndex s)
  /\ entries p (S k) (byIndex s)
  /\ (forall i q, isRow p i -> (hasSeed i q (seeds s) = true <-> distance p q k i))
  /\ peersOf p (S k) (peerRanks s).
Proof.
  intros k st dist Ed H p Hp. cbn zeta. unfold inserted.
  destruct (notified_spec k st dist H p Hp) as (N1 & N2 & N3 & N4).
  cbn [defined byIndex seeds peerRanks]. rewrite N1.
  pose proof (H p Hp) as L.
  destruct (insert_fold (pt p) dist (seeds (notified st dist p)) (byIndex (st p)) (le_len _ _ _ L) (le_keys _ _ _ L))
    as (I1 & I2 & I3).
  repeat (split; [assumption|]). split; [|auto].
  intros i l q d Hl. rewrite (I3 i l q Hl).
  assert (Hi : isRow p i) by (apply toLocal_row; eauto).
  destruct (mget q (nth l (byIndex (st p)) [])) as [d'|] eqn:Em.
  - apply (le_entries _ _ _ L _ _ _ _ Hl) in Em. destruct Em as (k1 & E1 & Hk1 & D1). split.
    + intros E. injection E as <-. exists k1. split; [auto|]. split; [lia|auto].
    + intros (k2 & E2 & Hk2 & D2). rewrite (distance_unique _ _ _ _ _ D2 D1) in E2. congruence.
  - destruct (hasSeed i q (seeds (notified st dist p))) eqn:Es.
    + apply N3 in Es; [|auto]. split.
      * intros E. injection E as <-. exists k. split; [auto|]. split; [lia|auto].
      * intros (k2 & E2 & Hk2 & D2). rewrite (distance_unique _ _ _ _ _ D2 Es) in E2. congruence.
    + split; [discriminate|]. intros (k2 & E2 & Hk2 & D2). exfalso.
      destruct (Nat.eq_dec k2 k) as [->|Hne].
      * apply N3 in D2; [congruence|auto].
      * assert (F : mget q (nth l (byIndex (st p)) []) = Some d).
        { apply (le_entries _ _ _ L _ _ _ _ Hl). exists k2. split; [auto|]. split; [lia|auto]. }
        congruence.
Qed.

Lemma next_level : forall k st dist, dist = d0 + k -> (forall p, p < N -> level k p (st p)) ->
  forall p, p < N -> level (S k) p (nextLevel st dist p).
Proof.
  intros k st dist Ed H p Hp.
  destruct (inserted_spec k st dist Ed H p Hp) as (N1 & N2 & N3 & N4 & N5 & N6).
  unfold nextLevel. split; cbn [defined byIndex seeds peerRanks]; auto.
  intros i q Hi. rewrite next_spec. split.
  - intros (j & li & Hs & Hj & Hc & Hl & Hk).
    apply N5 in Hs; [|exact Hj].
    pose proof (proj1 (noKey p (S k) _ _ _ q N4 Hl) Hk) as Hn.
    split; [|auto]. exists j. split; [apply Hs|auto].
  - intros ((j & Hj & Hc) & Hn).
    assert (Hjr : isRow p j) by apply (reaches_ok _ _ _ _ Hj).
    destruct (proj2 (toLocal_row (pt p) i) Hi) as (li & Hl).
    exists j, li. split; [|split; [exact Hjr|split; [auto|split; [auto|]]]].
    + apply N5; [auto|]. split; [auto|]. intros k' Hk' Hx. apply (Hn (S k')); [lia|].
      eapply reaches_entry; eauto.
    + apply (noKey p (S k) _ _ _ q N4 Hl). auto.
Qed.

Lemma initial_level : forall p, p < N -> level 0 p (initialState (pt p)).
Proof.
  intros p Hp. unfold initialState. split; cbn [defined byIndex seeds peerRanks].
  - reflexivity.
  - apply repeat_length.
  - intros l. rewrite nth_repeat. constructor.
  - intros i l q d Hl. rewrite nth_repeat. split; [discriminate|].
    intros (k' & _ & Hk & _). lia.
  - intros i q Hi. rewrite hasSeed_iff. split.
    + intros (s & Hs & E1 & E2). apply in_map_iff in Hs. destruct Hs as (e & Ee & He).
      subst s. cbn in E1, E2. split; [|intros; lia]. exists (peerIdx e), e. auto.
    + intros ((j & e & He & E1 & E2 & E3) & _).
      exists (mkSeed (localIdx e) (peerRank e) (borderDistance e)). split; [|auto].
      apply in_map_iff. exists e. auto.
  - split; [apply neighbors_spec|]. intros q. split; [auto|].
    intros [Hq|(k' & i & Hk & _)]; [auto|lia].
Qed.

Lemma levels_done : forall levels k st dist, dist = d0 + k -> (forall p, p < N -> level k p (st p)) ->
  forall p, p < N ->
  let s := levelsDone levels dist st p in
  defined s = true /\ length (byIndex s) = numLocalIndices (pt p) /\ keysOnce (byIndex s)
  /\ entries p (S (k + levels)) (byIndex s)
  /\ peersOf p (S (k + levels)) (peerRanks s).
Proof.
  induction levels as [|n IH]; intros k st dist Ed H p Hp.
  - cbn [levelsDone]. destruct (inserted_spec k st dist Ed H p Hp) as (N1 & N2 & N3 & N4 & N5 & N6).
    rewrite Nat.add_0_r. auto.
  - cbn [levelsDone]. replace (k + S n) with (S k + n) by lia.
    apply IH; [lia| |auto]. intros p' Hp'. apply next_level; auto.
Qed.

(** A process without border entries leaves after fewer levels, with the same result. *)
Lemma extend_alone : forall part, border part = [] -> forall levels dist st, seeds st = [] ->
  extend part levels dist st = Ret (mkOverlap (defined st) (byIndex st) [] (peerRanks st)).
Proof.
  intros part Hb. induction levels as [|n IH]; intros dist st Hs.
  - cbn [extend]. unfold addNonNeighbors, exchangeBuffers, neighbors. rewrite Hb. cbn. rewrite Hs. reflexivity.
  - cbn [extend]. unfold addNonNeighbors, exchangeBuffers, neighbors. rewrite Hb. cbn. rewrite Hs. cbn.
    rewrite IH; reflexivity.
Qed.

Hypothesis Hsize : d0 <= os.

Lemma build_extend : forall p, p < N ->
  buildForeignOverlap (pt p) = extend (pt p) (os - d0) d0 (initialState (pt p)).
Proof using B Hsize.
  intros p Hp. unfold buildForeignOverlap. destruct (border (pt p)) as [|e es] eqn:Eb.
  - rewrite !extend_alone; auto; unfold initialState; rewrite Eb; reflexivity.
  - assert (Em : minBorderDist (pt p) = d0).
    { unfold minBorderDist. rewrite (bo_size _ _ _ _ B p Hp).
      assert (Hall : forall x, In x (border (pt p)) -> borderDistance x = d0).
      { intros x Hx. apply (bo_dist _ _ _ _ B p x Hp Hx). }
      rewrite Eb in *. cbn [fold_left]. rewrite (Hall e (or_introl eq_refl)).
      rewrite Nat.min_r by exact Hsize.
      assert (Hes : forall x, In x es -> borderDistance x = d0) by (intros; apply Hall; right; auto).
      clear - Hes. induction es as [|x es IH]; [reflexivity|].
      cbn [fold_left]. rewrite (Hes x (or_introl eq_refl)), Nat.min_id. apply IH.
      intros y Hy. apply Hes. right; auto. }
    rewrite Em, (bo_size _ _ _ _ B p Hp). reflexivity.
Qed.

Definition foreignResult : nat -> overlapState :=
  levelsDone (os - d0) d0 (fun p => initialState (pt p)).

Lemma build_assured : assuredRun (cfg N (fun p => buildForeignOverlap (pt p)) noMsg)
  (cfg N (fun p => Ret (foreignResult p)) noMsg).
Proof using B Hsize.
  rewrite (cfg_ext _ N (fun p => buildForeignOverlap (pt p))
     (fun p => extend (pt p) (os - d0) d0 (initialState (pt p))) noMsg noMsg); auto.
  - apply extend_run.
  - apply build_extend.
Qed.

Lemma build_run : ends N (fun p => buildForeignOverlap (pt p)) foreignResult.
Proof using B Hsize.
  apply ends_intro. unfold done. rewrite !start_cfg. apply build_assured.
Qed.

Lemma result_spec : forall p, p < N ->
  let s := foreignResult p in
  defined s = true /\ length (byIndex s) = numLocalIndices (pt p) /\ keysOnce (byIndex s)
  /\ entries p (S (os - d0)) (byIndex s)
  /\ peersOf p (S (os - d0)) (peerRanks s).
Proof.
  intros p Hp. apply (levels_done (os - d0) 0 _ d0); auto.
  intros. apply initial_level; auto.
Qed.

Lemma reaches_has_distance : forall p q k i, k <= os - d0 -> reaches p q k i ->
  exists k', k' <= k /\ distance p q k' i.
Proof.
  intros p q k i Hk H. destruct (reaches_ok _ _ _ _ H) as (Hp & Hi & _).
  destruct (result_spec p Hp) as (_ & _ & _ & He & _).
  destruct (proj2 (toLocal_row (pt p) i) Hi) as (l & Hl).
  destruct (hasKey q (nth l (byIndex (foreignResult p)) [])) eqn:E.
  - apply hasKey_iff in E. destruct E as (d & E). apply (He i l q d Hl) in E.
    destruct E as (k' & _ & _ & D). exists k'. split; [|auto].
    destruct (Nat.le_gt_cases k' k); [auto|]. exfalso. apply (proj2 D k); auto.
  - exfalso. apply (proj1 (noKey p _ _ i l q He Hl) E k); [lia|auto].
Qed.

(** If the matrix graph is undirected, the processes are mutually peers. *)
Lemma reaches_back : d0 = 0 ->
  (forall p i j, p < N -> isRow p i -> isRow p j -> In j (columns (pt p) i) -> In i (columns (pt p) j)) ->
  forall p q k x, reaches p q k x ->
  (forall t j, t <> q -> reaches p t j x -> exists x0 k', k' <= j + k /\ reaches q t k' x0)
  /\ (exists x0 k', k' <= k /\ reaches q p k' x0).
Proof.
  intros Hd HS. pose proof (CO Hd) as C.
  induction 1 as [p q i j Hp Hr Hl|p q k i j H IH Hc Hr|p q k i p' i' Hd' H IH Hl Hne].
  - pose proof (co_sym _ _ C _ _ _ _ Hp Hl) as Hl'.
    destruct (bo_range _ _ _ _ B _ _ _ _ Hp Hl) as [Hq Hqp]. split.
    + intros t m Ht Hm. exists j, m. split; [lia|]. eapply reaches_common; eauto.
    + exists j, 0. split; [lia|]. eapply reaches_border; eauto. apply (co_row _ _ C q j p i); auto.
  - destruct (reaches_ok _ _ _ _ H) as (Hp & Hi & _). destruct IH as [IH1 IH2]. split.
    + intros t m Ht Hm. destruct (IH1 t (S m) Ht) as (x0 & k' & Hk & Hx).
      * eapply reaches_entry; eauto.
      * exists x0, k'. split; [lia|auto].
    + destruct IH2 as (x0 & k' & Hk & Hx). exists x0, k'. split; [lia|auto].
  - destruct (reaches_ok _ _ _ _ H) as (Hp & Hi & Hq & Hqp). destruct IH as [IH1 IH2].
    destruct (bo_range _ _ _ _ B _ _ _ _ Hp Hl) as [Hp' Hpp]. split.
    + intros t m Ht Hm. destruct (Nat.eq_dec t p) as [->|Htp].
      * destruct IH2 as (x0 & k' & Hk & Hx). exists x0, k'. split; [lia|auto].
      * apply IH1; [auto|]. eapply reaches_common; eauto. apply (co_sym _ _ C); auto.
    + destruct (IH1 p' 0 Hne) as (x0 & k' & Hk & Hx).
      * eapply reaches_border; eauto.
      * exists x0, k'. split; [lia|auto].
Qed.

Lemma peers_symmetric : d0 = 0 ->
  (forall p i j, p < N -> isRow p i -> isRow p j -> In j (columns (pt p) i) -> In i (columns (pt p) j)) ->
  symmetric N (fun p => peerRanks (foreignResult p)).
Proof.
  intros Hd HS. split.
  - intros p q Hp Hq. destruct (result_spec p Hp) as (_ & _ & _ & _ & _ & P). apply P in Hq.
    destruct Hq as [Hq|(k & i & _ & D & _)].
    + apply (sy_range _ _ neighbors_symmetric p q Hp Hq).
    + destruct (reaches_ok _ _ _ _ D) as (_ & _ & H). exact H.
  - intros p Hp. destruct (result_spec p Hp) as (_ & _ & _ & _ & P & _). apply sorted_NoDup; auto.
  - intros p q Hp Hq. destruct (result_spec p Hp) as (_ & _ & _ & _ & _ & P). apply P in Hq.
    destruct Hq as [Hq|(k & i & Hk & D & _)].
    + destruct (sy_range _ _ neighbors_symmetric p q Hp Hq) as [H1 H2].
      destruct (result_spec q H1) as (_ & _ & _ & _ & _ & P'). apply P'. left.
      apply (sy_sym _ _ neighbors_symmetric p q Hp Hq).
    + destruct (reaches_ok _ _ _ _ D) as (_ & _ & H1 & _).
      destruct (result_spec q H1) as (_ & _ & _ & _ & _ & P'). apply P'. right.
      destruct (reaches_back Hd HS _ _ _ _ D) as (_ & x0 & k' & Hk' & Hx).
      destruct (reaches_has_distance q p k' x0) as (k2 & Hk2 & D2); [lia|auto|].
      exists k2, x0. split; [lia|auto].
Qed.

End Levels.

Lemma overlapWith_spec : forall N pt d0 os,
  borders N pt d0 os -> (d0 = 0 -> common N pt) -> d0 <= os -> forall p q, p < N ->
  StronglySorted lt (map fst (overlapWith (pt p) (foreignResult pt d0 os p) q))
  /\ forall l d, In (l, d) (overlapWith (pt p) (foreignResult pt d0 os p) q) <->
     exists i k, toLocal (pt p) i = Some l /\ d = d0 + k /\ d <= os /\ ForeignSpec.distance N pt d0 p q k i.
Proof.
  intros N pt d0 os HB HC Hs.
  intros p q Hp. destruct (result_spec N pt d0 os HB HC p Hp) as (H1 & H2 & H3 & H4 & H5).
  set (st := foreignResult pt d0 os p) in *. clearbody st. unfold overlapWith. split.
  - generalize 0 (numLocalIndices (pt p)). intros b n. revert b.
    assert (G : forall n b, StronglySorted lt (map fst (flat_map (fun l => match mget q (nth l (byIndex st) []) with
              Some d => [(l, d)] | None => [] end) (seq b n)))
              /\ forall x, In x (map fst (flat_map (fun l => match mget q (nth l (byIndex st) []) with
              Some d => [(l, d)] | None => [] end) (seq b n))) -> b <= x).
    { clear n. induction n as [|n IH]; intros b; [split; [constructor|intros x []]|].
      destruct (IH (S b)) as [IH1 IH2]. cbn [seq flat_map].
      destruct (mget q (nth b (byIndex st) [])) as [d|]; cbn [app map fst].
      - split.
        + constructor; [exact IH1|]. apply Forall_forall. intros x Hx. apply IH2 in Hx. lia.
        + intros x [<-|Hx]; [lia|]. apply IH2 in Hx. lia.
      - split; [exact IH1|]. intros x Hx. apply IH2 in Hx. lia. }
    intros b. apply G.
  - intros l d. rewrite in_flat_map. split.
    + intros (l' & Hl & Hin). apply in_seq in Hl.
      destruct (mget q (nth l' (byIndex st) [])) as [d'|] eqn:E; [|destruct Hin].
      destruct Hin as [Hin|[]]. injection Hin as -> ->.
      destruct (toLocal_onto (pt p) l) as (i & Hi); [lia|].
      apply (H4 i l q d Hi) in E. destruct E as (k & E & Hk & D). exists i, k.
      split; [auto|]. split; [auto|]. split; [lia|auto].
    + intros (i & k & Hi & E & Hk & D). exists l. split.
      * apply in_seq. apply toLocal_lt in Hi. lia.
      * assert (M : mget q (nth l (byIndex st) []) = Some d).
        { apply (H4 i l q d Hi). exists k. split; [auto|]. split; [lia|auto]. }
        rewrite M. left. reflexivity.
Qed.

