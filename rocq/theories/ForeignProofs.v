From Coq Require Import Arith List Bool Lia Sorted Permutation.
From Verif Require Import MpiModel MpiSpec MpiProofs MpiLemmas MpiExchange ExchangeModel
  GlobalIndexModel GlobalIndexProofs ForeignModel ForeignSpec.
Import ListNotations.

(* ----- sets and maps ----- *)

Lemma setInsert_In : forall x y l, In y (setInsert x l) <-> y = x \/ In y l.
Proof.
  intros x y. induction l as [|z l IH]; cbn [setInsert In]; [firstorder congruence|].
  destruct (Nat.ltb_spec x z); [cbn [In]; firstorder congruence|].
  destruct (Nat.eqb_spec x z); [subst; cbn [In]; firstorder congruence|].
  cbn [In]. rewrite IH. tauto.
Qed.

Lemma setInsert_sorted : forall x l, StronglySorted lt l -> StronglySorted lt (setInsert x l).
Proof.
  intros x. induction l as [|z l IH]; intros H; cbn [setInsert]; [repeat constructor|].
  apply StronglySorted_inv in H. destruct H as [H Hz].
  destruct (Nat.ltb_spec x z).
  - constructor; [constructor; auto|]. constructor; [auto|].
    eapply Forall_impl; [|exact Hz]. cbn. intros. lia.
  - destruct (Nat.eqb_spec x z); [constructor; auto|].
    constructor; [auto|]. rewrite Forall_forall in *. intros y Hy.
    apply setInsert_In in Hy. destruct Hy as [->|Hy]; [lia|auto].
Qed.

Lemma sorted_NoDup : forall l, StronglySorted lt l -> NoDup l.
Proof.
  induction l as [|x l IH]; intros H; constructor.
  - apply StronglySorted_inv in H. destruct H as [_ H]. rewrite Forall_forall in H.
    intros K. specialize (H x K). lia.
  - apply StronglySorted_inv in H. apply IH. tauto.
Qed.

Lemma mget_In : forall k v m, mget k m = Some v -> In (k, v) m.
Proof.
  induction m as [|[k' v'] m IH]; cbn; [discriminate|].
  destruct (Nat.eqb_spec k k'); [intros E; injection E as ->; subst; auto|auto].
Qed.

Lemma In_mget : forall k v m, NoDup (map fst m) -> In (k, v) m -> mget k m = Some v.
Proof.
  induction m as [|[k' v'] m IH]; cbn; intros H; [intros []|].
  inversion H as [|? ? Hn Hd]; subst. intros [E|E].
  - injection E as -> ->. now rewrite Nat.eqb_refl.
  - destruct (Nat.eqb_spec k k'); [|auto]. subst. exfalso. apply Hn.
    apply in_map_iff. exists (k', v). auto.
Qed.

Lemma hasKey_iff : forall k m, hasKey k m = true <-> exists v, mget k m = Some v.
Proof.
  intros k m. unfold hasKey. destruct (mget k m).
  - split; eauto.
  - split; [discriminate|intros (v & H); discriminate].
Qed.

Lemma hasSeed_iff : forall i r ss,
  hasSeed i r ss = true <-> exists s, In s ss /\ seedIdx s = i /\ seedRank s = r.
Proof.
  intros i r ss. unfold hasSeed. rewrite existsb_exists. split.
  - intros (s & Hs & E). apply andb_prop in E. destruct E as [E1 E2].
    apply Nat.eqb_eq in E1, E2. eauto.
  - intros (s & Hs & <- & <-). exists s. rewrite !Nat.eqb_refl. auto.
Qed.

Lemma hasSeed_app : forall i r ss tt, hasSeed i r (ss ++ tt) = hasSeed i r ss || hasSeed i r tt.
Proof. intros. unfold hasSeed. apply existsb_app. Qed.

Lemma fold_left_flat_map : forall (A B C : Type) (f : C -> B -> C) (g : A -> list B) l c,
  fold_left f (flat_map g l) c = fold_left (fun c x => fold_left f (g x) c) l c.
Proof.
  intros A B C f g. induction l as [|x l IH]; intros c; [reflexivity|].
  cbn [flat_map fold_left]. rewrite fold_left_app. apply IH.
Qed.

Lemma nth_upd_eq : forall (A : Type) (l : list A) i x d, i < length l -> nth i (upd l i x) d = x.
Proof.
  intros A. induction l as [|y l IH]; intros i x d H; [cbn in H; lia|].
  destruct i; cbn; [reflexivity|]. apply IH. cbn in H. lia.
Qed.

Lemma nth_upd_ne : forall (A : Type) (l : list A) i j x d, i <> j -> nth j (upd l i x) d = nth j l d.
Proof.
  intros A. induction l as [|y l IH]; intros i j x d H; [destruct i; reflexivity|].
  destruct i, j; cbn; try reflexivity; try lia. apply IH. lia.
Qed.

Lemma upd_len : forall (A : Type) (l : list A) i x, length (upd l i x) = length l.
Proof. intros A. induction l; intros [|i] x; cbn; auto. Qed.

(* ----- local indices ----- *)

Section Local.
Variable pt : partition.

Definition row (i : nat) : Prop := i < numNative pt /\ blackListed pt i = false.

Let okb i := negb (blackListed pt i).
Let cnt i := length (filter okb (seq 0 i)).

Lemma cnt_S : forall i, cnt (S i) = cnt i + if okb i then 1 else 0.
Proof.
  intros i. unfold cnt. rewrite seq_S, filter_app, app_length. cbn. destruct (okb i); cbn; lia.
Qed.

Lemma cnt_mono : forall i j, i <= j -> cnt i <= cnt j.
Proof. induction 1; [lia|]. rewrite cnt_S. lia. Qed.

Lemma toLocal_row : forall i, (exists l, toLocal pt i = Some l) <-> row i.
Proof.
  intros i. unfold toLocal, row. destruct (Nat.ltb_spec i (numNative pt)); cbn [andb].
  - destruct (blackListed pt i); cbn; split.
    + intros (l & E). discriminate.
    + intros [_ E]. discriminate.
    + auto.
    + eauto.
  - split; [intros (l & E); discriminate|lia].
Qed.

Lemma toLocal_none : forall i, toLocal pt i = None <-> ~ row i.
Proof.
  intros i. rewrite <- toLocal_row. destruct (toLocal pt i).
  - split; [discriminate|]. intros H. exfalso. apply H. eauto.
  - split; [intros _ (l & E); discriminate|auto].
Qed.

Lemma toLocal_val : forall i l, toLocal pt i = Some l -> l = cnt i /\ row i.
Proof.
  intros i l H. assert (R : row i) by (apply toLocal_row; eauto). split; [|auto].
  unfold toLocal in H. destruct ((i <? numNative pt) && negb (blackListed pt i)); [|discriminate].
  injection H as <-. reflexivity.
Qed.

Lemma toLocal_lt : forall i l, toLocal pt i = Some l -> l < numLocalIndices pt.
Proof.
  intros i l H. apply toLocal_val in H. destruct H as [-> [R1 R2]].
  unfold numLocalIndices, localIndices.
  assert (E : cnt (S i) = S (cnt i)) by (rewrite cnt_S; unfold okb; rewrite R2; cbn; lia).
  pose proof (cnt_mono (S i) (numNative pt) ltac:(lia)) as M. unfold cnt, okb in *. lia.
Qed.

Lemma toLocal_inj : forall i j l, toLocal pt i = Some l -> toLocal pt j = Some l -> i = j.
Proof.
  intros i j l Hi Hj. apply toLocal_val in Hi, Hj. destruct Hi as [Ei [Ri Bi]], Hj as [Ej [Rj Bj]].
  destruct (Nat.lt_trichotomy i j) as [L|[L|L]]; auto.
  - pose proof (cnt_mono (S i) j L) as M. rewrite cnt_S in M. unfold okb at 1 in M. rewrite Bi in M. cbn in M. lia.
  - pose proof (cnt_mono (S j) i L) as M. rewrite cnt_S in M. unfold okb at 1 in M. rewrite Bj in M. cbn in M. lia.
Qed.

Lemma toLocal_onto : forall l, l < numLocalIndices pt -> exists i, toLocal pt i = Some l.
Proof.
  intros l H. unfold numLocalIndices, localIndices in H. fold okb in H. fold (cnt (numNative pt)) in H.
  assert (G : forall n, n <= numNative pt -> l < cnt n -> exists i, toLocal pt i = Some l).
  { induction n; intros Hn Hl; [cbn in Hl; lia|].
    rewrite cnt_S in Hl. destruct (okb n) eqn:E.
    - destruct (Nat.eq_dec l (cnt n)).
      + subst l. exists n. unfold toLocal. fold okb. fold (cnt n).
        destruct (Nat.ltb_spec n (numNative pt)); [|lia]. unfold okb in E. rewrite E. reflexivity.
      + apply IHn; lia.
    - apply IHn; lia. }
  apply (G (numNative pt)); auto.
Qed.

Lemma toLocal_first : forall i, row i -> (forall j, j < i -> row j) -> toLocal pt i = Some i.
Proof.
  intros i R H. destruct (proj2 (toLocal_row i) R) as (l & E). rewrite E. f_equal.
  apply toLocal_val in E. destruct E as [-> _].
  assert (G : forall n, n <= i -> cnt n = n).
  { induction n; intros Hn; [reflexivity|]. rewrite cnt_S, IHn by lia.
    destruct (H n ltac:(lia)) as [_ B]. unfold okb. rewrite B. cbn. lia. }
  apply G. lia.
Qed.

(* ----- one step of one process ----- *)

Lemma receive_fold : forall dist es st,
  (forall e, In e es -> peerIdx e < length (byIndex st)) ->
  let st' := fold_left (receiveIndex dist) es st in
  byIndex st' = byIndex st /\ defined st' = defined st
  /\ (forall i q, hasSeed i q (seeds st') = true <->
        hasSeed i q (seeds st) = true
        \/ (exists e, In e es /\ peerIdx e = i /\ peerRank e = q)
           /\ hasKey q (nth i (byIndex st) []) = false)
  /\ (StronglySorted lt (peerRanks st) -> StronglySorted lt (peerRanks st'))
  /\ (forall x, In x (peerRanks st') <-> In x (peerRanks st)
        \/ exists i, hasSeed i x (seeds st) = false /\ hasSeed i x (seeds st') = true).
Proof.
  intros dist. induction es as [|e es IH]; intros st H.
  - cbn. repeat split; auto.
    + intros [K|[(e & [] & _) _]]; auto.
    + intros [K|(i & A & B)]; [auto|congruence].
  - cbn [fold_left].
    assert (E : length (byIndex (receiveIndex dist st e)) = length (byIndex st)
                /\ byIndex (receiveIndex dist st e) = byIndex st).
    { unfold receiveIndex. destruct (peerIdx e <? length (byIndex st)); [|auto].
      destruct (hasKey _ _); [auto|]. destruct (hasSeed _ _ _); auto. }
    destruct E as [EL EB].
    destruct (IH (receiveIndex dist st e)) as (H1 & H2 & H3 & H4 & H5).
    { intros e' He'. rewrite EL. apply H. right; auto. }
    set (st1 := receiveIndex dist st e) in *. cbn zeta in *.
    set (st' := fold_left (receiveIndex dist) es st1) in *.
    assert (He : peerIdx e < length (byIndex st)) by (apply H; left; auto).
    assert (D1 : defined st1 = defined st
       /\ (forall i q, hasSeed i q (seeds st1) = true <->
              hasSeed i q (seeds st) = true \/ (peerIdx e = i /\ peerRank e = q)
              /\ hasKey q (nth i (byIndex st) []) = false)
       /\ (StronglySorted lt (peerRanks st) -> StronglySorted lt (peerRanks st1))
       /\ (forall x, In x (peerRanks st1) <-> In x (peerRanks st)
            \/ exists i, hasSeed i x (seeds st) = false /\ hasSeed i x (seeds st1) = true)).
    { unfold st1, receiveIndex. destruct (Nat.ltb_spec (peerIdx e) (length (byIndex st))); [|lia].
      destruct (hasKey (peerRank e) (nth (peerIdx e) (byIndex st) [])) eqn:Ek.
      - split; [auto|]. split; [|split; [auto|]].
        + intros i q. split; [auto|]. intros [K|[[<- <-] K]]; [auto|congruence].
        + intros x. split; [auto|]. intros [K|(i & A & B)]; [auto|congruence].
      - destruct (hasSeed (peerIdx e) (peerRank e) (seeds st)) eqn:Es.
        + split; [auto|]. split; [|split; [auto|]].
          * intros i q. split; [auto|]. intros [K|[[<- <-] K]]; auto.
          * intros x. split; [auto|]. intros [K|(i & A & B)]; [auto|congruence].
        + cbn [defined seeds peerRanks]. split; [auto|].
          assert (Hs : forall i q, hasSeed i q (seeds st ++ [mkSeed (peerIdx e) (peerRank e) dist]) = true
             <-> hasSeed i q (seeds st) = true \/ (peerIdx e = i /\ peerRank e = q)).
          { intros i q. rewrite hasSeed_app, orb_true_iff. unfold hasSeed at 2. cbn.
            rewrite orb_false_r, andb_true_iff, !Nat.eqb_eq. reflexivity. }
          split; [|split; [apply setInsert_sorted|]].
          * intros i q. rewrite Hs. split; [|tauto].
            intros [K|[K1 K2]]; [auto|]. right. subst. auto.
          * intros x. rewrite setInsert_In. split.
            -- intros [->|K]; [|auto]. right. exists (peerIdx e). split; [auto|]. apply Hs. auto.
            -- intros [K|(i & A & B)]; [auto|]. apply Hs in B. destruct B as [B|[_ B]]; [congruence|auto]. }
    destruct D1 as (D1 & D2 & D3 & D4).
    split; [congruence|]. split; [congruence|]. split; [|split; [auto|]].
    + intros i q. rewrite H3, D2, EB. split.
      * intros [[K|[[K1 K2] K]]|[(e' & K1 & K2) K]].
        -- auto.
        -- right. split; [exists e; cbn; auto|auto].
        -- right. split; [exists e'; cbn; auto|auto].
      * intros [K|[(e' & [K1|K1] & K2) K]].
        -- auto.
        -- subst e'. left. right. auto.
        -- right. split; [exists e'; auto|auto].
    + intros x. rewrite H5, D4. split.
      * intros [[K|(i & A & B)]|(i & A & B)].
        -- auto.
        -- right. exists i. split; [auto|]. apply H3. auto.
        -- right. exists i. split; [|auto]. destruct (hasSeed i x (seeds st)) eqn:E; [|auto].
           exfalso. assert (hasSeed i x (seeds st1) = true) by (apply D2; auto). congruence.
      * intros [K|(i & A & B)]; [auto|].
        destruct (hasSeed i x (seeds st1)) eqn:E; [left; right|right]; exists i; auto.
Qed.

Definition keysOnce (m : list indexMap) : Prop := forall l, NoDup (map fst (nth l m [])).

Lemma keysOnce_upd : forall m l x, keysOnce m -> NoDup (map fst x) -> keysOnce (upd m l x).
Proof.
  intros m l x Hm Hx l'. destruct (Nat.eq_dec l l') as [->|Hne].
  - destruct (le_lt_dec (length m) l').
    + rewrite nth_overflow by (rewrite upd_len; auto). constructor.
    + rewrite nth_upd_eq by auto. auto.
  - rewrite nth_upd_ne by auto. apply Hm.
Qed.

Lemma insert_fold : forall dist ss m, length m = numLocalIndices pt -> keysOnce m ->
  let m' := fold_left (insertSeed pt dist) ss m in
  length m' = numLocalIndices pt /\ keysOnce m'
  /\ forall i l q, toLocal pt i = Some l ->
     mget q (nth l m' []) =
     match mget q (nth l m []) with
     | Some d => Some d
     | None => if hasSeed i q ss then Some dist else None
     end.
Proof.
  intros dist. induction ss as [|s ss IH]; intros m Hl Hk.
  - cbn. split; [auto|]. split; [auto|]. intros i l q H. destruct (mget q (nth l m [])); reflexivity.
  - cbn [fold_left].
    assert (D : length (insertSeed pt dist m s) = numLocalIndices pt
       /\ keysOnce (insertSeed pt dist m s)
       /\ forall i l q, toLocal pt i = Some l ->
          mget q (nth l (insertSeed pt dist m s) []) =
          match mget q (nth l m []) with
          | Some d => Some d
          | None => if Nat.eqb (seedIdx s) i && Nat.eqb (seedRank s) q then Some dist else None
          end).
    { unfold insertSeed. destruct (toLocal pt (seedIdx s)) as [ls|] eqn:Es.
      - destruct (hasKey (seedRank s) (nth ls m [])) eqn:Ek.
        + split; [auto|]. split; [auto|]. intros i l q Hi.
          destruct (mget q (nth l m [])) eqn:Em; [reflexivity|].
          destruct (Nat.eqb_spec (seedIdx s) i) as [<-|]; [|reflexivity].
          destruct (Nat.eqb_spec (seedRank s) q) as [<-|]; [|reflexivity].
          rewrite Es in Hi. injection Hi as <-. unfold hasKey in Ek. rewrite Em in Ek. discriminate.
        + split; [rewrite upd_len; auto|]. split; [apply keysOnce_upd; [auto|]; apply mset_keys; apply Hk|].
          intros i l q Hi. assert (Hls : ls < length m) by (rewrite Hl; eapply toLocal_lt; eauto).
          destruct (Nat.eq_dec ls l) as [<-|Hne].
          * rewrite nth_upd_eq by auto.
            assert (seedIdx s = i) by (eapply toLocal_inj; eauto). subst i. rewrite Nat.eqb_refl. cbn [andb].
            destruct (Nat.eqb_spec (seedRank s) q) as [<-|Hq].
            -- rewrite mget_mset_eq. unfold hasKey in Ek. destruct (mget (seedRank s) (nth ls m [])); [discriminate|reflexivity].
            -- rewrite mget_mset_ne by auto. destruct (mget q (nth ls m [])); reflexivity.
          * rewrite nth_upd_ne by auto. destruct (Nat.eqb_spec (seedIdx s) i) as [<-|]; [congruence|].
            cbn. destruct (mget q (nth l m [])); reflexivity.
      - split; [auto|]. split; [auto|]. intros i l q Hi.
        destruct (Nat.eqb_spec (seedIdx s) i) as [<-|]; [congruence|]. cbn.
        destruct (mget q (nth l m [])); reflexivity. }
    destruct D as (D1 & D2 & D3). destruct (IH _ D1 D2) as (H1 & H2 & H3).
    split; [auto|]. split; [auto|]. intros i l q Hi. cbn zeta in H3. rewrite (H3 i l q Hi), (D3 i l q Hi).
    unfold hasSeed. cbn [existsb]. fold (hasSeed i q ss).
    destruct (mget q (nth l m [])); [reflexivity|].
    destruct (Nat.eqb (seedIdx s) i && Nat.eqb (seedRank s) q); reflexivity.
Qed.

Lemma next_spec : forall st j q,
  hasSeed j q (nextSeeds pt st) = true <->
  exists i lj, hasSeed i q (seeds st) = true /\ row i /\ In j (columns pt i)
    /\ toLocal pt j = Some lj /\ hasKey q (nth lj (byIndex st) []) = false.
Proof.
  intros st j q. unfold nextSeeds.
  set (inner := fun s => fun next col =>
          match toLocal pt col with
          | None => next
          | Some lc =>
              if hasKey (seedRank s) (nth lc (byIndex st) []) then next
              else if hasSeed col (seedRank s) next then next
              else next ++ [mkSeed col (seedRank s) (S (seedDist s))]
          end).
  assert (Hin : forall s cs next, hasSeed j q (fold_left (inner s) cs next) = true <->
     hasSeed j q next = true \/ (seedRank s = q /\ In j cs /\
        exists lj, toLocal pt j = Some lj /\ hasKey q (nth lj (byIndex st) []) = false)).
  { intros s. induction cs as [|c cs IH]; intros next.
    - cbn. split; [auto|]. intros [K|(_ & [] & _)]. auto.
    - cbn [fold_left]. rewrite IH.
      assert (E : hasSeed j q (inner s next c) = true <->
        hasSeed j q next = true \/ (seedRank s = q /\ c = j /\
        exists lj, toLocal pt j = Some lj /\ hasKey q (nth lj (byIndex st) []) = false)).
      { unfold inner. destruct (toLocal pt c) as [lc|] eqn:Ec.
        - destruct (hasKey (seedRank s) (nth lc (byIndex st) [])) eqn:Ek.
          + split; [auto|]. intros [K|(<- & <- & lj & A & B)]; [auto|]. rewrite Ec in A. injection A as <-. congruence.
          + destruct (hasSeed c (seedRank s) next) eqn:Es.
            * split; [auto|]. intros [K|(<- & <- & _)]; auto.
            * rewrite hasSeed_app, orb_true_iff. unfold hasSeed at 2. cbn.
              rewrite orb_false_r, andb_true_iff, !Nat.eqb_eq. split.
              -- intros [K|[<- <-]]; [auto|]. right. split; [auto|]. split; [auto|]. exists lc. auto.
              -- intros [K|(A & B & _)]; auto.
        - split; [auto|]. intros [K|(_ & <- & lj & A & _)]; [auto|congruence]. }
      rewrite E. cbn [In]. split.
      + intros [[K|(A & B & C)]|(A & B & C)]; auto 6.
      + intros [K|(A & [B|B] & C)]; auto 6. }
  assert (Hout : forall ss next, hasSeed j q (fold_left (fun next s =>
        match toLocal pt (seedIdx s) with
        | None => next
        | Some _ => fold_left (inner s) (columns pt (seedIdx s)) next
        end) ss next) = true <->
     hasSeed j q next = true \/ exists i lj, hasSeed i q ss = true /\ row i /\ In j (columns pt i)
        /\ toLocal pt j = Some lj /\ hasKey q (nth lj (byIndex st) []) = false).
  { induction ss as [|s ss IH]; intros next.
    - cbn. split; [auto|]. intros [K|(i & lj & K & _)]; [auto|discriminate].
    - cbn [fold_left]. rewrite IH.
      assert (Hc : forall i, hasSeed i q (s :: ss) = true <->
                (seedIdx s = i /\ seedRank s = q) \/ hasSeed i q ss = true).
      { intros i. unfold hasSeed. cbn [existsb].
        rewrite orb_true_iff, andb_true_iff, !Nat.eqb_eq. reflexivity. }
      destruct (toLocal pt (seedIdx s)) as [ls|] eqn:Es.
      + rewrite Hin. split.
        * intros [[K|(A & B & lj & C & D)]|(i & lj & A & B)].
          -- auto.
          -- right. exists (seedIdx s), lj. split; [apply Hc; auto|].
             split; [apply toLocal_row; eauto|auto].
          -- right. exists i, lj. split; [apply Hc; auto|auto].
        * intros [K|(i & lj & A & B & C & D & E)]; [auto|].
          apply Hc in A. destruct A as [[<- <-]|A].
          -- left. right. split; [auto|]. split; [auto|]. exists lj. auto.
          -- right. exists i, lj. auto.
      + split.
        * intros [K|(i & lj & A & B)]; [auto|]. right. exists i, lj. split; [apply Hc; auto|auto].
        * intros [K|(i & lj & A & B & C & D & E)]; [auto|]. apply Hc in A. destruct A as [[<- <-]|A].
          -- apply toLocal_none in Es. contradiction.
          -- right. exists i, lj. auto. }
  specialize (Hout (seeds st) []). unfold inner in Hout. rewrite Hout.
  split; [intros [K|K]; [discriminate|auto]|auto].
Qed.

Lemma neighbors_spec : StronglySorted lt (neighbors pt)
  /\ forall q, In q (neighbors pt) <-> exists e, In e (border pt) /\ peerRank e = q.
Proof.
  unfold neighbors.
  assert (G : forall es s, StronglySorted lt s ->
    StronglySorted lt (fold_left (fun s e => setInsert (peerRank e) s) es s)
    /\ forall q, In q (fold_left (fun s e => setInsert (peerRank e) s) es s) <->
         In q s \/ exists e, In e es /\ peerRank e = q).
  { induction es as [|e es IH]; intros s Hs.
    - cbn. split; [auto|]. intros q. split; [auto|]. intros [K|(e & [] & _)]. auto.
    - cbn [fold_left]. destruct (IH _ (setInsert_sorted (peerRank e) s Hs)) as [H1 H2].
      split; [auto|]. intros q. rewrite H2, setInsert_In. split.
      + intros [[K|K]|(e' & A & B)]; [|auto|].
        * right. exists e. cbn. auto.
        * right. exists e'. cbn. auto.
      + intros [K|(e' & [A|A] & B)]; [auto| |].
        * subst. auto.
        * right. exists e'. auto. }
  destruct (G (border pt) [] ltac:(constructor)) as [H1 H2]. split; [auto|].
  intros q. rewrite H2. cbn. split; [intros [[]|K]; auto|auto].
Qed.

Lemma localToPeerIdx_spec : forall l r j, localToPeerIdx pt l r = Some j ->
  exists e, In e (border pt) /\ localIdx e = l /\ peerRank e = r /\ peerIdx e = j.
Proof.
  intros l r j H. unfold localToPeerIdx in H.
  destruct (find _ (border pt)) as [e|] eqn:E; [|discriminate]. injection H as <-.
  apply find_some in E. destruct E as [E1 E2]. apply andb_prop in E2. destruct E2 as [E2 E3].
  apply Nat.eqb_eq in E2, E3. eauto.
Qed.

Lemma localToPeerIdx_found : forall e, In e (border pt) ->
  exists j, localToPeerIdx pt (localIdx e) (peerRank e) = Some j.
Proof.
  intros e He. unfold localToPeerIdx.
  destruct (find _ (border pt)) as [e'|] eqn:E; [eauto|].
  pose proof (find_none _ _ E e He) as K. cbn in K. rewrite !Nat.eqb_refl in K. discriminate.
Qed.

Lemma isBorder_spec : forall l, isBorder pt l = true <->
  exists e, In e (border pt) /\ toLocal pt (localIdx e) = Some l.
Proof.
  intros l. unfold isBorder. rewrite existsb_exists. split.
  - intros (e & He & E). exists e. split; [auto|]. destruct (toLocal pt (localIdx e)); [|discriminate].
    apply Nat.eqb_eq in E. congruence.
  - intros (e & He & E). exists e. rewrite E, Nat.eqb_refl. auto.
Qed.

Lemma borderIndicesFor_spec : forall st r e, keysOnce (byIndex st) ->
  In e (borderIndicesFor pt st r) <->
  exists s l, In s (seeds st) /\ toLocal pt (seedIdx s) = Some l /\ isBorder pt l = true
    /\ mget r (nth l (byIndex st) []) = Some 0 /\ r <> seedRank s
    /\ localToPeerIdx pt l r = Some (peerIdx e)
    /\ e = mkBorder l (peerIdx e) (seedRank s) (seedDist s).
Proof.
  intros st r e Hk. unfold borderIndicesFor. rewrite in_flat_map. split.
  - intros (s & Hs & H). destruct (toLocal pt (seedIdx s)) as [l|] eqn:El; [|destruct H].
    destruct (isBorder pt l) eqn:Eb; [|destruct H].
    apply in_flat_map in H. destruct H as ([nb d] & Hn & H).
    destruct (Nat.eqb_spec d 0) as [->|]; cbn [negb] in H; [|destruct H].
    destruct (Nat.eqb_spec nb (seedRank s)); [destruct H|].
    destruct (localToPeerIdx pt l nb) as [j|] eqn:Ej; [|destruct H].
    destruct (Nat.eqb_spec nb r) as [->|]; [|destruct H].
    destruct H as [<-|[]]. exists s, l. cbn [peerIdx].
    repeat split; auto. apply In_mget; auto.
  - intros (s & l & Hs & El & Eb & Em & Hr & Ej & Ee). exists s. split; [auto|].
    rewrite El, Eb. apply in_flat_map. exists (r, 0). split; [apply mget_In; auto|].
    cbn [Nat.eqb negb]. destruct (Nat.eqb_spec r (seedRank s)); [contradiction|].
    rewrite Ej, Nat.eqb_refl. left. auto.
Qed.

End Local.
