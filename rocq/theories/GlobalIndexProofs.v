From Coq Require Import Arith List Bool Lia Sorted Permutation.
From Verif Require Import MpiModel MpiSpec MpiProofs MpiLemmas GlobalIndexModel GlobalIndexSpec.
Import ListNotations.

(* ----- maps ----- *)

Lemma mget_mset_eq : forall k v m, mget k (mset k v m) = Some v.
Proof.
  induction m as [|[k' v'] m IH]; cbn; [now rewrite Nat.eqb_refl|].
  destruct (Nat.eqb_spec k k'); cbn; [now rewrite Nat.eqb_refl|].
  destruct (Nat.eqb_spec k k'); [lia|auto].
Qed.

Lemma mget_mset_ne : forall k k' v m, k <> k' -> mget k (mset k' v m) = mget k m.
Proof.
  induction m as [|[k2 v2] m IH]; intros H; cbn.
  - destruct (Nat.eqb_spec k k'); [lia|reflexivity].
  - destruct (Nat.eqb_spec k' k2); cbn.
    + subst. destruct (Nat.eqb_spec k k2); [lia|reflexivity].
    + destruct (Nat.eqb_spec k k2); auto.
Qed.

Lemma mget_in : forall k m, (exists v, mget k m = Some v) <-> In k (map fst m).
Proof.
  induction m as [|[k' v'] m IH]; cbn.
  - split; [intros (v & H); discriminate|intros []].
  - destruct (Nat.eqb_spec k k').
    + subst. split; [auto|intros _; eauto].
    + rewrite IH. split; [auto|intros [H|H]; [congruence|auto]].
Qed.

Lemma mset_keys : forall k v m, NoDup (map fst m) -> NoDup (map fst (mset k v m)).
Proof.
  induction m as [|[k' v'] m IH]; intros H; cbn.
  - repeat constructor; auto.
  - inversion H; subst. destruct (Nat.eqb_spec k k'); cbn.
    + subst. constructor; auto.
    + constructor; auto. rewrite <- mget_in in *. intros (w & Hw).
      rewrite mget_mset_ne in Hw by auto. apply H2. eauto.
Qed.

(* ----- traces of the loops ----- *)

Lemma trace_receives : forall (fo : foreignOverlap) src es st ms,
  length ms = length (filter (expects fo src) es) ->
  trace (forEach es (fun e st => if expects fo src e
                 then Recv src (fun m => Ret (receiveBorderIndex fo st m))
                 else Ret st) st)
    (map (ERecv src) ms)
    (Ret (fold_left (receiveBorderIndex fo) ms st)).
Proof.
  intros fo src. induction es as [|e es IH]; intros st ms H.
  - destruct ms; [|discriminate]. cbn. constructor.
  - cbn [forEach filter] in *. destruct (expects fo src e).
    + destruct ms as [|m ms]; [discriminate|]. cbn [bind map fold_left].
      apply tr_recv. apply IH. cbn in H. lia.
    + cbn [bind]. apply IH. exact H.
Qed.

(** What rank [rank] sends to [peer] in [sendBorderTo]. *)
Definition sends (rank : nat) (fo : foreignOverlap) (peer : nat) (e : borderIndex) : bool :=
  Nat.eqb (peerRank e) peer && Nat.eqb (borderDistance e) 0 &&
  match nativeToLocal fo (localIdx e) with
  | Some l => Nat.eqb (masterRank fo l) rank
  | None => false
  end.

Definition outMsg (fo : foreignOverlap) (num : nat -> nat) (e : borderIndex) : gmsg :=
  MIndex (peerIdx e) (match nativeToLocal fo (localIdx e) with Some l => num l | None => 0 end).

Lemma trace_sends : forall rank fo peer (num : nat -> nat) st,
  (forall l, l < numLocal fo -> masterRank fo l = rank -> mget l (d2g st) = Some (num l)) ->
  forall es,
  (forall e, In e es -> borderDistance e = 0 ->
     exists l, nativeToLocal fo (localIdx e) = Some l /\ l < numLocal fo) ->
  trace (forEach es
    (fun e st =>
       if Nat.eqb (peerRank e) peer && Nat.eqb (borderDistance e) 0
       then match nativeToLocal fo (localIdx e) with
            | None => Ret (invalid st)
            | Some l =>
                if Nat.eqb (masterRank fo l) rank
                then match mget l (d2g st) with
                     | Some g => Send peer (MIndex (peerIdx e) g) (Ret st)
                     | None => Ret (invalid st)
                     end
                else Ret st
            end
       else Ret st) st)
    (map (fun e => ESend peer (outMsg fo num e)) (filter (sends rank fo peer) es))
    (Ret st).
Proof.
  intros rank fo peer num st Hst. induction es as [|e es IH]; intros Hes.
  - cbn. constructor.
  - cbn [forEach filter]. unfold sends at 1.
    destruct (Nat.eqb_spec (peerRank e) peer); cbn [andb];
      [|cbn [bind]; apply IH; intros; apply Hes; auto; right; auto].
    destruct (Nat.eqb_spec (borderDistance e) 0) as [Hd|Hd]; cbn [andb];
      [|cbn [bind]; apply IH; intros; apply Hes; auto; right; auto].
    destruct (Hes e (or_introl eq_refl) Hd) as (l & El & Hl).
    rewrite El. destruct (Nat.eqb_spec (masterRank fo l) rank) as [Em|Em].
    + rewrite (Hst l Hl Em). cbn [bind map]. unfold outMsg at 1. rewrite El.
      apply tr_send. apply IH. intros; apply Hes; auto; right; auto.
    + cbn [bind]. apply IH. intros; apply Hes; auto; right; auto.
Qed.

(** A loop over the peers with an event list for each. *)
Lemma trace_peers : forall A (S : Type) (qs : list A) (body : A -> S -> proc gmsg S)
    (evs : A -> list (@ev gmsg)) (st : list A -> S),
  (forall q pre post, qs = pre ++ q :: post ->
     trace (body q (st pre)) (evs q) (Ret (st (pre ++ [q])))) ->
  trace (forEach qs body (st [])) (flat_map evs qs) (Ret (st qs)).
Proof.
  intros A S qs body evs st H.
  assert (G : forall post pre, qs = pre ++ post ->
            trace (forEach post body (st pre)) (flat_map evs post) (Ret (st qs))).
  { induction post as [|q post IH]; intros pre E.
    - rewrite app_nil_r in E. subst. cbn. constructor.
    - cbn [forEach flat_map]. eapply trace_bind.
      + apply (H q pre post E).
      + apply IH. rewrite <- app_assoc. exact E. }
  apply (G qs []). reflexivity.
Qed.

(* ----- the numbering ----- *)

Section Numbering.
Variable N : nat.
Variable fo : nat -> foreignOverlap.
Variable dof : nat -> nat -> nat.
Hypothesis D : distributed N fo dof.

Let n p := numLocal (fo p).
Let mst p i := masterRank (fo p) i.
Let isM p i := Nat.eqb (masterRank (fo p) i) p.

Definition mcount (p i : nat) : nat := length (filter (isM p) (seq 0 i)).

Fixpoint offset (p : nat) : nat :=
  match p with 0 => 0 | S p' => offset p' + mcount p' (n p') end.

(** The number of a master index. *)
Definition mnum (p i : nat) : nat := offset p + mcount p i.

Definition hasb (p d : nat) : bool := existsb (fun i => Nat.eqb (dof p i) d) (seq 0 (n p)).

Lemma hasb_has : forall p d, hasb p d = true <-> has fo dof p d.
Proof.
  intros p d. unfold hasb, has. rewrite existsb_exists. split.
  - intros (i & Hi & E). apply in_seq in Hi. apply Nat.eqb_eq in E. exists i. split; [unfold n in *; lia|auto].
  - intros (i & Hi & E). exists i. split; [apply in_seq; unfold n in *; lia|]. apply Nat.eqb_eq; auto.
Qed.

Definition owner (d : nat) : nat :=
  match find (fun p => hasb p d) (seq 0 N) with Some p => p | None => 0 end.

Definition indexAt (p d : nat) : nat :=
  match find (fun i => Nat.eqb (dof p i) d) (seq 0 (n p)) with Some i => i | None => 0 end.

Definition number (d : nat) : nat := mnum (owner d) (indexAt (owner d) d).

Lemma find_seq_first : forall (f : nat -> bool) len b x, find f (seq b len) = Some x ->
  f x = true /\ b <= x < b + len /\ forall y, b <= y < x -> f y = false.
Proof.
  intros f. induction len; intros b x H; [discriminate|].
  cbn [seq find] in H. destruct (f b) eqn:E.
  - injection H as <-. split; [auto|]. split; [lia|]. intros; lia.
  - destruct (IHlen _ _ H) as (H1 & H2 & H3). split; [auto|]. split; [lia|].
    intros y Hy. destruct (Nat.eq_dec y b); [subst; auto|]. apply H3. lia.
Qed.

Lemma find_seq_none : forall (f : nat -> bool) len b, find f (seq b len) = None ->
  forall y, b <= y < b + len -> f y = false.
Proof.
  intros f len b H y Hy. apply (find_none _ _ H). apply in_seq. lia.
Qed.

Lemma owner_spec : forall p d, p < N -> has fo dof p d ->
  has fo dof (owner d) d /\ owner d <= p /\ forall q, q < owner d -> ~ has fo dof q d.
Proof.
  intros p d Hp Hd. unfold owner.
  destruct (find (fun p => hasb p d) (seq 0 N)) as [x|] eqn:E.
  - destruct (find_seq_first _ _ _ _ E) as (H1 & H2 & H3).
    apply hasb_has in H1. split; [auto|]. split.
    + destruct (le_lt_dec x p); [auto|]. apply hasb_has in Hd. rewrite H3 in Hd by lia. discriminate.
    + intros q Hq H. apply hasb_has in H. rewrite H3 in H by lia. discriminate.
  - apply hasb_has in Hd. rewrite (find_seq_none _ _ _ E) in Hd by lia. discriminate.
Qed.

Lemma indexAt_spec : forall p i, p < N -> i < n p -> indexAt p (dof p i) = i.
Proof.
  intros p i Hp Hi. unfold indexAt.
  destruct (find (fun i0 => Nat.eqb (dof p i0) (dof p i)) (seq 0 (n p))) as [x|] eqn:E.
  - destruct (find_seq_first _ _ _ _ E) as (H1 & H2 & H3). apply Nat.eqb_eq in H1.
    apply (di_dof _ _ _ D p); auto. unfold n in *. lia.
  - pose proof (find_seq_none _ _ _ E i ltac:(lia)) as H. cbn beta in H; rewrite Nat.eqb_refl in H. discriminate.
Qed.

Lemma owner_master : forall p i, p < N -> i < n p -> owner (dof p i) = mst p i.
Proof.
  intros p i Hp Hi.
  destruct (di_master _ _ _ D p i Hp Hi) as (H1 & H2 & H3).
  destruct (owner_spec p (dof p i) Hp) as (O1 & O2 & O3); [exists i; auto|].
  fold (mst p i) in *.
  destruct (Nat.lt_trichotomy (owner (dof p i)) (mst p i)) as [L|[L|L]]; auto.
  - exfalso. apply (H3 _ L). auto.
  - exfalso. apply (O3 _ L). auto.
Qed.

Lemma isM_owner : forall p i, p < N -> i < n p -> isM p i = true <-> owner (dof p i) = p.
Proof. intros p i Hp Hi. rewrite owner_master by auto. apply Nat.eqb_eq. Qed.

Lemma number_master : forall p i, p < N -> i < n p -> owner (dof p i) = p ->
  number (dof p i) = mnum p i.
Proof. intros p i Hp Hi E. unfold number. rewrite E, indexAt_spec by auto. reflexivity. Qed.

Lemma mcount_S : forall p i, mcount p (S i) = mcount p i + if isM p i then 1 else 0.
Proof.
  intros p i. unfold mcount. rewrite seq_S, filter_app, app_length. cbn.
  destruct (isM p i); cbn; lia.
Qed.

Lemma mcount_mono : forall p i j, i <= j -> mcount p i <= mcount p j.
Proof. induction 1; [lia|]. rewrite mcount_S. lia. Qed.

Lemma mcount_lt : forall p i j, i < j -> isM p i = true -> mcount p i < mcount p j.
Proof.
  intros p i j Hij Hm. pose proof (mcount_mono p (S i) j ltac:(lia)).
  rewrite mcount_S, Hm in H. lia.
Qed.

Lemma offset_mono : forall p q, p <= q -> offset p <= offset q.
Proof. induction 1; [lia|]. cbn. lia. Qed.

Lemma mnum_lt : forall p i q, i < n p -> isM p i = true -> p < q -> mnum p i < offset q.
Proof.
  intros p i q Hi Hm Hpq. unfold mnum.
  pose proof (mcount_lt p i (n p) Hi Hm).
  pose proof (offset_mono (S p) q Hpq). cbn in H0. lia.
Qed.

Lemma mnum_inj : forall p i q j, i < n p -> j < n q -> isM p i = true -> isM q j = true ->
  mnum p i = mnum q j -> p = q /\ i = j.
Proof.
  intros p i q j Hi Hj Mi Mj E.
  destruct (Nat.lt_trichotomy p q) as [L|[L|L]].
  - pose proof (mnum_lt p i q Hi Mi L). unfold mnum in *. lia.
  - subst q. split; [auto|]. unfold mnum in E.
    destruct (Nat.lt_trichotomy i j) as [K|[K|K]]; auto.
    + pose proof (mcount_lt p i j K Mi). lia.
    + pose proof (mcount_lt p j i K Mj). lia.
  - pose proof (mnum_lt q j p Hj Mj L). unfold mnum in *. lia.
Qed.

Lemma mcount_onto : forall p m k, k < mcount p m -> exists i, i < m /\ isM p i = true /\ mcount p i = k.
Proof.
  induction m; intros k H; [cbn in H; lia|].
  rewrite mcount_S in H. destruct (isM p m) eqn:E.
  - destruct (Nat.eq_dec k (mcount p m)).
    + subst. exists m. auto.
    + destruct (IHm k ltac:(lia)) as (i & H1 & H2 & H3). exists i. auto.
  - destruct (IHm k ltac:(lia)) as (i & H1 & H2 & H3). exists i. auto.
Qed.

Lemma offset_onto : forall m k, k < offset m ->
  exists p i, p < m /\ i < n p /\ isM p i = true /\ mnum p i = k.
Proof.
  induction m; intros k H; [cbn in H; lia|]. cbn in H.
  destruct (le_lt_dec (offset m) k).
  - destruct (mcount_onto m (n m) (k - offset m) ltac:(lia)) as (i & H1 & H2 & H3).
    exists m, i. unfold mnum. repeat split; auto. lia.
  - destruct (IHm k l) as (p & i & H1 & H2 & H3 & H4). exists p, i. auto.
Qed.

(** The index of a degree of freedom at its owner. *)
Lemma at_owner : forall p d, p < N -> has fo dof p d ->
  exists j, owner d < N /\ j < n (owner d) /\ dof (owner d) j = d
    /\ isM (owner d) j = true /\ number d = mnum (owner d) j.
Proof.
  intros p d Hp Hd. destruct (owner_spec p d Hp Hd) as ((j & Hj & Ej) & Ho & _).
  exists j. assert (HoN : owner d < N) by lia.
  assert (Eo : owner (dof (owner d) j) = owner d) by now rewrite Ej.
  split; [auto|]. split; [auto|]. split; [auto|]. split.
  - apply isM_owner; auto.
  - rewrite <- (number_master (owner d) j HoN Hj Eo). now rewrite Ej.
Qed.

Lemma numbering_ok : numbering N fo dof number (offset N).
Proof.
  split; [|split].
  - intros p d Hp Hd. destruct (at_owner p d Hp Hd) as (j & H1 & H2 & H3 & H4 & H5).
    rewrite H5. apply mnum_lt; auto.
  - intros p q d d' Hp Hq Hd Hd' E.
    destruct (at_owner p d Hp Hd) as (j & H1 & H2 & H3 & H4 & H5).
    destruct (at_owner q d' Hq Hd') as (j' & H1' & H2' & H3' & H4' & H5').
    rewrite H5, H5' in E. destruct (mnum_inj _ _ _ _ H2 H2' H4 H4' E) as [Eo Ej].
    rewrite <- H3, <- H3', Eo, Ej. reflexivity.
  - intros k Hk. destruct (offset_onto N k Hk) as (p & i & H1 & H2 & H3 & H4).
    exists p, (dof p i). split; [auto|]. split; [exists i; auto|].
    rewrite number_master; auto. apply isM_owner; auto.
Qed.

Lemma number_inj : forall p i j, p < N -> i < n p -> j < n p ->
  number (dof p i) = number (dof p j) -> i = j.
Proof.
  intros p i j Hp Hi Hj E. apply (di_dof _ _ _ D p); auto.
  destruct numbering_ok as (_ & Hinj & _).
  apply (Hinj p p); auto; eexists; eauto.
Qed.

(* ----- the maps of one process ----- *)

(** [good p ks st]: the maps hold exactly the local indices in [ks]. *)
Definition good (p : nat) (ks : nat -> Prop) (st : indices) : Prop :=
  valid st = true /\ NoDup (map fst (d2g st))
  /\ (forall i, mget i (d2g st) = Some (number (dof p i)) /\ ks i /\ i < n p
                \/ mget i (d2g st) = None /\ ~ ks i)
  /\ (forall g i, mget g (g2d st) = Some i <-> ks i /\ i < n p /\ g = number (dof p i)).

Lemma good_add : forall p ks st i, p < N -> i < n p -> good p ks st ->
  good p (fun j => ks j \/ j = i) (addIndex st i (number (dof p i))).
Proof.
  intros p ks st i Hp Hi (G1 & G2 & G3 & G4).
  split; [auto|]. split; [apply mset_keys; auto|]. split.
  - intros j. cbn [addIndex d2g]. destruct (Nat.eq_dec j i) as [->|Hne].
    + left. rewrite mget_mset_eq. auto.
    + rewrite mget_mset_ne by auto. destruct (G3 j) as [(A & B & C)|(A & B)].
      * left. auto.
      * right. split; [auto|]. intros [K|K]; auto.
  - intros g j. cbn [addIndex g2d].
    destruct (Nat.eq_dec g (number (dof p i))) as [->|Hne].
    + rewrite mget_mset_eq. split.
      * intros E. injection E as <-. auto.
      * intros (_ & Hj & E). f_equal. symmetry. eapply number_inj; eauto.
    + rewrite mget_mset_ne by auto. rewrite G4. split.
      * intros (A & B & C). auto.
      * intros (A & B & C). split; [|auto]. destruct A as [A|A]; [auto|]. subst. congruence.
Qed.

Lemma good_ext : forall p ks ks' st, (forall i, ks i <-> ks' i) -> good p ks st -> good p ks' st.
Proof.
  intros p ks ks' st H (G1 & G2 & G3 & G4). split; [auto|]. split; [auto|]. split.
  - intros i. specialize (G3 i). rewrite (H i) in G3. exact G3.
  - intros g i. rewrite G4, (H i). reflexivity.
Qed.

Lemma good_none : forall p, good p (fun _ => False) noIndices.
Proof.
  intros p. split; [reflexivity|]. split; [constructor|]. split.
  - intros i. right. auto.
  - intros g i. cbn. split; [discriminate|intros ([] & _)].
Qed.

Lemma addMasters_spec : forall p, p < N ->
  let (st, num) := addMasters p (fo p) (offset p) in
  num = mcount p (n p) /\ good p (fun i => i < n p /\ isM p i = true) st.
Proof.
  intros p Hp. unfold addMasters.
  assert (G : forall m, m <= n p ->
    let (st, num) := fold_left (fun (acc : indices * nat) i =>
        let (st, numMaster) := acc in
        if Nat.eqb (masterRank (fo p) i) p
        then (addIndex st i (offset p + numMaster), S numMaster) else acc)
      (seq 0 m) (noIndices, 0) in
    num = mcount p m /\ good p (fun i => i < m /\ isM p i = true) st).
  { induction m; intros Hm.
    - cbn. split; [reflexivity|]. eapply good_ext; [|apply good_none]. intros i. cbn. lia.
    - rewrite seq_S, fold_left_app. cbn [fold_left Nat.add].
      destruct (fold_left _ (seq 0 m) (noIndices, 0)) as [st num].
      destruct (IHm ltac:(lia)) as [E G].
      rewrite mcount_S. fold (isM p m). destruct (isM p m) eqn:Em.
      + split; [lia|]. subst num.
        replace (offset p + mcount p m) with (number (dof p m)).
        * eapply good_ext; [|apply good_add; [auto|lia|exact G]].
          intros i. cbn. split.
          -- intros [[A B]|A]; [split; [lia|auto]|subst; auto].
          -- intros [A B]. destruct (Nat.eq_dec i m); [auto|left; split; [lia|auto]].
        * rewrite number_master; auto. apply isM_owner; auto.
      + split; [lia|]. eapply good_ext; [|exact G].
        intros i. cbn. split; [intros [A B]; split; [lia|auto]|].
        intros [A B]. split; [|auto]. destruct (Nat.eq_dec i m); [congruence|lia]. }
  apply (G (n p)). auto.
Qed.

(* ----- the messages ----- *)

(** What rank p sends to rank q. *)
Definition out (p q : nat) : list gmsg :=
  map (outMsg (fo p) (mnum p)) (filter (sends p (fo p) q) (borderList (fo p))).

Lemma sends_spec : forall p q e, p < N -> In e (borderList (fo p)) -> sends p (fo p) q e = true ->
  exists i j, nativeToLocal (fo p) (localIdx e) = Some i /\ i < n p /\ q < N /\ q <> p
    /\ peerRank e = q /\ borderDistance e = 0
    /\ nativeToLocal (fo q) (peerIdx e) = Some j /\ j < n q /\ dof p i = dof q j
    /\ mst p i = p.
Proof.
  intros p q e Hp He Hs. unfold sends in Hs.
  apply andb_prop in Hs. destruct Hs as [Hs Hm]. apply andb_prop in Hs. destruct Hs as [Hq Hd].
  apply Nat.eqb_eq in Hq. apply Nat.eqb_eq in Hd. subst q.
  destruct (bk_true _ _ _ (di_border _ _ _ D) p e Hp He Hd) as (i & j & H1 & H2 & H3 & H4 & H5 & H6 & H7).
  rewrite H1 in Hm. apply Nat.eqb_eq in Hm.
  exists i, j. repeat split; auto.
Qed.

(** Nothing is sent to a lower rank. *)
Lemma out_up : forall p q, p < N -> q <= p -> filter (sends p (fo p) q) (borderList (fo p)) = [].
Proof.
  intros p q Hp Hq.
  destruct (filter (sends p (fo p) q) (borderList (fo p))) as [|e es] eqn:E; [reflexivity|].
  assert (He : In e (filter (sends p (fo p) q) (borderList (fo p)))) by (rewrite E; left; auto).
  apply filter_In in He. destruct He as [He Hs].
  destruct (sends_spec p q e Hp He Hs) as (i & j & H1 & H2 & H3 & H4 & _ & _ & H5 & H6 & H7 & H8).
  destruct (di_master _ _ _ D p i Hp H2) as (_ & _ & M). fold (mst p i) in M. rewrite H8 in M.
  exfalso. apply (M q ltac:(lia)). exists j. auto.
Qed.

Lemma expects_spec : forall p q e, q < N -> In e (borderList (fo q)) -> expects (fo q) p e = true ->
  exists i j, nativeToLocal (fo q) (localIdx e) = Some j /\ j < n q /\ p < N /\ p <> q
    /\ peerRank e = p /\ borderDistance e = 0
    /\ i < n p /\ dof p i = dof q j /\ mst q j = p.
Proof.
  intros p q e Hq He Hs. unfold expects in Hs.
  apply andb_prop in Hs. destruct Hs as [Hs Hm]. apply andb_prop in Hs. destruct Hs as [Hr Hd].
  apply Nat.eqb_eq in Hr. apply Nat.eqb_eq in Hd. subst p.
  destruct (bk_true _ _ _ (di_border _ _ _ D) q e Hq He Hd) as (j & i & H1 & H2 & H3 & H4 & H5 & H6 & H7).
  rewrite H1 in Hm. apply Nat.eqb_eq in Hm.
  exists i, j. repeat split; auto.
Qed.

Lemma expects_down : forall p q, q < N -> q <= p -> filter (expects (fo q) p) (borderList (fo q)) = [].
Proof.
  intros p q Hq Hp.
  destruct (filter (expects (fo q) p) (borderList (fo q))) as [|e es] eqn:E; [reflexivity|].
  assert (He : In e (filter (expects (fo q) p) (borderList (fo q)))) by (rewrite E; left; auto).
  apply filter_In in He. destruct He as [He Hs].
  destruct (expects_spec p q e Hq He Hs) as (i & j & H1 & H2 & H3 & H4 & _ & _ & H5 & H6 & H7).
  destruct (di_master _ _ _ D q j Hq H2) as (M & _ & _). fold (mst q j) in M. lia.
Qed.

Lemma master_same : forall p q i j, p < N -> q < N -> i < n p -> j < n q ->
  dof p i = dof q j -> mst p i = mst q j.
Proof.
  intros p q i j Hp Hq Hi Hj E. rewrite <- !owner_master by auto. now rewrite E.
Qed.

(** The local index behind an entry. *)
Definition loc (p : nat) (e : borderIndex) : nat :=
  match nativeToLocal (fo p) (localIdx e) with Some i => i | None => 0 end.

Lemma NoDup_filter_dofs : forall p q (f : borderIndex -> bool), p < N ->
  (forall e, In e (borderList (fo p)) -> f e = true ->
     borderDistance e = 0 /\ peerRank e = q) ->
  NoDup (map (fun e => dof p (loc p e)) (filter f (borderList (fo p)))).
Proof.
  intros p q f Hp Hf.
  assert (Hall : forall e, In e (borderList (fo p)) -> f e = true ->
            exists i, nativeToLocal (fo p) (localIdx e) = Some i /\ i < n p).
  { intros e He Hfe. destruct (Hf e He Hfe) as [Hd _].
    destruct (bk_true _ _ _ (di_border _ _ _ D) p e Hp He Hd) as (i & j & H1 & H2 & _).
    exists i. auto. }
  pose proof (bk_once _ _ _ (di_border _ _ _ D) p Hp) as Honce.
  revert Hf Hall Honce. generalize (borderList (fo p)).
  induction l as [|e es IH]; intros Hf Hall Honce; [constructor|].
  cbn [filter]. destruct (f e) eqn:Ef.
  - destruct (Hf e (or_introl eq_refl) Ef) as [Hd Hq].
    cbn [filter map] in Honce. rewrite Hd in Honce. cbn [Nat.eqb map] in Honce.
    inversion Honce as [|? ? Hn Ho]; subst. cbn [map]. constructor.
    + intros Hi. apply in_map_iff in Hi. destruct Hi as (e' & E & He').
      apply filter_In in He'. destruct He' as [He' Hfe'].
      destruct (Hall e (or_introl eq_refl) Ef) as (i & Ei & Hi).
      destruct (Hall e' (or_intror He') Hfe') as (i' & Ei' & Hi').
      unfold loc in E. rewrite Ei, Ei' in E.
      assert (i = i') by (apply (di_dof _ _ _ D p); auto). subst i'.
      pose proof (di_native _ _ _ D p _ _ _ Hp Ei Ei') as En.
      apply Hn. apply in_map_iff. exists e'. destruct (Hf e' (or_intror He') Hfe') as [Hd' Hq'].
      split; [congruence|]. apply filter_In. split; [auto|]. rewrite Hd'. reflexivity.
    + apply IH; auto; intros; [apply Hf|apply Hall]; auto; right; auto.
  - apply IH; auto.
    + intros; apply Hf; auto; right; auto.
    + intros; apply Hall; auto; right; auto.
    + cbn [filter] in Honce. destruct (Nat.eqb (borderDistance e) 0); [|auto].
      cbn [map] in Honce. inversion Honce; auto.
Qed.

(** As many messages are sent as are received. *)
Lemma balanced : forall p q, p < N -> q < N -> p <> q ->
  length (out p q) = length (filter (expects (fo q) p) (borderList (fo q))).
Proof.
  intros p q Hp Hq Hpq. unfold out. rewrite map_length.
  rewrite <- (map_length (fun e => dof p (loc p e)) (filter (sends p (fo p) q) (borderList (fo p)))).
  rewrite <- (map_length (fun e => dof q (loc q e)) (filter (expects (fo q) p) (borderList (fo q)))).
  apply Permutation_length. apply NoDup_Permutation.
  - apply (NoDup_filter_dofs p q); auto. intros e He Hs.
    destruct (sends_spec p q e Hp He Hs) as (i & j & H1 & H2 & H3 & H4 & H5 & H6 & _). auto.
  - apply (NoDup_filter_dofs q p); auto. intros e He Hs.
    destruct (expects_spec p q e Hq He Hs) as (i & j & H1 & H2 & H3 & H4 & H5 & H6 & _). auto.
  - intros d. rewrite !in_map_iff. split.
    + intros (e & E & He). apply filter_In in He. destruct He as [He Hs].
      destruct (sends_spec p q e Hp He Hs) as (i & j & H1 & H2 & H3 & H4 & H5 & H6 & H7 & H8 & H9 & H10).
      destruct (bk_complete _ _ _ (di_border _ _ _ D) q p j Hq Hp ltac:(auto) H8) as (e' & K1 & K2 & K3 & K4).
      { exists i. auto. }
      exists e'. split.
      * unfold loc in *. rewrite K4. rewrite H1 in E. congruence.
      * apply filter_In. split; [auto|]. unfold expects. rewrite K3, K2, K4, !Nat.eqb_refl.
        cbn. apply Nat.eqb_eq. fold (mst q j). rewrite <- (master_same p q i j); auto.
    + intros (e & E & He). apply filter_In in He. destruct He as [He Hs].
      destruct (expects_spec p q e Hq He Hs) as (i & j & H1 & H2 & H3 & H4 & H5 & H6 & H7 & H8 & H9).
      destruct (bk_complete _ _ _ (di_border _ _ _ D) p q i Hp Hq ltac:(auto) H7) as (e' & K1 & K2 & K3 & K4).
      { exists j. auto. }
      exists e'. split.
      * unfold loc in *. rewrite K4. rewrite H1 in E. congruence.
      * apply filter_In. split; [auto|]. unfold sends. rewrite K3, K2, K4, !Nat.eqb_refl.
        cbn. apply Nat.eqb_eq. fold (mst p i). rewrite (master_same p q i j); auto.
Qed.

(** What arrives at rank q is right ... *)
Lemma out_good : forall p q ks st ms, p < N -> q < N ->
  (forall m, In m ms -> In m (out p q)) -> good q ks st ->
  good q (fun j => ks j \/ exists m, In m ms /\ exists g, m = MIndex (fst g) (snd g)
                           /\ nativeToLocal (fo q) (fst g) = Some j)
    (fold_left (receiveBorderIndex (fo q)) ms st).
Proof.
  intros p q ks st ms Hp Hq. revert ks st.
  induction ms as [|m ms IH]; intros ks st Hms G.
  - cbn. eapply good_ext; [|exact G]. intros i. split; [auto|].
    intros [H|(m & [] & _)]. auto.
  - cbn [fold_left].
    assert (Hm : In m (out p q)) by (apply Hms; left; auto).
    unfold out in Hm. apply in_map_iff in Hm. destruct Hm as (e & Em & He).
    apply filter_In in He. destruct He as [He Hs].
    destruct (sends_spec p q e Hp He Hs) as (i & j & H1 & H2 & H3 & H4 & H5 & H6 & H7 & H8 & H9 & H10).
    assert (Eg : receiveBorderIndex (fo q) st m = addIndex st j (number (dof q j))).
    { rewrite <- Em. unfold outMsg, receiveBorderIndex. rewrite H1, H7. f_equal.
      rewrite <- H9. symmetry. apply number_master; auto. rewrite owner_master; auto. }
    rewrite Eg.
    eapply good_ext; [|apply (IH (fun x => ks x \/ x = j))].
    + intros x. cbn. split.
      * intros [[K|K]|(m' & K1 & K2)].
        -- auto.
        -- subst x. right. exists m. split; [auto|].
           exists (peerIdx e, mnum p i). cbn. rewrite <- Em. unfold outMsg. rewrite H1. auto.
        -- right. exists m'. auto.
      * intros [K|(m' & [K1|K1] & K2)].
        -- auto.
        -- subst m'. destruct K2 as (g & K2 & K3). left. right.
           rewrite <- Em in K2. unfold outMsg in K2. injection K2 as K2 _.
           rewrite <- K2, H7 in K3. congruence.
        -- right. exists m'. auto.
    + intros m' Hm'. apply Hms. right; auto.
    + apply good_add; auto.
Qed.

(** ... and everything arrives. *)
Lemma out_complete : forall q j, q < N -> j < n q -> mst q j <> q ->
  exists m g, In m (out (mst q j) q) /\ m = MIndex (fst g) (snd g)
    /\ nativeToLocal (fo q) (fst g) = Some j /\ mst q j < q /\ In (mst q j) (peerSet (fo q)).
Proof.
  intros q j Hq Hj Hne.
  destruct (di_master _ _ _ D q j Hq Hj) as (M1 & (i & Hi & Ei) & _). fold (mst q j) in *.
  set (p := mst q j) in *. assert (Hp : p < N) by lia.
  destruct (bk_complete _ _ _ (di_border _ _ _ D) p q i Hp Hq ltac:(auto) Hi) as (e & K1 & K2 & K3 & K4).
  { exists j. auto. }
  destruct (bk_complete _ _ _ (di_border _ _ _ D) q p j Hq Hp ltac:(auto) Hj) as (e' & L1 & L2 & L3 & L4).
  { exists i. auto. }
  assert (Hs : sends p (fo p) q e = true).
  { unfold sends. rewrite K3, K2, K4, !Nat.eqb_refl. cbn. apply Nat.eqb_eq.
    fold (mst p i). rewrite (master_same p q i j); auto. }
  destruct (sends_spec p q e Hp K1 Hs) as (i' & j' & H1 & H2 & H3 & H4 & H5 & H6 & H7 & H8 & H9 & H10).
  rewrite K4 in H1. injection H1 as <-.
  assert (j' = j) by (apply (di_dof _ _ _ D q); auto; congruence). subst j'.
  exists (outMsg (fo p) (mnum p) e), (peerIdx e, mnum p i). repeat split.
  - unfold out. apply in_map. apply filter_In. auto.
  - unfold outMsg. rewrite K4. reflexivity.
  - exact H7.
  - lia.
  - rewrite <- L3. apply (di_peers _ _ _ D q e'); auto.
Qed.


(* ----- the whole program ----- *)

Lemma flat_map_sorted : forall (A : Type) (f : nat -> list A) len b l,
  StronglySorted lt l -> (forall x, In x l -> b <= x < b + len) ->
  (forall x, b <= x < b + len -> ~ In x l -> f x = []) ->
  flat_map f l = flat_map f (seq b len).
Proof.
  intros A f. induction len as [|len IH]; intros b l Hs Hr Hf.
  - destruct l as [|x l]; [reflexivity|]. specialize (Hr x (or_introl eq_refl)). lia.
  - cbn [seq flat_map]. destruct l as [|x l].
    + rewrite (Hf b ltac:(lia) (fun K => K)). cbn [app]. apply (IH (S b) []); auto.
      * intros x [].
      * intros x Hx Hn. apply Hf; [lia|auto].
    + apply StronglySorted_inv in Hs. destruct Hs as [Hs Hx].
      rewrite Forall_forall in Hx.
      pose proof (Hr x (or_introl eq_refl)) as Rx.
      destruct (Nat.eq_dec x b) as [->|Hne].
      * cbn [flat_map]. f_equal. apply IH; auto.
        -- intros y Hy. specialize (Hx y Hy). specialize (Hr y (or_intror Hy)). lia.
        -- intros y Hy Hn. apply Hf; [lia|]. intros [K|K]; [lia|auto].
      * rewrite (Hf b).
        -- cbn [app]. apply IH.
           ++ constructor; [auto|]. rewrite Forall_forall. auto.
           ++ intros y [Hy|Hy]; [subst y; lia|].
              specialize (Hx y Hy). specialize (Hr y (or_intror Hy)). lia.
           ++ intros y Hy Hn. apply Hf; [lia|auto].
        -- lia.
        -- intros [K|K]; [lia|]. specialize (Hx b K). lia.
Qed.

Lemma out_peers : forall p q, p < N -> q < N -> ~ In q (peerSet (fo p)) -> out p q = [].
Proof.
  intros p q Hp Hq Hn. unfold out.
  destruct (filter (sends p (fo p) q) (borderList (fo p))) as [|e es] eqn:E; [reflexivity|].
  assert (He : In e (filter (sends p (fo p) q) (borderList (fo p)))) by (rewrite E; left; auto).
  apply filter_In in He. destruct He as [He Hs].
  destruct (sends_spec p q e Hp He Hs) as (i & j & H1 & H2 & H3 & H4 & H5 & H6 & _).
  exfalso. apply Hn. rewrite <- H5. apply (di_peers _ _ _ D p e); auto.
Qed.

Lemma in_peers : forall p q, p < N -> q < N -> p <> q -> ~ In p (peerSet (fo q)) -> out p q = [].
Proof.
  intros p q Hp Hq Hpq Hn. pose proof (balanced p q Hp Hq Hpq) as B.
  destruct (filter (expects (fo q) p) (borderList (fo q))) as [|e es] eqn:E.
  - destruct (out p q); [reflexivity|discriminate].
  - exfalso. assert (He : In e (filter (expects (fo q) p) (borderList (fo q)))) by (rewrite E; left; auto).
    apply filter_In in He. destruct He as [He Hs].
    destruct (expects_spec p q e Hq He Hs) as (i & j & H1 & H2 & H3 & H4 & H5 & H6 & _).
    apply Hn. rewrite <- H5. apply (di_peers _ _ _ D q e); auto.
Qed.

Lemma out_nil : forall p q, p < N -> q <= p -> out p q = [].
Proof. intros p q Hp Hq. unfold out. rewrite out_up by auto. reflexivity. Qed.

Definition chain (m : nat) : list (nat * nat * gmsg) :=
  map (fun p => (p, S p, MOffset (offset (S p)))) (seq 0 m).

Definition ups : list (nat * nat * gmsg) :=
  flat_map (fun p => flat_map (fun q => map (fun m => (p, q, m)) (out p q)) (seq 0 N)) (seq 0 N).

Lemma proj_chain : forall r m, proj r (chain m) =
  (if (0 <? r) && (r <=? m) then [ERecv (r - 1) (MOffset (offset r))] else []) ++
  (if r <? m then [ESend (S r) (MOffset (offset (S r)))] else []).
Proof.
  intros r. induction m as [|m IH].
  - cbn [chain seq map proj flat_map].
    destruct (Nat.ltb_spec 0 r); destruct (Nat.leb_spec r 0); destruct (Nat.ltb_spec r 0); try lia; reflexivity.
  - unfold chain in *. rewrite seq_S, map_app, proj_app, IH. cbn [Nat.add map].
    unfold proj at 1. cbn [flat_map]. rewrite app_nil_r.
    destruct (Nat.eqb_spec m r) as [E1|E1]; destruct (Nat.eqb_spec (S m) r) as [E2|E2];
    destruct (Nat.ltb_spec 0 r); destruct (Nat.leb_spec r m); destruct (Nat.leb_spec r (S m));
    destruct (Nat.ltb_spec r m); destruct (Nat.ltb_spec r (S m)); try lia; cbn [andb app]; try reflexivity.
    + subst. reflexivity.
    + subst. reflexivity.
    + subst r. cbn [Nat.sub]. rewrite Nat.sub_0_r. reflexivity.
Qed.

Lemma proj_flat_map : forall (A : Type) r (f : A -> list (nat * nat * gmsg)) l,
  proj r (flat_map f l) = flat_map (fun x => proj r (f x)) l.
Proof.
  intros A r f. induction l as [|x l IH]; [reflexivity|].
  cbn [flat_map]. rewrite proj_app, IH. reflexivity.
Qed.

Lemma proj_msgs : forall r p q (ms : list gmsg), p <> q -> proj r (map (fun m => (p, q, m)) ms) =
  (if Nat.eqb p r then map (ESend q) ms else []) ++ (if Nat.eqb q r then map (ERecv p) ms else []).
Proof.
  intros r p q ms H. induction ms as [|m ms IH].
  - cbn. destruct (Nat.eqb p r), (Nat.eqb q r); reflexivity.
  - cbn [map]. unfold proj in *. cbn [flat_map]. rewrite IH.
    destruct (Nat.eqb_spec p r); destruct (Nat.eqb_spec q r); try lia; cbn; auto.
Qed.

Lemma flat_map_nil : forall (A B : Type) (f : A -> list B) l, (forall x, In x l -> f x = []) -> flat_map f l = [].
Proof.
  intros A B f. induction l as [|x l IH]; intros H; [reflexivity|]. cbn.
  rewrite H by (left; auto). apply IH. intros; apply H; right; auto.
Qed.

Lemma flat_map_ext_in' : forall (A B : Type) (f g : A -> list B) l,
  (forall x, In x l -> f x = g x) -> flat_map f l = flat_map g l.
Proof.
  intros A B f g. induction l as [|x l IH]; intros H; [reflexivity|]. cbn.
  rewrite H by (left; auto). f_equal. apply IH. intros; apply H; right; auto.
Qed.

Lemma flat_map_only : forall (B : Type) (f : nat -> list B) r m, r < m ->
  (forall x, x < m -> x <> r -> f x = []) -> flat_map f (seq 0 m) = f r.
Proof.
  intros B f r m Hr H. replace m with (r + (1 + (m - S r))) by lia.
  rewrite !seq_app, !flat_map_app. cbn [seq flat_map Nat.add].
  rewrite (flat_map_nil _ _ f (seq 0 r)), (flat_map_nil _ _ f (seq (r + 1) (m - S r))).
  - rewrite !app_nil_r. reflexivity.
  - intros x Hx. apply in_seq in Hx. apply H; lia.
  - intros x Hx. apply in_seq in Hx. apply H; lia.
Qed.

Definition receivedEvs (r : nat) (q : nat) : list (@ev gmsg) :=
  if q <? r then map (ERecv q) (out q r) else [].
Definition sentEvs (r : nat) (q : nat) : list (@ev gmsg) :=
  if r <? q then map (ESend q) (out r q) else [].

Lemma proj_ups : forall r, r < N ->
  proj r ups = flat_map (receivedEvs r) (seq 0 N) ++ flat_map (sentEvs r) (seq 0 N).
Proof.
  intros r Hr. unfold ups. rewrite proj_flat_map.
  assert (E : forall p, p < N ->
    proj r (flat_map (fun q => map (fun m => (p, q, m)) (out p q)) (seq 0 N)) =
    if Nat.eqb p r then flat_map (sentEvs r) (seq 0 N) else receivedEvs r p).
  { intros p Hp. rewrite proj_flat_map. destruct (Nat.eqb_spec p r) as [->|Hne].
    - apply flat_map_ext_in'. intros q Hq. apply in_seq in Hq. unfold sentEvs.
      destruct (Nat.ltb_spec r q).
      + rewrite proj_msgs by lia. rewrite Nat.eqb_refl.
        destruct (Nat.eqb_spec q r); [lia|]. apply app_nil_r.
      + rewrite out_nil by lia. reflexivity.
    - rewrite (flat_map_only _ _ r N Hr).
      + unfold receivedEvs. destruct (Nat.ltb_spec p r).
        * rewrite proj_msgs by lia. rewrite Nat.eqb_refl. destruct (Nat.eqb_spec p r); [lia|reflexivity].
        * rewrite out_nil by lia. reflexivity.
      + intros q Hq Hqr. destruct (le_lt_dec q p).
        * rewrite out_nil by lia. reflexivity.
        * rewrite proj_msgs by lia. destruct (Nat.eqb_spec p r); [lia|].
          destruct (Nat.eqb_spec q r); [lia|reflexivity]. }
  rewrite (flat_map_ext_in' _ _ _ (fun p => if Nat.eqb p r then flat_map (sentEvs r) (seq 0 N) else receivedEvs r p)).
  2:{ intros p Hp. apply in_seq in Hp. apply E. lia. }
  set (X := flat_map (sentEvs r) (seq 0 N)). clearbody X.
  replace (seq 0 N) with (seq 0 (r + (1 + (N - S r)))) by (f_equal; lia).
  rewrite !seq_app, !flat_map_app. cbn [seq flat_map Nat.add]. rewrite Nat.eqb_refl, !app_nil_r.
  rewrite (flat_map_ext_in' _ _ _ (receivedEvs r) (seq 0 r)).
  2:{ intros p Hp. apply in_seq in Hp. destruct (Nat.eqb_spec p r); [lia|reflexivity]. }
  rewrite (flat_map_nil _ _ (receivedEvs r) (seq (r + 1) (N - S r))).
  2:{ intros p Hp. apply in_seq in Hp. unfold receivedEvs. destruct (Nat.ltb_spec p r); [lia|reflexivity]. }
  rewrite (flat_map_nil _ _ _ (seq (r + 1) (N - S r))).
  2:{ intros p Hp. apply in_seq in Hp. destruct (Nat.eqb_spec p r); [lia|]. unfold receivedEvs. destruct (Nat.ltb_spec p r); [lia|reflexivity]. }
  assert (Er : receivedEvs r r = []) by (unfold receivedEvs; now rewrite Nat.ltb_irrefl).
  rewrite Er, !app_nil_r. reflexivity.
Qed.

Definition afterReceive (r : nat) (st : indices) (qs : list nat) : indices :=
  fold_left (fun st q => if q <? r then fold_left (receiveBorderIndex (fo r)) (out q r) st else st) qs st.

Definition final (r : nat) : indices :=
  afterReceive r (fst (addMasters r (fo r) (offset r))) (peerSet (fo r)).

Lemma afterReceive_good : forall r st ks qs, r < N -> (forall q, In q qs -> q < N) ->
  good r ks st ->
  good r (fun j => ks j \/ exists q m g, In q qs /\ q < r /\ In m (out q r)
              /\ m = MIndex (fst g) (snd g) /\ nativeToLocal (fo r) (fst g) = Some j)
    (afterReceive r st qs).
Proof.
  intros r st ks qs Hr. revert st ks. induction qs as [|q qs IH]; intros st ks Hq G.
  - cbn. eapply good_ext; [|exact G]. intros j. split; [auto|].
    intros [H|(q & m & g & [] & _)]; auto.
  - unfold afterReceive. cbn [fold_left]. fold (afterReceive r (if q <? r then fold_left (receiveBorderIndex (fo r)) (out q r) st else st) qs).
    destruct (Nat.ltb_spec q r) as [L|L].
    + pose proof (out_good q r ks st (out q r) (Hq q (or_introl eq_refl)) Hr (fun m H => H) G) as G'.
      eapply good_ext; [|apply (IH _ _ (fun x H => Hq x (or_intror H)) G')].
      intros j. cbn beta. split.
      * intros [[H|(m & H1 & g & H2 & H3)]|(q' & m & g & H1 & H2 & H3 & H4 & H5)].
        -- auto.
        -- right. exists q, m, g. cbn. auto.
        -- right. exists q', m, g. cbn. auto.
      * intros [H|(q' & m & g & [H1|H1] & H2 & H3 & H4 & H5)].
        -- auto.
        -- subst q'. left. right. exists m. split; [auto|]. exists g. auto.
        -- right. exists q', m, g. auto.
    + eapply good_ext; [|apply (IH _ _ (fun x H => Hq x (or_intror H)) G)].
      intros j. cbn beta. split.
      * intros [H|(q' & m & g & H1 & H2)]; [auto|]. right. exists q', m, g. cbn. tauto.
      * intros [H|(q' & m & g & [H1|H1] & H2 & H3)]; [auto|lia|]. right. exists q', m, g. tauto.
Qed.

Lemma masters_good : forall r, r < N ->
  good r (fun i => i < n r /\ isM r i = true) (fst (addMasters r (fo r) (offset r)))
  /\ snd (addMasters r (fo r) (offset r)) = mcount r (n r).
Proof.
  intros r Hr. pose proof (addMasters_spec r Hr) as H.
  destruct (addMasters r (fo r) (offset r)) as [st num]. destruct H. cbn. auto.
Qed.

Lemma final_good : forall r, r < N -> good r (fun i => i < n r) (final r).
Proof.
  intros r Hr. unfold final.
  pose proof (afterReceive_good r _ _ (peerSet (fo r)) Hr
     (fun q H => di_peer_range _ _ _ D r q Hr H) (proj1 (masters_good r Hr))) as G.
  eapply good_ext; [|exact G]. intros j. cbn beta. split.
  - intros [[H _]|(q & m & g & H1 & H2 & H3 & H4 & H5)]; [auto|].
    unfold out in H3. apply in_map_iff in H3. destruct H3 as (e & Em & He).
    apply filter_In in He. destruct He as [He Hs].
    destruct (sends_spec q r e ltac:(lia) He Hs) as (i & j' & K1 & K2 & K3 & K4 & K5 & K6 & K7 & K8 & K9 & K10).
    rewrite <- Em in H4. unfold outMsg in H4. injection H4 as H4 _. rewrite <- H4, K7 in H5.
    injection H5 as <-. auto.
  - intros Hj. destruct (isM r j) eqn:E; [auto|]. right.
    destruct (out_complete r j Hr Hj) as (m & g & H1 & H2 & H3 & H4 & H5).
    { apply Nat.eqb_neq. exact E. }
    exists (mst r j), m, g. auto.
Qed.

Lemma final_maps : forall r, r < N -> mapsTo fo dof number r (final r).
Proof.
  intros r Hr. destruct (final_good r Hr) as (G1 & G2 & G3 & G4).
  split; [auto|]. split.
  - unfold numDomestic. rewrite <- (map_length fst). rewrite <- (seq_length (numLocal (fo r)) 0).
    apply Permutation_length. apply NoDup_Permutation; [auto|apply seq_NoDup|].
    intros i. rewrite <- mget_in, in_seq. destruct (G3 i) as [(A & B & C)|(A & B)]; rewrite A; unfold n in *.
    + split; [lia|eauto].
    + split; [intros (v & K); discriminate|lia].
  - split; [|split].
    + intros i Hi. unfold domesticToGlobal. destruct (G3 i) as [(A & B & C)|(A & B)]; [auto|].
      exfalso; apply B; auto.
    + intros i Hi. unfold domesticToGlobal. destruct (G3 i) as [(A & B & C)|(A & B)]; [unfold n in *; lia|auto].
    + intros g i. unfold globalToDomestic. rewrite G4. unfold n. tauto.
Qed.

Lemma trace_whole : forall r, r < N ->
  trace (buildGlobalIndices r N (fo r)) (proj r (chain (N - 1) ++ ups)) (Ret (final r)).
Proof.
  intros r Hr. rewrite proj_app, proj_chain, proj_ups by auto. rewrite <- app_assoc.
  destruct (masters_good r Hr) as [Gm En].
  unfold buildGlobalIndices.
  apply (trace_bind _ _ _ _ (Some (offset r))).
  { destruct (Nat.eqb_spec r 0) as [->|Hne].
    - cbn. constructor.
    - destruct (Nat.ltb_spec 0 r); [|lia]. destruct (Nat.leb_spec r (N - 1)); [|lia]. cbn [andb].
      apply tr_recv. constructor. }
  unfold final. destruct (addMasters r (fo r) (offset r)) as [st num]. cbn [fst snd] in *.
  set (ps := peerSet (fo r)) in *.
  assert (Hps : forall q, In q ps -> q < N) by (intros q; apply (di_peer_range _ _ _ D r q Hr)).
  assert (Hpeers : forall (f : nat -> list (@ev gmsg)), (forall q, q < N -> ~ In q ps -> f q = []) ->
            flat_map f (seq 0 N) = flat_map f ps).
  { intros f Hf. symmetry. apply flat_map_sorted.
    - apply (di_sorted _ _ _ D r Hr).
    - intros q Hq. specialize (Hps q Hq). lia.
    - intros q Hq Hn. apply Hf; [lia|auto]. }
  rewrite (Hpeers (receivedEvs r)).
  2:{ intros q Hq Hn. unfold receivedEvs. destruct (Nat.ltb_spec q r); [|reflexivity].
      rewrite in_peers by (auto; lia). reflexivity. }
  rewrite (Hpeers (sentEvs r)).
  2:{ intros q Hq Hn. unfold sentEvs. destruct (Nat.ltb_spec r q); [|reflexivity].
      rewrite out_peers by (auto; lia). reflexivity. }
  eapply trace_bind with (r := tt).
  { destruct (r <? N - 1); [|constructor]. rewrite En. cbn [offset]. apply tr_send. constructor. }
  eapply trace_bind.
  { apply (trace_peers _ _ ps _ (receivedEvs r) (afterReceive r st)).
    intros q pre post E.
    assert (Hq : q < N) by (apply Hps; rewrite E; apply in_or_app; right; left; auto).
    unfold afterReceive. rewrite fold_left_app. cbn [fold_left]. unfold receivedEvs.
    destruct (Nat.ltb_spec q r); [|constructor].
    unfold receiveBorderFrom. apply trace_receives. apply balanced; auto. lia. }
  fold ps in Gm.
  pose proof (final_good r Hr) as Gf. unfold final in Gf. fold ps in Gf.
  assert (Est : st = fst (addMasters r (fo r) (offset r)) -> True) by auto. clear Est.
  set (st1 := afterReceive r st ps) in *.
  assert (Hb : forall e, In e (borderList (fo r)) -> borderDistance e = 0 ->
     exists l, nativeToLocal (fo r) (localIdx e) = Some l /\ l < numLocal (fo r)).
  { intros e He Hd. destruct (bk_true _ _ _ (di_border _ _ _ D) r e Hr He Hd) as (i & j & H1 & H2 & _). eauto. }
  assert (Hst1 : forall l, l < numLocal (fo r) -> masterRank (fo r) l = r ->
            mget l (d2g st1) = Some (mnum r l)).
  { intros l Hl Hm.
    pose proof (afterReceive_good r _ _ ps Hr Hps Gm) as (_ & _ & G3 & _).
    fold st1 in G3. destruct (G3 l) as [(A & B & C)|(A & B)].
    - rewrite A. f_equal. apply number_master; auto. apply isM_owner; auto. now apply Nat.eqb_eq.
    - exfalso. apply B. left. split; [auto|]. now apply Nat.eqb_eq. }
  rewrite <- (app_nil_r (flat_map (sentEvs r) ps)).
  eapply trace_bind.
  { apply (trace_peers _ _ ps _ (sentEvs r) (fun _ => st1)).
    intros q pre post E. unfold sentEvs. destruct (Nat.ltb_spec r q); [|constructor].
    unfold sendBorderTo, out. rewrite map_map. apply trace_sends; auto. }
  rewrite <- (app_nil_l []).
  eapply trace_bind.
  { rewrite <- (flat_map_nil _ (@ev gmsg) (fun _ => []) ps) by auto.
    apply (trace_peers _ _ ps _ (fun _ => []) (fun _ => st1)).
    intros q pre post E.
    destruct (Nat.ltb_spec r q); [|constructor].
    unfold receiveBorderFrom. apply (trace_receives (fo r) q (borderList (fo r)) st1 []).
    rewrite expects_down by (auto; lia). reflexivity. }
  rewrite <- (flat_map_nil _ (@ev gmsg) (fun _ => []) ps) by auto.
  apply (trace_peers _ _ ps _ (fun _ => []) (fun _ => st1)).
  intros q pre post E.
  destruct (Nat.ltb_spec q r); [|constructor].
  unfold sendBorderTo.
  pose proof (trace_sends r (fo r) q (mnum r) st1 Hst1 (borderList (fo r)) Hb) as T.
  rewrite out_up in T by (auto; lia). exact T.
Qed.

Lemma whole : assuredRun (start N (fun p => buildGlobalIndices p N (fo p))) (done N final).
Proof.
  unfold done. rewrite !start_cfg.
  apply (rendezvous _ N noMsg (fun p => Ret (final p)) (chain (N - 1) ++ ups)).
  - intros s d m H. apply in_app_or in H. destruct H as [H|H].
    + unfold chain in H. apply in_map_iff in H. destruct H as (p & E & Hp). apply in_seq in Hp.
      injection E as <- <- <-. unfold noMsg. repeat split; lia.
    + unfold ups in H. apply in_flat_map in H. destruct H as (p & Hp & H).
      apply in_flat_map in H. destruct H as (q & Hq & H). apply in_map_iff in H.
      destruct H as (m' & E & Hm). injection E as <- <- <-.
      apply in_seq in Hp. apply in_seq in Hq. unfold noMsg.
      destruct (le_lt_dec q p); [rewrite out_nil in Hm by lia; destruct Hm|].
      repeat split; lia.
  - intros p Hp. apply trace_whole; auto.
Qed.

End Numbering.
