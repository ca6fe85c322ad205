From Coq Require Import Arith List Bool Lia Sorted Permutation.
From Verif Require Import MpiModel MpiSpec MpiProofs MpiLemmas MpiExchange ExchangeModel
  GlobalIndexModel GlobalIndexSpec GlobalIndexProofs ForeignModel ForeignProofs
  DomesticModel DomesticSpec DomesticProofs VectorModel VectorSpec VectorProofs PipelineModel
  OvMatrixModel OvMatrixSpec OvMatrixProofs.
Import ListNotations.

Lemma filter_one : forall A (P : A -> bool) L, NoDup L ->
  (forall a b, In a L -> In b L -> P a = true -> P b = true -> a = b) ->
  (filter P L = [] /\ forall a, In a L -> P a = false)
  \/ exists a, filter P L = [a] /\ In a L /\ P a = true.
Proof.
  intros A P L ND U.
  destruct (filter P L) as [|a l] eqn:E.
  - left. split; [auto|]. intros a Ha. destruct (P a) eqn:Ep; [|auto].
    assert (K : In a (filter P L)) by (apply filter_In; auto). rewrite E in K. destruct K.
  - right. exists a. assert (K : In a (filter P L)) by (rewrite E; left; auto).
    apply filter_In in K. destruct K as [K1 K2]. split; [|auto].
    destruct l as [|b l]; [reflexivity|]. exfalso.
    assert (K : In b (filter P L)) by (rewrite E; right; left; auto). apply filter_In in K. destruct K as [K3 K4].
    pose proof (NoDup_filter P ND) as M. rewrite E in M. inversion M as [|? ? M1 M2]; subst. apply M1. left.
    apply U; auto.
Qed.

Section System.
Variable N : nat.
Variable fo : nat -> foreignOverlap.
Variable shared : nat -> nat -> list (nat * nat).
Variable dof : nat -> nat -> nat.
Variable number : nat -> nat.
Variable total : nat.
Variable ddof : nat -> nat -> nat.
Variable dom : nat -> domestic.
Hypothesis SY : system N fo shared dof number total ddof dom.

Let D := sy_distributed _ _ _ _ _ _ _ _ SY.
Let O := sy_overlapping _ _ _ _ _ _ _ _ SY.
Let NU := sy_numbering _ _ _ _ _ _ _ _ SY.
Let DM := sy_domestic _ _ _ _ _ _ _ _ SY.

Context {V : Type}.
Variable zero : V.
Variable toNative : nat -> nat -> nat.
Variable native : nat -> nat -> list (nat * V).
Variable cname : nat -> nat -> nat.
Variable known : nat -> nat -> bool.
Variable black : nat -> list (nat * option nat).
Variable numRows : nat -> nat.
Variable graph : nat -> nat -> list nat.

Notation col p := (columnOf (fo p) (black p)).
Hypothesis NM : nativeMatrices N fo toNative native cname known ddof (fun p => domSize (dom p))
  (fun p => columnOf (fo p) (black p)) numRows graph.

Notation bst := (built fo shared dom toNative black numRows graph).
Notation entry := (hasEntry fo dof toNative native cname known).
Notation pairs := (pairsOf fo shared dom toNative black graph).

Lemma entry_unique : forall q x y v w, q < N -> entry q x y v -> entry q x y w -> v = w.
Proof.
  intros q x y v w Hq (l & c & Hl & El & Hin & _ & Ec) (l' & c' & Hl' & El' & Hin' & _ & Ec').
  assert (l' = l) by (apply (di_dof _ _ _ D q l' l Hq); auto; congruence). subst l'.
  pose proof (nm_once _ _ _ _ _ _ _ _ _ _ _ NM q (toNative q l) Hq) as ND.
  revert ND Hin Hin'. generalize (native q (toNative q l)). clear -Ec Ec'.
  induction l as [|[a u] es IH]; intros ND H1 H2; [destruct H1|].
  cbn [map fst] in ND. inversion ND as [|? ? N1 N2]; subst.
  destruct H1 as [H1|H1], H2 as [H2|H2].
  - congruence.
  - exfalso. injection H1 as -> ->. apply N1. apply in_map_iff. exists (c', w). auto.
  - exfalso. injection H2 as -> ->. apply N1. apply in_map_iff. exists (c, v). split; [cbn; congruence|auto].
  - apply IH; auto.
Qed.

Lemma stored_iff : forall (st : structure) i j, stored st i j = true <-> In j (nth i (mxColumns st) []).
Proof.
  intros st i j. unfold stored. rewrite existsb_exists. split.
  - intros (x & H & E). apply Nat.eqb_eq in E. subst. auto.
  - intros H. exists j. split; [auto|apply Nat.eqb_refl].
Qed.

Lemma stored_entry : forall p q i j v, p < N -> q < N -> i < domSize (dom p) -> j < domSize (dom p) ->
  entry q (ddof p i) (ddof p j) v -> stored (bst p) i j = true.
Proof.
  intros p q i j v Hp Hq Hi Hj H. apply stored_iff.
  apply (structure_in N fo shared dof number total ddof dom SY toNative native cname known black numRows graph NM p Hp).
  eauto 6.
Qed.

(* ----- the native entries ----- *)

Definition assignedValues (p : nat) (m : values) : Prop :=
  forall i j, i < domSize (dom p) -> j < domSize (dom p) ->
    (forall v, entry p (ddof p i) (ddof p j) v -> m i j = v)
    /\ ((forall v, ~ entry p (ddof p i) (ddof p j) v) -> m i j = zero).

Lemma assign_row : forall p n l, p < N -> nativeToLocal (fo p) n = Some l ->
  forall es m, (forall e, In e es -> In e (native p n)) -> NoDup (map (fun e => cname p (fst e)) es) ->
  exists m', fold_left (fun m e =>
      match col p (fst e) with
      | Some j => writeEntry (bst p) (fun _ => snd e) l j m
      | None => m
      end) es (Some m) = Some m'
   /\ (forall c v j, In (c, v) es -> col p c = Some j -> m' l j = v)
   /\ (forall i j, i <> l \/ (forall c v, In (c, v) es -> col p c <> Some j) -> m' i j = m i j).
Proof.
  intros p n l Hp En. destruct (nm_rows _ _ _ _ _ _ _ _ _ _ _ NM p n l Hp En) as (Hl & _ & Et).
  induction es as [|[c v] es IH]; intros m Hes ND.
  - exists m. cbn. split; [auto|]. split; [intros c v j []|auto].
  - cbn [map fst fold_left snd] in *. inversion ND as [|? ? N1 N2]; subst.
    destruct (col p c) as [j|] eqn:Ec.
    + assert (Hj : stored (bst p) l j = true).
      { apply stored_iff. apply (structure_in N fo shared dof number total ddof dom SY toNative native cname known black numRows graph NM p Hp).
        destruct (proj1 (own_in N fo shared dof number total ddof dom SY toNative native cname known black numRows graph NM p l j Hp)) as (K1 & K2 & w & K3).
        { split; [auto|]. apply (rowColumns_in N fo ddof dom toNative native cname known black numRows graph NM); [auto|]. exists c, v. split; [apply Hes; left; auto|auto]. }
        do 2 (split; [auto|]). exists p, w. auto. }
      unfold writeEntry at 2. rewrite Hj.
      destruct (IH (setValue l j v m)) as (m' & E & I1 & I2); [intros; apply Hes; right; auto|auto|].
      exists m'. split; [exact E|]. split.
      * intros c' v' j' [K|K] Ec'.
        -- injection K as <- <-. assert (j' = j) by congruence. subst j'.
           rewrite I2; [unfold setValue; rewrite !Nat.eqb_refl; reflexivity|]. right. intros c' v' K' Ec2.
           apply N1. apply in_map_iff. exists (c', v'). split; [|auto]. cbn [fst].
           rewrite <- (proj2 (nm_column _ _ _ _ _ _ _ _ _ _ _ NM p c j Hp Ec)).
           symmetry. apply (nm_column _ _ _ _ _ _ _ _ _ _ _ NM p c' j Hp Ec2).
        -- apply (I1 c'); auto.
      * intros i' j' K. rewrite I2.
        -- unfold setValue. destruct (Nat.eqb_spec i' l), (Nat.eqb_spec j' j); cbn [andb]; auto.
           exfalso. subst. destruct K as [K|K]; [auto|]. apply (K c v); [left; auto|auto].
        -- destruct K as [K|K]; [auto|]. right. intros c' v' K'. apply (K c' v'). right; auto.
    + destruct (IH m) as (m' & E & I1 & I2); [intros; apply Hes; right; auto|auto|].
      exists m'. split; [exact E|]. split.
      * intros c' v' j' [K|K] Ec'; [congruence|apply (I1 c'); auto].
      * intros i' j' K. apply I2. destruct K as [K|K]; [auto|]. right. intros c' v' K'. apply (K c' v'). right; auto.
Qed.

Lemma assign_native : forall p, p < N ->
  exists m, assignFromNative zero (fo p) (black p) (numRows p) (native p) (bst p) = Some m /\ assignedValues p m.
Proof.
  intros p Hp. unfold assignFromNative.
  assert (G : forall ns m, NoDup ns ->
    exists m', fold_left (fun m n =>
      match nativeToLocal (fo p) n with
      | Some l => fold_left (fun m e =>
            match col p (fst e) with
            | Some j => writeEntry (bst p) (fun _ => snd e) l j m
            | None => m
            end) (native p n) m
      | None => m
      end) ns (Some m) = Some m'
    /\ (forall n l c v j, In n ns -> nativeToLocal (fo p) n = Some l -> In (c, v) (native p n) -> col p c = Some j -> m' l j = v)
    /\ (forall i j, (forall n c v, In n ns -> nativeToLocal (fo p) n = Some i -> In (c, v) (native p n) -> col p c <> Some j) -> m' i j = m i j)).
  { induction ns as [|n ns IH]; intros m ND.
    - exists m. cbn. split; [auto|]. split; [intros n l c v j []|auto].
    - cbn [fold_left]. inversion ND as [|? ? N1 N2]; subst.
      destruct (nativeToLocal (fo p) n) as [l|] eqn:En.
      + destruct (assign_row p n l Hp En (native p n) m (fun e H => H)) as (m1 & E1 & A1 & A2).
        { apply (nm_once _ _ _ _ _ _ _ _ _ _ _ NM p n Hp). }
        rewrite E1. destruct (IH m1 N2) as (m' & E & I1 & I2). exists m'. split; [exact E|]. split.
        * intros n' l' c v j [<-|Hn] El Hin Ec; [|apply (I1 n' l' c v j); auto].
          assert (l' = l) by congruence. subst l'. rewrite I2; [apply (A1 c v j); auto|].
          intros n2 c2 v2 Hn2 E2. exfalso. apply N1.
          rewrite <- (di_native _ _ _ D p n2 n l Hp E2 En). auto.
        * intros i j K. rewrite I2.
          -- apply A2. destruct (Nat.eq_dec i l) as [->|]; [|auto]. right. intros c v Hin. apply (K n c v); [left; auto|auto|auto].
          -- intros n' c v Hn. apply K. right; auto.
      + destruct (IH m N2) as (m' & E & I1 & I2). exists m'. split; [exact E|]. split.
        * intros n' l' c v j [<-|Hn] El; [congruence|]. apply I1; auto.
        * intros i j K. apply I2. intros n' c v Hn. apply K. right; auto. }
  destruct (G (seq 0 (numRows p)) (fun _ _ => zero) (seq_NoDup _ _)) as (m & E & G1 & G2).
  exists m. split; [exact E|]. intros i j Hi Hj. split.
  - intros v (l & c & Hl & El & Hin & Hk & Ec).
    rewrite (nm_known _ _ _ _ _ _ _ _ _ _ _ NM) in Hk. destruct (col p c) as [k|] eqn:Ek; [|discriminate].
    destruct (nm_column _ _ _ _ _ _ _ _ _ _ _ NM p c k Hp Ek) as [Hk' En].
    pose proof (dm_size _ _ _ _ _ _ _ _ (DM p Hp)) as HS.
    rewrite <- (dm_local _ _ _ _ _ _ _ _ (DM p Hp) l Hl) in El.
    apply (dm_inj _ _ _ _ _ _ _ _ (DM p Hp)) in El; [|lia|auto]. subst l.
    assert (k = j) by (apply (dm_inj _ _ _ _ _ _ _ _ (DM p Hp)); auto; congruence). subst k.
    pose proof (nm_native _ _ _ _ _ _ _ _ _ _ _ NM p i Hp Hl) as Et.
    apply (G1 (toNative p i) i c v j); auto.
    apply in_seq. split; [lia|]. cbn. apply (nm_rows _ _ _ _ _ _ _ _ _ _ _ NM p _ i Hp Et).
  - intros K. apply G2. intros n c v Hn En Hin Ec. apply (K v).
    destruct (nm_rows _ _ _ _ _ _ _ _ _ _ _ NM p n i Hp En) as (Hl & _ & Et).
    exists i, c. split; [auto|]. split; [symmetry; apply (dm_local _ _ _ _ _ _ _ _ (DM p Hp) i Hl)|].
    rewrite Et. split; [auto|]. split; [rewrite (nm_known _ _ _ _ _ _ _ _ _ _ _ NM), Ec; reflexivity|].
    symmetry. apply (nm_column _ _ _ _ _ _ _ _ _ _ _ NM p c j Hp Ec).
Qed.

(* ----- the exchange ----- *)

Variable m : nat -> @values V.

(** The value which rank q holds for the row x and the column y, if its own matrix has an
    entry there. *)
Definition held (q x y : nat) (v : V) : Prop :=
  (exists w, entry q x y w) /\
  exists l k, l < numLocal (fo q) /\ dof q l = x /\ k < domSize (dom q) /\ ddof q k = y /\ v = m q l k.

Definition sentValue (q : nat) (lg : nat * nat) : V :=
  match globalToDomestic (domIdx (dom q)) (snd lg) with Some j => m q (fst lg) j | None => zero end.

Lemma entry_values : forall p q, p < N -> In q (peerSet (fo p)) ->
  entryValues zero (bst p) (m p) q = map (sentValue p) (pairs p q).
Proof.
  intros p q Hp Hq. unfold entryValues.
  destruct (built_form N fo shared dof number total ddof dom SY toNative native cname known black numRows graph NM p Hp) as (_ & _ & E & _).
  rewrite (E q Hq). rewrite sent_entries, !map_map, map_length. cbn [fst snd bCols sentBuffer].
  rewrite map_length, pairs_length, Nat.sub_diag. cbn [repeat]. apply app_nil_r.
Qed.

Lemma entries_stored : forall p, p < N -> entriesStored (fo p) (bst p) = true.
Proof.
  intros p Hp. unfold entriesStored. apply forallb_forall. intros q Hq.
  destruct (built_form N fo shared dof number total ddof dom SY toNative native cname known black numRows graph NM p Hp) as (_ & _ & E & _).
  rewrite (E q Hq), sent_entries. apply forallb_forall. intros e He. apply in_map_iff in He.
  destruct He as ([l g] & <- & He). cbn [fst snd].
  apply (pairs_in N fo shared dof number total ddof dom SY toNative native cname known black numRows graph NM p q l g Hp) in He.
  destruct He as (Ht & c & v & k & Hin & Ec & ->).
  destruct (nm_column _ _ _ _ _ _ _ _ _ _ _ NM p c k Hp Ec) as [Hk Ek].
  rewrite <- Ek, (g2d N fo shared dof number total ddof dom SY p k Hp Hk).
  assert (Hl : l < numLocal (fo p)) by (apply (ov_local _ _ _ _ O p q l Hp Ht)).
  pose proof (dm_size _ _ _ _ _ _ _ _ (DM p Hp)) as HS.
  apply (stored_entry p p l k v Hp Hp); [lia|auto|].
  exists l, c. split; [auto|]. split; [symmetry; apply (dm_local _ _ _ _ _ _ _ _ (DM p Hp) l Hl)|]. split; [auto|].
  split; [rewrite (nm_known _ _ _ _ _ _ _ _ _ _ _ NM), Ec; reflexivity|auto].
Qed.

Lemma expected_from : forall p q, p < N -> In q (peerSet (fo p)) ->
  expectedFrom (bst p) q = length (entryValues zero (bst q) (m q) p).
Proof.
  intros p q Hp Hq. destruct (ov_range _ _ _ _ O p q Hp Hq) as [HqN _].
  rewrite (entry_values q p HqN) by (apply (ov_mutual _ _ _ _ O p q Hp Hq)). unfold expectedFrom.
  destruct (built_form N fo shared dof number total ddof dom SY toNative native cname known black numRows graph NM p Hp) as (_ & _ & _ & E).
  rewrite (E q Hq), map_length, pairs_length. cbn [bCols receivedBuffer]. apply map_length.
Qed.

Variable f : V -> V -> V.

Lemma entries_fold : forall p A (L : list A) (row : A -> nat) (o : A -> option nat) (val : A -> V) m0,
  (forall a j, In a L -> o a = Some j -> stored (bst p) (row a) j = true) ->
  exists m', fold_left (fun m ev =>
      match snd (fst ev) with
      | Some j => writeEntry (bst p) (fun old => f old (snd ev)) (fst (fst ev)) j m
      | None => m
      end) (map (fun a => ((row a, o a), val a)) L) (Some m0) = Some m'
   /\ forall i j, m' i j = fold_left f (map val (filter (fun a => Nat.eqb (row a) i && match o a with Some k => Nat.eqb k j | None => false end) L)) (m0 i j).
Proof.
  intros p A L row o val. induction L as [|a L IH]; intros m0 H.
  - exists m0. cbn. auto.
  - cbn [map fold_left fst snd filter]. destruct (o a) as [k|] eqn:Eo.
    + unfold writeEntry at 2. rewrite (H a k (or_introl eq_refl) Eo).
      destruct (IH (setValue (row a) k (f (m0 (row a) k) (val a)) m0)) as (m' & E & I); [intros; apply H; [right; auto|auto]|].
      exists m'. split; [exact E|]. intros i j. rewrite I. unfold setValue at 1.
      rewrite (Nat.eqb_sym i), (Nat.eqb_sym j).
      destruct (Nat.eqb_spec (row a) i), (Nat.eqb_spec k j); cbn [andb map fold_left]; subst; auto.
    + destruct (IH m0) as (m' & E & I); [intros; apply H; [right; auto|auto]|].
      exists m'. split; [exact E|]. intros i j. rewrite I. rewrite andb_false_r. reflexivity.
Qed.

Lemma receive_one : forall p q m0, p < N -> In q (peerSet (fo p)) ->
  exists m', receiveEntries (bst p) f q (entryValues zero (bst q) (m q) p) (Some m0) = Some m'
   /\ forall i j, i < domSize (dom p) -> j < domSize (dom p) ->
      (forall v, held q (ddof p i) (ddof p j) v -> m' i j = f (m0 i j) v)
      /\ ((forall v, ~ held q (ddof p i) (ddof p j) v) -> m' i j = m0 i j).
Proof.
  intros p q m0 Hp Hq. destruct (ov_range _ _ _ _ O p q Hp Hq) as [HqN Hne].
  unfold receiveEntries.
  destruct (built_form N fo shared dof number total ddof dom SY toNative native cname known black numRows graph NM p Hp) as (_ & _ & _ & E).
  rewrite (E q Hq), received_entries.
  rewrite (entry_values q p HqN) by (apply (ov_mutual _ _ _ _ O p q Hp Hq)).
  rewrite combine_maps.
  destruct (entries_fold p _ (pairs q p) (fun lg => rowAt dof number dom p q (fst lg))
     (fun lg => globalToDomestic (domIdx (dom p)) (snd lg)) (sentValue q) m0) as (m' & E' & H).
  { intros [l g] j Hin Eg. cbn [fst snd] in *.
    assert (K : In (rowAt dof number dom p q l, Some j) (bufferEntries (receivedBuffer fo shared dof number dom toNative black graph p q))).
    { rewrite received_entries. apply in_map_iff. exists (l, g). cbn [fst snd]. rewrite Eg. auto. }
    apply (received_in N fo shared dof number total ddof dom SY toNative native cname known black numRows graph NM p q _ j Hp Hq) in K.
    destruct K as (K1 & K2 & v & K3). apply (stored_entry p q _ j v); auto. }
  exists m'. split; [exact E'|]. intros i j Hi Hj. rewrite H.
  assert (T : forall lg, In lg (pairs q p) -> Nat.eqb (rowAt dof number dom p q (fst lg)) i &&
     match globalToDomestic (domIdx (dom p)) (snd lg) with Some k => Nat.eqb k j | None => false end = true ->
     tells shared q p (fst lg) /\ dof q (fst lg) = ddof p i /\ snd lg = number (ddof p j)).
  { intros [l g] Hin K. cbn [fst snd] in *. apply andb_prop in K. destruct K as [K1 K2]. apply Nat.eqb_eq in K1.
    destruct (globalToDomestic (domIdx (dom p)) g) as [k|] eqn:Eg; [|discriminate]. apply Nat.eqb_eq in K2. subst k.
    apply (pairs_in N fo shared dof number total ddof dom SY toNative native cname known black numRows graph NM q p l g HqN) in Hin.
    destruct Hin as (Ht & _). split; [auto|].
    destruct (rowAt_spec N fo shared dof number total ddof dom SY p q l Hp HqN Ht) as (_ & R2 & _).
    split; [congruence|]. apply (dm_g2d _ _ _ _ _ _ _ _ (DM p Hp)) in Eg. apply Eg. }
  destruct (filter_one _ (fun lg => Nat.eqb (rowAt dof number dom p q (fst lg)) i &&
     match globalToDomestic (domIdx (dom p)) (snd lg) with Some k => Nat.eqb k j | None => false end) (pairs q p))
     as [[F1 F2]|([l g] & F1 & F2 & F3)].
  { apply (pairs_NoDup N fo shared dof number total ddof dom SY toNative black graph q p HqN). }
  { intros a b Ha Hb Ka Kb. destruct (T a Ha Ka) as (T1 & T2 & T3). destruct (T b Hb Kb) as (T4 & T5 & T6).
    destruct a as [la ga], b as [lb gb]. cbn [fst snd] in *. f_equal; [|congruence].
    apply (di_dof _ _ _ D q la lb HqN); [apply (ov_local _ _ _ _ O q p la HqN T1)|apply (ov_local _ _ _ _ O q p lb HqN T4)|congruence]. }
  - rewrite F1. cbn [map fold_left]. split; [|auto]. intros v ((w & l & c & Hl & El & Hin & Hk & Ec) & _). exfalso.
    rewrite (nm_known _ _ _ _ _ _ _ _ _ _ _ NM) in Hk. destruct (col q c) as [k|] eqn:Ek; [|discriminate].
    assert (Ht : tells shared q p l).
    { apply (holder_tells N fo shared dof number total ddof dom SY); auto. rewrite El.
      apply (dm_knows _ _ _ _ _ _ _ _ (DM p Hp)). eauto. }
    specialize (F2 (l, number (cname q c))). cbn [fst snd] in F2.
    destruct (rowAt_spec N fo shared dof number total ddof dom SY p q l Hp HqN Ht) as (R1 & R2 & _).
    assert (Er : rowAt dof number dom p q l = i) by (apply (dm_inj _ _ _ _ _ _ _ _ (DM p Hp)); auto; congruence).
    rewrite Er, Ec, (g2d N fo shared dof number total ddof dom SY p j Hp Hj), !Nat.eqb_refl in F2. cbn [andb] in F2.
    assert (K : true = false); [|discriminate]. apply F2. rewrite <- Ec.
    apply (pairs_in N fo shared dof number total ddof dom SY toNative native cname known black numRows graph NM q p l _ HqN). split; [auto|]. exists c, w, k. auto.
  - rewrite F1. cbn [map fold_left]. destruct (T (l, g) F2 F3) as (T1 & T2 & T3). cbn [fst snd] in *.
    apply (pairs_in N fo shared dof number total ddof dom SY toNative native cname known black numRows graph NM q p l g HqN) in F2.
    destruct F2 as (_ & c & w & k & Hin & Ec & Eg).
    destruct (nm_column _ _ _ _ _ _ _ _ _ _ _ NM q c k HqN Ec) as [Hk Ek].
    assert (Hl : l < numLocal (fo q)) by (apply (ov_local _ _ _ _ O q p l HqN T1)).
    assert (Ey : ddof q k = ddof p j).
    { apply (number_inj N fo shared dof number total ddof dom SY q p k j); auto. congruence. }
    assert (Es : sentValue q (l, g) = m q l k).
    { unfold sentValue. cbn [fst snd]. rewrite Eg, <- Ek, (g2d N fo shared dof number total ddof dom SY q k HqN Hk). reflexivity. }
    split.
    + intros v (_ & l' & k' & Hl' & El' & Hk' & Ek' & ->).
      assert (l' = l) by (apply (di_dof _ _ _ D q l' l HqN); auto; congruence). subst l'.
      assert (k' = k) by (apply (dm_inj _ _ _ _ _ _ _ _ (DM q HqN)); auto; congruence). subst k'.
      rewrite Es. reflexivity.
    + intros K. exfalso. apply (K (m q l k)). split.
      * exists w, l, c. split; [auto|]. split; [auto|]. split; [auto|].
        split; [rewrite (nm_known _ _ _ _ _ _ _ _ _ _ _ NM), Ec; reflexivity|congruence].
      * exists l, k. auto.
Qed.

Lemma held_dec : forall q x y, q < N -> (exists v, held q x y v) \/ forall v, ~ held q x y v.
Proof.
  intros q x y Hq.
  destruct (in_dec Nat.eq_dec x (map (dof q) (seq 0 (numLocal (fo q))))) as [Hx|Hx].
  - apply in_map_iff in Hx. destruct Hx as (l & El & Hl). apply in_seq in Hl.
    set (ks := flat_map (fun e => match col q (fst e) with Some _ => [cname q (fst e)] | None => [] end) (native q (toNative q l))).
    destruct (in_dec Nat.eq_dec y ks) as [Hy|Hy].
    + left. apply in_flat_map in Hy. destruct Hy as ([c w] & Hin & Hc). cbn [fst] in Hc.
      destruct (col q c) as [k|] eqn:Ec; [|destruct Hc]. destruct Hc as [Ey|[]].
      destruct (nm_column _ _ _ _ _ _ _ _ _ _ _ NM q c k Hq Ec) as [Hk Ek].
      exists (m q l k). split.
      * exists w, l, c. split; [lia|]. split; [auto|]. split; [auto|].
        split; [rewrite (nm_known _ _ _ _ _ _ _ _ _ _ _ NM), Ec; reflexivity|auto].
      * exists l, k. split; [lia|]. split; [auto|]. split; [auto|]. split; [congruence|auto].
    + right. intros v ((w & l' & c & Hl' & El' & Hin & Hk & Ec) & _).
      assert (l' = l) by (apply (di_dof _ _ _ D q l' l Hq); [auto|lia|congruence]). subst l'.
      apply Hy. apply in_flat_map. exists (c, w). split; [auto|]. cbn [fst].
      rewrite (nm_known _ _ _ _ _ _ _ _ _ _ _ NM) in Hk. destruct (col q c); [|discriminate]. left; auto.
  - right. intros v ((w & l' & c & Hl' & El' & _) & _). apply Hx. apply in_map_iff. exists l'. split; [auto|]. apply in_seq. lia.
Qed.

Lemma held_unique : forall q x y v w, q < N -> held q x y v -> held q x y w -> v = w.
Proof.
  intros q x y v w Hq (_ & l & k & Hl & El & Hk & Ek & ->) (_ & l' & k' & Hl' & El' & Hk' & Ek' & ->).
  assert (l' = l) by (apply (di_dof _ _ _ D q l' l Hq); auto; congruence). subst l'.
  assert (k' = k) by (apply (dm_inj _ _ _ _ _ _ _ _ (DM q Hq)); auto; congruence). subst k'. reflexivity.
Qed.

Definition syncEntriesResult (p : nat) : option values :=
  fold_left (fun y q => receiveEntries (bst p) f q (entryValues zero (bst q) (m q) p) y) (peerSet (fo p)) (Some (m p)).

Lemma sync_entries_run : assuredRun
  (cfg N (fun p => syncWith zero (fo p) (bst p) f (Some (m p))) noMsg)
  (cfg N (fun p => Ret (syncEntriesResult p)) noMsg).
Proof.
  unfold syncWith.
  assert (E : cfg N (fun p => exchangeValues (peerSet (fo p)) (entryValues zero (bst p) (m p)) (expectedFrom (bst p))
       (receiveEntries (bst p) f) (fun _ => None) (if mxOk (bst p) && entriesStored (fo p) (bst p) then Some (m p) else None)) noMsg
    = cfg N (fun p => exchangeValues (peerSet (fo p)) (entryValues zero (bst p) (m p)) (expectedFrom (bst p))
       (receiveEntries (bst p) f) (fun _ => None) (Some (m p))) (@noMsg (bmsg V))).
  { apply cfg_ext; [|auto]. intros p Hp. rewrite (entries_stored p Hp).
    destruct (built_form N fo shared dof number total ddof dom SY toNative native cname known black numRows graph NM p Hp) as (Eo & _).
    rewrite Eo. reflexivity. }
  cbv zeta. rewrite E.
  apply (exchangeValues_run N (fun p => peerSet (fo p)) (sym_peers N fo shared dof number total ddof dom SY)
    (fun p => entryValues zero (bst p) (m p)) (fun p => expectedFrom (bst p))
    (fun p => receiveEntries (bst p) f) (fun _ => None) (fun p => Some (m p))).
  intros p q Hp Hq. apply expected_from; auto.
Qed.

Lemma sync_entries_result : forall p, p < N -> exists m', syncEntriesResult p = Some m'
  /\ forall i j, i < domSize (dom p) -> j < domSize (dom p) ->
     exists c, StronglySorted lt (map fst c)
       /\ (forall q v, In (q, v) c <-> q < N /\ q <> p /\ held q (ddof p i) (ddof p j) v)
       /\ m' i j = fold_left f (map snd c) (m p i j).
Proof.
  intros p Hp. unfold syncEntriesResult.
  assert (G : forall qs m0, StronglySorted lt qs -> (forall q, In q qs -> In q (peerSet (fo p))) ->
    exists m', fold_left (fun y q => receiveEntries (bst p) f q (entryValues zero (bst q) (m q) p) y) qs (Some m0) = Some m'
    /\ forall i j, i < domSize (dom p) -> j < domSize (dom p) ->
     exists c, StronglySorted lt (map fst c)
       /\ (forall q v, In (q, v) c <-> In q qs /\ held q (ddof p i) (ddof p j) v)
       /\ m' i j = fold_left f (map snd c) (m0 i j)).
  { induction qs as [|q qs IH]; intros m0 SS Hqs.
    - exists m0. cbn [fold_left]. split; [auto|]. intros i j Hi Hj. exists []. split; [constructor|]. split; [|reflexivity].
      intros q v. split; [intros []|intros [[] _]].
    - cbn [fold_left]. inversion SS as [|? ? N1 N2]; subst. rewrite Forall_forall in N2.
      pose proof (Hqs q (or_introl eq_refl)) as Hq. destruct (ov_range _ _ _ _ O p q Hp Hq) as [HqN Hne].
      destruct (receive_one p q m0 Hp Hq) as (m1 & E1 & R). rewrite E1.
      destruct (IH m1 N1) as (m' & E & I); [intros; apply Hqs; right; auto|].
      exists m'. split; [exact E|]. intros i j Hi Hj. destruct (I i j Hi Hj) as (c & C1 & C2 & C3).
      destruct (R i j Hi Hj) as [R1 R2].
      destruct (held_dec q (ddof p i) (ddof p j) HqN) as [(v & Hv)|Hv].
      + exists ((q, v) :: c). split; [|split].
        * cbn [map fst]. constructor; [auto|]. apply Forall_forall. intros q' Hq'. apply in_map_iff in Hq'.
          destruct Hq' as ([q2 v2] & <- & K). apply C2 in K. apply N2. apply K.
        * intros q' v'. cbn [In]. rewrite C2. split.
          -- intros [K|[K1 K2]]; [injection K as <- <-; auto|auto].
          -- intros [[<-|K1] K2]; [|auto]. left. f_equal. apply (held_unique q (ddof p i) (ddof p j)); auto.
        * rewrite C3, (R1 v Hv). reflexivity.
      + exists c. split; [auto|]. split; [|rewrite C3, (R2 Hv); reflexivity].
        intros q' v'. rewrite C2. cbn [In]. split; [tauto|]. intros [[<-|K1] K2]; [|auto]. exfalso. apply (Hv v' K2). }
  destruct (G (peerSet (fo p)) (m p)) as (m' & E & H); [apply (di_sorted _ _ _ D p Hp)|auto|].
  exists m'. split; [exact E|]. intros i j Hi Hj. destruct (H i j Hi Hj) as (c & C1 & C2 & C3).
  exists c. split; [auto|]. split; [|auto]. intros q v. rewrite C2. split.
  - intros [K1 K2]. destruct (ov_range _ _ _ _ O p q Hp K1). auto.
  - intros (K1 & K2 & K3). split; [|auto]. destruct K3 as (_ & l & k & Hl & El & _).
    apply (tells_peer N fo shared dof number total ddof dom SY q p l K1).
    apply (holder_tells N fo shared dof number total ddof dom SY); auto. rewrite El.
    apply (dm_knows _ _ _ _ _ _ _ _ (DM p Hp)). eauto.
Qed.

(** After an assignment, what the others hold are their native entries. *)
Lemma held_entry : (forall p, p < N -> assignedValues p (m p)) ->
  forall q x y v, q < N -> (held q x y v <-> entry q x y v).
Proof.
  intros A q x y v Hq. split.
  - intros ((w & Hw) & l & k & Hl & El & Hk & Ek & ->).
    pose proof (dm_size _ _ _ _ _ _ _ _ (DM q Hq)) as HS.
    assert (E : ddof q l = x) by (rewrite (dm_local _ _ _ _ _ _ _ _ (DM q Hq) l Hl); auto).
    destruct (A q Hq l k ltac:(lia) Hk) as [A1 _]. rewrite (A1 w); [auto|]. rewrite E, Ek. auto.
  - intros H. split; [eauto|]. pose proof H as (l & c & Hl & El & Hin & Hk & Ec).
    rewrite (nm_known _ _ _ _ _ _ _ _ _ _ _ NM) in Hk. destruct (col q c) as [k|] eqn:Ek; [|discriminate].
    destruct (nm_column _ _ _ _ _ _ _ _ _ _ _ NM q c k Hq Ek) as [Hk' En].
    pose proof (dm_size _ _ _ _ _ _ _ _ (DM q Hq)) as HS.
    exists l, k. split; [auto|]. split; [auto|]. split; [auto|]. split; [congruence|].
    destruct (A q Hq l k ltac:(lia) Hk') as [A1 _]. symmetry. apply A1.
    rewrite (dm_local _ _ _ _ _ _ _ _ (DM q Hq) l Hl), El, En, Ec. auto.
Qed.

End System.
