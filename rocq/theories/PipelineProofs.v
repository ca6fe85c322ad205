From Coq Require Import Arith List Bool Lia Sorted.
From Verif Require Import MpiModel MpiSpec MpiProofs MpiLemmas MpiExchange MpiLift ExchangeModel
  GlobalIndexModel GlobalIndexSpec GlobalIndexProofs ForeignModel ForeignSpec ForeignProofs ForeignReach
  DomesticModel DomesticSpec DomesticProofs VectorModel VectorSpec VectorProofs VectorSums
  PipelineModel PipelineSpec.
Import ListNotations.

Lemma toNative_toLocal : forall pt i l, toLocal pt i = Some l -> toNative pt l = i.
Proof.
  intros pt i l H. unfold toLocal in H. unfold toNative, localIndices.
  destruct (Nat.ltb_spec i (numNative pt)) as [Hi|]; [|discriminate]. cbn [andb] in H.
  destruct (blackListed pt i) eqn:E; [discriminate|]. injection H as <-.
  replace (numNative pt) with (i + S (numNative pt - S i)) by lia.
  rewrite seq_app, filter_app. rewrite app_nth2 by lia. rewrite Nat.sub_diag.
  cbn [Nat.add seq filter]. rewrite E. reflexivity.
Qed.

Lemma toLocal_toNative : forall pt l, l < numLocalIndices pt -> toLocal pt (toNative pt l) = Some l.
Proof.
  intros pt l H. destruct (toLocal_onto pt l H) as (i & E). rewrite (toNative_toLocal _ _ _ E). exact E.
Qed.

Section Rows.
Variable N : nat.
Variable pt : nat -> partition.
Variable d0 os : nat.
Variable name : nat -> nat -> nat.
Hypothesis DE : decomposition N pt d0 os name.

Let B := de_borders _ _ _ _ _ DE.
Let CO := de_common _ _ _ _ _ DE.
Let UN := de_undirected _ _ _ _ _ DE.
Let NA := de_named _ _ _ _ _ DE.
Let SZ := de_size _ _ _ _ _ DE.

Definition res (p : nat) : overlapState := foreignResult pt d0 os p.
Definition fo (p : nat) : foreignOverlap := asForeign (pt p) p (res p).
Definition shared (p q : nat) : list (nat * nat) := overlapWith (pt p) (res p) q.
Definition dof (p l : nat) : nat := name p (toNative (pt p) l).

Lemma row_local : forall p i, isRow pt p i <-> exists l, toLocal (pt p) i = Some l.
Proof. intros p i. unfold isRow. symmetry. apply toLocal_row. Qed.

Lemma native_row : forall p l, l < numLocal (fo p) -> isRow pt p (toNative (pt p) l).
Proof. intros p l H. apply row_local. exists l. apply toLocal_toNative. exact H. Qed.

Lemma has_row : forall p x, has fo dof p x <-> hasRow pt name p x.
Proof.
  intros p x. unfold has, hasRow. split.
  - intros (l & Hl & E). exists (toNative (pt p) l). split; [apply native_row; auto|exact E].
  - intros (i & Hi & E). apply row_local in Hi. destruct Hi as (l & Hl). exists l.
    split; [apply (toLocal_lt _ _ _ Hl)|]. unfold dof. rewrite (toNative_toLocal _ _ _ Hl). exact E.
Qed.

Lemma dof_inj : forall p i j, p < N -> i < numLocal (fo p) -> j < numLocal (fo p) -> dof p i = dof p j -> i = j.
Proof.
  intros p i j Hp Hi Hj E. apply (na_inj _ _ _ _ NA) in E; auto using native_row.
  pose proof (toLocal_toNative _ _ Hi) as E1. pose proof (toLocal_toNative _ _ Hj) as E2. congruence.
Qed.

(** The same degree of freedom on two ranks: a listed pair. *)
Lemma dof_common : forall p i q j, p < N -> q < N -> p <> q -> i < numLocal (fo p) -> j < numLocal (fo q) ->
  (dof p i = dof q j <-> d0 = 0 /\ lists pt p (toNative (pt p) i) q (toNative (pt q) j)).
Proof.
  intros p i q j Hp Hq Hne Hi Hj. unfold dof.
  pose proof (native_row p i Hi). pose proof (native_row q j Hj).
  destruct (Nat.eq_dec d0 0) as [Hd|Hd].
  - rewrite (na_common _ _ _ _ NA Hd p _ q _); auto. tauto.
  - split.
    + intros E. exfalso. apply (na_distinct _ _ _ _ NA) in E; auto. lia.
    + intros [? _]. contradiction.
Qed.

Lemma reaches_zero : forall p q k i, reaches N pt d0 p q k i -> k = 0 -> exists j, lists pt p i q j.
Proof.
  intros p q k i H Ek. induction H as [p q i j Hp Hr Hl| |p q k i p' i' Hd H IH Hl Hne].
  - eauto.
  - discriminate.
  - destruct (IH Ek) as (j & Hj). pose proof (CO Hd) as C.
    assert (Hp : p < N) by (destruct (reaches_ok N pt d0 os B CO _ _ _ _ H); auto).
    destruct (bo_range _ _ _ _ B p i p' i' Hp Hl) as [Hp' _].
    exists j. apply (co_trans _ _ C p' i' p i q j); auto. apply (co_sym _ _ C); auto.
Qed.

(** For a positive distance paths stay on one process. *)
Lemma reaches_lists : 0 < d0 -> forall p q k i, reaches N pt d0 p q k i ->
  p < N /\ exists i' j, lists pt p i' q j.
Proof. induction 2; [eauto|auto|lia]. Qed.

Lemma tells_iff : forall p q l, p < N -> (tells shared p q l <->
  l < numLocal (fo p) /\ exists k, d0 + k <= os /\ reaches N pt d0 p q k (toNative (pt p) l)).
Proof.
  intros p q l Hp. unfold tells, shared, res.
  pose proof (proj2 (overlapWith_spec N pt d0 os B CO SZ p q Hp)) as W. split.
  - intros (d & Hin). apply W in Hin. destruct Hin as (i & k & Hi & -> & Hk & [D _]).
    split; [apply (toLocal_lt _ _ _ Hi)|]. exists k. rewrite (toNative_toLocal _ _ _ Hi). auto.
  - intros (Hl & k & Hk & H).
    destruct (reaches_has_distance N pt d0 os B CO SZ p q k (toNative (pt p) l)) as (k' & Hk' & D); [lia|exact H|].
    exists (d0 + k'). apply W. exists (toNative (pt p) l), k'. split; [apply toLocal_toNative; auto|].
    split; [auto|]. split; [lia|auto].
Qed.

Lemma peers_iff : forall p q, p < N -> (In q (peerSet (fo p)) <-> exists l, tells shared p q l).
Proof.
  intros p q Hp. destruct (result_spec N pt d0 os B CO p Hp) as (_ & _ & _ & _ & _ & P).
  cbn [fo asForeign peerSet]. fold (res p) in P. rewrite P, neighbors_lists. split.
  - intros [(i & j & H)|(k & i & Hk & D & _)].
    + pose proof (na_row _ _ _ _ NA p i q j Hp H) as Hr.
      pose proof (proj1 (row_local p i) Hr) as (l & Hl). exists l. apply tells_iff; [auto|].
      split; [apply (toLocal_lt _ _ _ Hl)|]. exists 0. rewrite (toNative_toLocal _ _ _ Hl). split; [lia|].
      apply reaches_border with (j := j); auto.
    + destruct (reaches_ok N pt d0 os B CO _ _ _ _ D) as (_ & Hr & _).
      pose proof (proj1 (row_local p i) Hr) as (l & Hl). exists l. apply tells_iff; [auto|].
      split; [apply (toLocal_lt _ _ _ Hl)|]. exists k. rewrite (toNative_toLocal _ _ _ Hl). split; [lia|auto].
  - intros (l & H). apply (tells_iff p q l Hp) in H. destruct H as (Hl & k & Hk & H). right.
    destruct (reaches_has_distance N pt d0 os B CO SZ p q k (toNative (pt p) l)) as (k' & Hk' & D); [lia|exact H|].
    exists k', (toNative (pt p) l). split; [lia|auto].
Qed.

Lemma peers_symmetric' : symmetric N (fun p => peerSet (fo p)).
Proof.
  destruct (Nat.eq_dec d0 0) as [Hd|Hd].
  - apply (peers_symmetric N pt d0 os B CO SZ Hd). exact (UN Hd).
  - split.
    + intros p q Hp Hq. apply (peers_iff p q Hp) in Hq. destruct Hq as (l & H).
      apply (tells_iff p q l Hp) in H. destruct H as (_ & k & _ & H).
      destruct (reaches_ok N pt d0 os B CO _ _ _ _ H) as (_ & _ & H'). exact H'.
    + intros p Hp. destruct (result_spec N pt d0 os B CO p Hp) as (_ & _ & _ & _ & P & _).
      apply sorted_NoDup. exact P.
    + intros p q Hp Hq. apply (peers_iff p q Hp) in Hq. destruct Hq as (l & H).
      apply (tells_iff p q l Hp) in H. destruct H as (_ & k & _ & H).
      apply reaches_lists in H; [|lia]. destruct H as (_ & i & j & H).
      destruct (bo_range _ _ _ _ B p i q j Hp H) as [Hq _].
      destruct (bo_sym _ _ _ _ B p i q j Hp H) as (i' & j' & H').
      apply (peers_iff q p Hq).
      pose proof (na_row _ _ _ _ NA q j' p i' Hq H') as Hr.
      pose proof (proj1 (row_local q j') Hr) as (l' & Hl). exists l'. apply tells_iff; [auto|].
      split; [apply (toLocal_lt _ _ _ Hl)|]. exists 0. rewrite (toNative_toLocal _ _ _ Hl). split; [lia|].
      apply reaches_border with (j := i'); auto.
Qed.

Lemma overlapping_rows : overlapping N fo shared dof.
Proof.
  pose proof peers_symmetric' as S. split.
  - intros p q Hp Hq. apply (sy_range _ _ S p q Hp Hq).
  - intros p Hp. apply (sy_once _ _ S p Hp).
  - intros p q Hp Hq. apply (sy_sym _ _ S p q Hp Hq).
  - intros p q l Hp H. apply (tells_iff p q l Hp) in H. apply H.
  - intros p q Hp. apply sorted_NoDup. apply (overlapWith_spec N pt d0 os B CO SZ p q Hp).
  - intros p q Hp. apply peers_iff; auto.
  - intros p q l Hp Hq Hne Hl (j & Hj & E). symmetry in E.
    apply (dof_common p l q j Hp Hq Hne Hl Hj) in E. destruct E as [Hd E].
    apply tells_iff; [auto|]. split; [auto|]. exists 0. split; [lia|].
    apply reaches_border with (j := toNative (pt q) j); auto. apply native_row; auto.
  - intros p q l r j Hp Hr Ht Hrq Hj E.
    apply (tells_iff p q l Hp) in Ht. destruct Ht as (Hl & k & Hk & H).
    apply tells_iff; [auto|]. split; [auto|]. exists k. split; [auto|].
    destruct (Nat.eq_dec p r) as [->|Hne].
    + assert (j = l) by (apply (dof_inj r); auto). subst. auto.
    + symmetry in E. apply (dof_common p l r j Hp Hr Hne Hl Hj) in E. destruct E as [Hd E].
      apply (reaches_common _ _ _ p q k (toNative (pt p) l)); auto.
Qed.

(* ----- masters ----- *)

Lemma min_fold : forall (m : indexMap) r0,
  let r := fold_left (fun m (nd : nat * nat) => if Nat.eqb (snd nd) 0 then Nat.min m (fst nd) else m) m r0 in
  r <= r0 /\ (r = r0 \/ In (r, 0) m) /\ forall q, In (q, 0) m -> r <= q.
Proof.
  induction m as [|[q d] m IH]; intros r0; cbn [fold_left fst snd].
  - cbn. split; [lia|]. split; [auto|]. intros q [].
  - destruct (Nat.eqb_spec d 0) as [->|Hd].
    + destruct (IH (Nat.min r0 q)) as (I1 & I2 & I3).
      set (r := fold_left _ m (Nat.min r0 q)) in *. clearbody r. cbn zeta. split; [lia|]. split.
      * destruct I2 as [->|I2]; [|right; right; auto].
        destruct (Nat.min_spec r0 q) as [[_ ->]|[_ ->]]; [auto|right; left; auto].
      * intros q' [Hq|Hq]; [injection Hq as <-; lia|apply I3; auto].
    + destruct (IH r0) as (I1 & I2 & I3).
      set (r := fold_left _ m r0) in *. clearbody r. cbn zeta. split; [lia|]. split.
      * destruct I2; auto. right; right; auto.
      * intros q' [Hq|Hq]; [injection Hq as _ Hq; lia|apply I3; auto].
Qed.

Lemma mget_pair : forall (m : indexMap), NoDup (map fst m) -> forall q d, In (q, d) m <-> mget q m = Some d.
Proof.
  induction m as [|[q' d'] m IH]; intros ND q d; cbn.
  - split; [intros []|discriminate].
  - cbn in ND. inversion ND as [|? ? N1 N2]; subst. destruct (Nat.eqb_spec q q') as [->|Hne].
    + split.
      * intros [H|H]; [injection H as <-; auto|]. exfalso. apply N1. apply (in_map fst) in H. exact H.
      * intros H. injection H as <-. auto.
    + rewrite <- (IH N2). split; [intros [H|H]; [congruence|auto]|auto].
Qed.

Lemma master_rows : forall p l, p < N -> l < numLocal (fo p) ->
  let m := masterRank (fo p) l in
  m <= p /\ has fo dof m (dof p l) /\ forall q, q < m -> ~ has fo dof q (dof p l).
Proof.
  intros p l Hp Hl. cbn zeta. cbn [fo asForeign masterRank]. unfold computeMasterRank.
  destruct (result_spec N pt d0 os B CO p Hp) as (_ & _ & K & E & _). fold (res p) in K, E.
  set (i := toNative (pt p) l). pose proof (toLocal_toNative (pt p) l Hl) as Hi. fold i in Hi.
  assert (Key : forall q, In (q, 0) (nth l (byIndex (res p)) []) <-> d0 = 0 /\ exists j, lists pt p i q j).
  { intros q. rewrite (mget_pair _ (K l)). rewrite (E i l q 0 Hi). split.
    - intros (k & Ek & _ & D & _). split; [lia|]. assert (k = 0) by lia. subst k. apply (reaches_zero p q 0); auto.
    - intros (Hd & j & Hj). exists 0. split; [lia|]. split; [lia|]. split; [|intros; lia].
      apply reaches_border with (j := j); auto. apply (native_row p l Hl). }
  assert (Other : forall q, q < N -> q <> p -> (has fo dof q (dof p l) <-> d0 = 0 /\ exists j, lists pt p i q j)).
  { intros q Hq Hne. split.
    - intros (j & Hj & E1). symmetry in E1. apply dof_common in E1; auto. destruct E1 as [Hd E1]. eauto.
    - intros (Hd & j & Hj). pose proof (CO Hd) as C.
      assert (Hr : isRow pt q j) by (apply (na_row _ _ _ _ NA q j p i Hq); apply (co_sym _ _ C); auto).
      apply row_local in Hr. destruct Hr as (lj & Hlj). exists lj. split; [apply (toLocal_lt _ _ _ Hlj)|].
      symmetry. apply dof_common; auto; [apply (toLocal_lt _ _ _ Hlj)|].
      rewrite (toNative_toLocal _ _ _ Hlj). auto. }
  assert (Own : has fo dof p (dof p l)) by (exists l; auto).
  destruct (isBorder (pt p) l) eqn:EB.
  - destruct (min_fold (nth l (byIndex (res p)) []) p) as (M1 & M2 & M3).
    set (r := fold_left _ (nth l (byIndex (res p)) []) p) in *. clearbody r.
    split; [auto|]. split.
    + destruct M2 as [->|M2]; [auto|]. apply Key in M2. destruct M2 as (Hd & j & Hj).
      destruct (bo_range _ _ _ _ B p i r j Hp Hj). apply Other; eauto.
    + intros q Hq H. destruct (Nat.eq_dec q p) as [->|Hne]; [lia|].
      apply Other in H; [|lia|auto]. apply Key in H. apply M3 in H. lia.
  - split; [lia|]. split; [auto|]. intros q Hq H. apply Other in H; [|lia|lia].
    destruct H as (Hd & j & e & He & E1 & E2 & E3).
    assert (T : isBorder (pt p) l = true).
    { apply isBorder_spec. exists e. split; [auto|]. rewrite E1. exact Hi. }
    congruence.
Qed.

Lemma NoDup_map_filter : forall A C (f : A -> C) g l, NoDup (map f l) -> NoDup (map f (filter g l)).
Proof.
  induction l as [|a l IH]; intros H; [constructor|]. cbn in H. inversion H; subst. cbn [filter].
  destruct (g a); [|auto]. cbn. constructor; [|auto]. intros K. apply in_map_iff in K.
  destruct K as (b & E & K). apply filter_In in K. apply H2. rewrite <- E. apply in_map. tauto.
Qed.

Lemma distributed_rows : distributed N fo dof.
Proof.
  split; [split| | | | | |].
  - intros p e Hp He Hz. cbn [fo asForeign borderList nativeToLocal numLocal] in *.
    assert (Hd : d0 = 0) by (rewrite <- (bo_dist _ _ _ _ B p e Hp He); auto).
    assert (L : lists pt p (localIdx e) (peerRank e) (peerIdx e)) by (exists e; auto).
    destruct (bo_range _ _ _ _ B _ _ _ _ Hp L) as [Hq Hne].
    pose proof (co_sym _ _ (CO Hd) _ _ _ _ Hp L) as L'.
    pose proof (na_row _ _ _ _ NA _ _ _ _ Hp L) as R. apply row_local in R. destruct R as (l & Hl).
    pose proof (na_row _ _ _ _ NA _ _ _ _ Hq L') as R. apply row_local in R. destruct R as (j & Hj).
    exists l, j. split; [auto|]. pose proof (toLocal_lt _ _ _ Hl) as Hl'. pose proof (toLocal_lt _ _ _ Hj) as Hj'.
    split; [auto|]. split; [auto|]. split; [auto|]. split; [auto|]. split; [auto|].
    apply dof_common; auto. rewrite (toNative_toLocal _ _ _ Hl), (toNative_toLocal _ _ _ Hj). auto.
  - intros p q l Hp Hq Hne Hl (j & Hj & E). symmetry in E. apply dof_common in E; auto.
    destruct E as [Hd (e & He & E1 & E2 & E3)]. exists e. cbn [fo asForeign borderList nativeToLocal].
    split; [auto|]. split; [rewrite (bo_dist _ _ _ _ B p e Hp He); auto|]. split; [auto|].
    rewrite E1. apply toLocal_toNative. exact Hl.
  - intros p Hp. apply NoDup_map_filter. apply (na_once _ _ _ _ NA p Hp).
  - intros p i j. apply dof_inj.
  - intros p a b i Hp Ha Hb. apply (toLocal_inj (pt p) a b i Ha Hb).
  - intros p i. apply master_rows.
  - intros p Hp. destruct (result_spec N pt d0 os B CO p Hp) as (_ & _ & _ & _ & P & _). exact P.
  - intros p e Hp He _. destruct (result_spec N pt d0 os B CO p Hp) as (_ & _ & _ & _ & _ & P).
    cbn [fo asForeign peerSet borderList] in *. apply P. left. apply neighbors_lists.
    exists (localIdx e), (peerIdx e), e. auto.
  - intros p q Hp Hq. apply (sy_range _ _ peers_symmetric' p q Hp Hq).
Qed.

Lemma distance_bound : forall p q l d, p < N -> In (l, d) (shared p q) -> d <= os.
Proof.
  intros p q l d Hp H. apply (overlapWith_spec N pt d0 os B CO SZ p q Hp) in H.
  destruct H as (i & k & _ & _ & H & _). exact H.
Qed.

Lemma knows_iff : forall p x, p < N -> (knows N fo shared dof p x <-> inOverlap N pt d0 os name p x).
Proof.
  intros p x Hp. unfold knows, inOverlap. rewrite has_row. split; (intros [H|H]; [auto|right]).
  - destruct H as (q & l & Hq & Ht & E). apply (tells_iff q p l Hq) in Ht.
    destruct Ht as (Hl & k & Hk & Hr). exists q, (toNative (pt q) l), k. auto.
  - destruct H as (q & i & k & Hk & Hr & E).
    destruct (reaches_ok N pt d0 os B CO _ _ _ _ Hr) as (Hq & Hi & _).
    apply row_local in Hi. destruct Hi as (l & Hl). exists q, l. split; [auto|].
    unfold dof. rewrite (toNative_toLocal _ _ _ Hl). split; [|auto].
    apply tells_iff; [auto|]. split; [apply (toLocal_lt _ _ _ Hl)|]. exists k.
    rewrite (toNative_toLocal _ _ _ Hl). auto.
Qed.

End Rows.
