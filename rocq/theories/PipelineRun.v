From Coq Require Import Arith List Bool Lia Sorted QArith.
From Verif Require Import MpiModel MpiSpec MpiProofs MpiLemmas MpiExchange MpiLift ExchangeModel
  GlobalIndexModel GlobalIndexSpec GlobalIndexProofs ForeignModel ForeignSpec ForeignProofs ForeignReach
  DomesticModel DomesticSpec DomesticProofs VectorModel VectorSpec VectorProofs VectorSums
  PipelineModel PipelineSpec PipelineProofs.
From Verif Require FluxSpec ResidualProofs.
Import ListNotations.
Local Open Scope nat_scope.

Lemma finite_choice : forall A (a0 : A) (P : nat -> A -> Prop) N,
  (forall p, p < N -> exists a, P p a) -> exists f, forall p, p < N -> P p (f p).
Proof.
  intros A a0 P. induction N as [|n IH]; intros H.
  - exists (fun _ => a0). intros; lia.
  - destruct IH as (f & Hf); [auto|]. destruct (H n) as (a & Ha); [auto|].
    exists (fun p => if Nat.eqb p n then a else f p). intros p Hp.
    destruct (Nat.eqb_spec p n) as [->|]; [auto|]. apply Hf. lia.
Qed.

(* ----- the black list ----- *)

Lemma native_set : forall n v m k,
  nativeToDomesticOf k (setNative n v m) = if Nat.eqb k n then v else nativeToDomesticOf k m.
Proof.
  intros n v m k. induction m as [|[n' v'] m IH]; cbn.
  - destruct (Nat.eqb k n); reflexivity.
  - destruct (Nat.eqb_spec n n') as [->|Hne]; cbn.
    + destruct (Nat.eqb_spec k n'); reflexivity.
    + rewrite IH. destruct (Nat.eqb_spec k n'), (Nat.eqb_spec k n); congruence.
Qed.

Lemma bget_in : forall q m e, In e (bget q m) -> exists es, In (q, es) m /\ In e es.
Proof.
  induction m as [|[q' es] m IH]; intros e H; [destruct H|]. cbn in H.
  destruct (Nat.eqb_spec q q') as [->|].
  - exists es. split; [left; auto|auto].
  - destruct (IH e H) as (es' & H1 & H2). exists es'. split; [right; auto|auto].
Qed.

Lemma bget_of : forall q es m, NoDup (map fst m) -> In (q, es) m -> bget q m = es.
Proof.
  induction m as [|[q' es'] m IH]; intros ND H; [destruct H|]. cbn in *. inversion ND; subst.
  destruct (Nat.eqb_spec q q') as [->|Hne].
  - destruct H as [H|H]; [congruence|]. exfalso. apply H2. apply (in_map fst) in H. exact H.
  - destruct H as [H|H]; [congruence|auto].
Qed.

Section Black.
Variable N : nat.
Variable fo : nat -> foreignOverlap.
Variable shared : nat -> nat -> list (nat * nat).
Variable dof : nat -> nat -> nat.
Variable number : nat -> nat.
Variable total : nat.
Variable ddof : nat -> nat -> nat.
Variable dom : nat -> domestic.
Hypothesis SY : system N fo shared dof number total ddof dom.
Variable pb : nat -> peerBlackLists.
Variable nat_name : nat -> nat -> nat.
Hypothesis PS : symmetric N (fun p => map fst (pb p)).
Hypothesis PE : forall p q n i, p < N -> In (n, i) (bget q (pb p)) ->
  exists l, nativeToLocal (fo p) i = Some l /\ l < numLocal (fo p) /\ dof p l = nat_name q n.

Let DM := sy_domestic _ _ _ _ _ _ _ _ SY.

Definition blackResult (p : nat) : blackMap :=
  fold_left (fun st q => receiveBlack (dom p) q (blackFor (fo q) (dom q) (pb q) p) st) (map fst (pb p))
    (mkBlackMap (blackDefined (fo p) (dom p) (pb p)) []).

Lemma black_run : assuredRun (cfg N (fun p => updateNativeToDomestic (fo p) (dom p) (pb p)) noMsg)
  (cfg N (fun p => Ret (blackResult p)) noMsg).
Proof.
  unfold updateNativeToDomestic.
  apply (exchangeBuffers_run N (fun p => map fst (pb p)) PS
    (fun p => blackFor (fo p) (dom p) (pb p)) (fun p => receiveBlack (dom p))).
Qed.

Lemma native_global : forall p q n i, p < N -> In (n, i) (bget q (pb p)) ->
  nativeToGlobal (fo p) (dom p) i = Some (number (nat_name q n)).
Proof.
  intros p q n i Hp H. destruct (PE p q n i Hp H) as (l & E & Hl & Ed).
  unfold nativeToGlobal. rewrite E, (local_global N fo shared dof number total ddof dom SY p l Hp Hl), Ed. reflexivity.
Qed.

Lemma black_for : forall p q, p < N ->
  blackFor (fo p) (dom p) (pb p) q = map (fun e => (number (nat_name q (fst e)), fst e)) (bget q (pb p)).
Proof.
  intros p q Hp. unfold blackFor. apply map_ext_in. intros [n i] H. cbn [fst snd].
  rewrite (native_global p q n i Hp H). reflexivity.
Qed.

Lemma black_defined : forall p, p < N -> blackDefined (fo p) (dom p) (pb p) = true.
Proof.
  intros p Hp. unfold blackDefined. apply forallb_forall. intros [q es] Hin. apply forallb_forall.
  intros [n i] He. cbn [fst snd] in *.
  rewrite (native_global p q n i Hp); [reflexivity|].
  rewrite (bget_of q es); auto. apply (sy_once _ _ PS p Hp).
Qed.

Lemma black_result : forall p, p < N ->
  blackOk (blackResult p) = true
  /\ forall n i, nativeToDomesticOf n (blackIdx (blackResult p)) = Some i <->
     (exists q j, q < N /\ In (n, j) (bget p (pb q))) /\ i < domSize (dom p) /\ ddof p i = nat_name p n.
Proof.
  intros p Hp. unfold blackResult. rewrite (black_defined p Hp).
  assert (Val : forall q n j, q < N -> In (n, j) (bget p (pb q)) -> forall i,
    (globalToDomestic (domIdx (dom p)) (number (nat_name p n)) = Some i <-> i < domSize (dom p) /\ ddof p i = nat_name p n)).
  { intros q n j Hq H i. rewrite (dm_g2d _ _ _ _ _ _ _ _ (DM p Hp)).
    destruct (PE q p n j Hq H) as (l & E & Hl & Ed). split; intros [H1 H2]; (split; [auto|]).
    - destruct (sy_numbering _ _ _ _ _ _ _ _ SY) as (_ & Inj & _).
      destruct (proj2 (dm_knows _ _ _ _ _ _ _ _ (DM p Hp) (ddof p i))) as [K|(r & l' & Hr & Ht & K)]; [eauto| |].
      + apply (Inj p q); auto. exists l. rewrite <- Ed. auto.
      + apply (Inj r q); auto.
        * exists l'. split; [|auto]. apply (ov_local _ _ _ _ (sy_overlapping _ _ _ _ _ _ _ _ SY) r p l' Hr Ht).
        * exists l. rewrite <- Ed. auto.
    - rewrite H2. reflexivity. }
  assert (One : forall es st, (forall e, In e es -> exists q j, q < N /\ In (snd e, j) (bget p (pb q)) /\ fst e = number (nat_name p (snd e))) ->
     let st' := fold_left (fun st gn => mkBlackMap (blackOk st)
               (setNative (snd gn) (globalToDomestic (domIdx (dom p)) (fst gn)) (blackIdx st))) es st in
     blackOk st' = blackOk st /\
     forall n, (In n (map snd es) -> nativeToDomesticOf n (blackIdx st') = globalToDomestic (domIdx (dom p)) (number (nat_name p n)))
      /\ (~ In n (map snd es) -> nativeToDomesticOf n (blackIdx st') = nativeToDomesticOf n (blackIdx st))).
  { induction es as [|[g m] es IH]; intros st H st'; subst st'.
    - cbn. split; [auto|]. intros n. split; [intros []|auto].
    - cbn [fold_left map snd fst].
      destruct (IH (mkBlackMap (blackOk st) (setNative m (globalToDomestic (domIdx (dom p)) g) (blackIdx st)))) as [I1 I2].
      { intros e He. apply H. right; auto. }
      split; [exact I1|]. intros n. destruct (I2 n) as [J1 J2].
      destruct (in_dec Nat.eq_dec n (map snd es)) as [Hin|Hn].
      + split; [auto|]. intros K. exfalso. apply K. right; auto.
      + rewrite (J2 Hn). cbn [blackIdx]. rewrite native_set.
        destruct (H (g, m) (or_introl eq_refl)) as (q & j & _ & _ & E). cbn [fst snd] in E.
        destruct (Nat.eqb_spec n m) as [->|Hne].
        * split; [intros _; rewrite E; reflexivity|]. intros K. exfalso. apply K. left; auto.
        * split; [|auto]. intros [K|K]; [congruence|contradiction]. }
  assert (All : forall qs st, (forall q, In q qs -> q < N) ->
     let st' := fold_left (fun st q => receiveBlack (dom p) q (blackFor (fo q) (dom q) (pb q) p) st) qs st in
     blackOk st' = blackOk st /\
     forall n, ((exists q j, In q qs /\ In (n, j) (bget p (pb q))) ->
        nativeToDomesticOf n (blackIdx st') = globalToDomestic (domIdx (dom p)) (number (nat_name p n)))
      /\ (~ (exists q j, In q qs /\ In (n, j) (bget p (pb q))) -> nativeToDomesticOf n (blackIdx st') = nativeToDomesticOf n (blackIdx st))).
  { induction qs as [|q qs IH]; intros st Hqs st'; subst st'.
    - cbn. split; [auto|]. intros n. split; [intros (q & j & [] & _)|auto].
    - cbn [fold_left]. assert (Hq : q < N) by (apply Hqs; left; auto).
      destruct (One (blackFor (fo q) (dom q) (pb q) p) st) as [O1 O2].
      { intros e He. rewrite (black_for q p Hq) in He. apply in_map_iff in He. destruct He as ([n j] & <- & Hin).
        cbn [fst snd]. exists q, j. auto. }
      fold (receiveBlack (dom p) q (blackFor (fo q) (dom q) (pb q) p) st) in O1, O2.
      destruct (IH (receiveBlack (dom p) q (blackFor (fo q) (dom q) (pb q) p) st)) as [I1 I2]; [intros; apply Hqs; right; auto|].
      split; [congruence|]. intros n. destruct (I2 n) as [J1 J2]. destruct (O2 n) as [P1 P2].
      assert (Here : In n (map snd (blackFor (fo q) (dom q) (pb q) p)) <-> exists j, In (n, j) (bget p (pb q))).
      { rewrite (black_for q p Hq), map_map. cbn [snd]. rewrite in_map_iff. split.
        - intros ([n' j] & <- & Hin). exists j. auto.
        - intros (j & Hin). exists (n, j). auto. }
      assert (Dec : (exists q' j, In q' qs /\ In (n, j) (bget p (pb q'))) \/ ~ (exists q' j, In q' qs /\ In (n, j) (bget p (pb q')))).
      { assert (E : (exists q' j, In q' qs /\ In (n, j) (bget p (pb q'))) <->
                   In n (flat_map (fun q' => map fst (bget p (pb q'))) qs)).
        { rewrite in_flat_map. split.
          - intros (q' & j & K1 & K2). exists q'. split; [auto|]. apply (in_map fst) in K2. exact K2.
          - intros (q' & K1 & K2). apply in_map_iff in K2. destruct K2 as ([n' j] & <- & K2). exists q', j. auto. }
        rewrite E. destruct (in_dec Nat.eq_dec n (flat_map (fun q' => map fst (bget p (pb q'))) qs)); auto. }
      destruct Dec as [Hd|Hd].
      + split; [auto|]. intros K. exfalso. apply K. destruct Hd as (q' & j & K1 & K2). exists q', j. split; [right; auto|auto].
      + rewrite (J2 Hd). split.
        * intros (q' & j & [<-|K1] & K2); [apply P1; apply Here; eauto|]. exfalso. apply Hd. eauto.
        * intros K. apply P2. intros K'. apply Here in K'. destruct K' as (j & K'). apply K. exists q, j. split; [left; auto|auto]. }
  destruct (All (map fst (pb p)) (mkBlackMap true [])) as [A1 A2].
  { intros q Hq. apply (sy_range _ _ PS p q Hp Hq). }
  split; [exact A1|]. intros n i. destruct (A2 n) as [B1 B2].
  assert (E : (exists q j, In q (map fst (pb p)) /\ In (n, j) (bget p (pb q))) <-> exists q j, q < N /\ In (n, j) (bget p (pb q))).
  { split; intros (q & j & K1 & K2); exists q, j; (split; [|auto]).
    - apply (sy_range _ _ PS p q Hp K1).
    - apply (sy_sym _ _ PS q p K1). apply bget_in in K2. destruct K2 as (es & K2 & _).
      apply (in_map fst) in K2. exact K2. }
  split.
  - intros H.
    assert (Dec : (exists q j, In q (map fst (pb p)) /\ In (n, j) (bget p (pb q)))).
    { destruct (in_dec Nat.eq_dec n (flat_map (fun q' => map fst (bget p (pb q'))) (map fst (pb p)))) as [K|K].
      - apply in_flat_map in K. destruct K as (q & K1 & K2). apply in_map_iff in K2.
        destruct K2 as ([n' j] & <- & K2). exists q, j. auto.
      - exfalso. rewrite B2 in H; [discriminate|]. intros (q & j & K1 & K2). apply K. apply in_flat_map.
        exists q. split; [auto|]. apply (in_map fst) in K2. exact K2. }
    rewrite (B1 Dec) in H. apply E in Dec. split; [auto|]. destruct Dec as (q & j & K1 & K2). apply (Val q n j K1 K2). auto.
  - intros (H & H1). rewrite B1 by (apply E; auto). destruct H as (q & j & K1 & K2). apply (Val q n j K1 K2). auto.
Qed.

End Black.

(* ----- everything together ----- *)

Section Whole.
Variable N : nat.
Variable pt : nat -> partition.
Variable d0 os : nat.
Variable name : nat -> nat -> nat.
Hypothesis DE : decomposition N pt d0 os name.
Variable pb : nat -> peerBlackLists.
Hypothesis PB : blackListsOf N pt name pb.
Variable maxDistance maxRank : nat.
Hypothesis HD : os <= maxDistance.
Hypothesis HR : N <= maxRank.

Notation fo := (PipelineProofs.fo pt d0 os).
Notation shared := (PipelineProofs.shared pt d0 os).
Notation dof := (PipelineProofs.dof pt name).
Notation res := (PipelineProofs.res pt d0 os).

Definition gi (p : nat) : indices := final fo p.
Definition theNumber : nat -> nat := number N fo dof.
Definition dom (p : nat) : domestic :=
  domResult fo shared (fun p l => length (nth l (byIndex (res p)) [])) maxDistance maxRank gi p.
Definition object (p : nat) : overlapObject :=
  mkOverlapObject (res p) (dom p) (blackResult fo dom pb p).

Lemma whole_system : exists ddof, system N fo shared dof theNumber (offset fo N) ddof dom.
Proof.
  pose proof (distributed_rows N pt d0 os name DE) as D.
  pose proof (overlapping_rows N pt d0 os name DE) as O.
  pose proof (numbering_ok N fo dof D) as NU.
  destruct (finite_choice (nat -> nat) (fun i => i)
     (fun p ddof => domesticOf N fo shared dof theNumber ddof p (dom p)) N) as (ddof & H).
  { intros p Hp. unfold dom. eapply domestic_result; eauto.
    - intros q Hq. apply (final_maps N); auto.
    - intros q r l d Hq Hin. apply (distance_bound N pt d0 os name DE) in Hin; auto. lia. }
  exists ddof. split; auto.
Qed.

Lemma build_all : forall V, assuredRun
  (cfg N (fun p => @buildOverlap V p N (pt p) (pb p) maxDistance maxRank) noMsg)
  (cfg N (fun p => Ret (object p)) noMsg).
Proof.
  intros V. unfold buildOverlap.
  pose proof (distributed_rows N pt d0 os name DE) as D.
  pose proof (overlapping_rows N pt d0 os name DE) as O.
  destruct whole_system as (ddof & SY).
  eapply phases.
  { unfold forForeign. apply lift_run; [reflexivity|].
    apply (build_assured N pt d0 os (de_borders _ _ _ _ _ DE) (de_size _ _ _ _ _ DE)). }
  cbv beta. eapply phases.
  { unfold forGlobal. apply lift_run; [reflexivity|].
    pose proof (whole N fo dof D) as W. unfold done in W. rewrite !start_cfg in W. exact W. }
  cbv beta. eapply phases.
  { unfold forDomestic. apply lift_run; [reflexivity|].
    apply (domestic_run N fo shared dof (fun p l => length (nth l (byIndex (res p)) [])) maxDistance maxRank gi O). }
  cbv beta. eapply phases.
  { unfold forBlack. apply lift_run; [reflexivity|].
    apply (black_run N fo dom pb (bl_peers _ _ _ _ PB)). }
  cbv beta. unfold object, dom. apply ar_nil.
Qed.

Section Vectors.
Variable ddof : nat -> nat -> nat.
Hypothesis SY : system N fo shared dof theNumber (offset fo N) ddof dom.
Let DM := sy_domestic _ _ _ _ _ _ _ _ SY.

Lemma rows_of : forall p, p < N -> rowsOf N pt d0 os name p (dom p) (ddof p).
Proof.
  intros p Hp. pose proof (DM p Hp) as M. split.
  - apply (dm_ok _ _ _ _ _ _ _ _ M).
  - intros x. rewrite <- (knows_iff N pt d0 os name DE p x Hp). apply (dm_knows _ _ _ _ _ _ _ _ M).
  - apply (dm_inj _ _ _ _ _ _ _ _ M).
  - intros n l H. pose proof (toLocal_lt _ _ _ H) as Hl.
    pose proof (dm_size _ _ _ _ _ _ _ _ M) as Hs. cbn [fo asForeign numLocal] in Hs.
    split; [lia|]. rewrite (dm_local _ _ _ _ _ _ _ _ M l Hl). unfold PipelineProofs.dof.
    rewrite (toNative_toLocal _ _ _ H). reflexivity.
  - intros i Hi. destruct (dm_master _ _ _ _ _ _ _ _ M i Hi) as [M1 M2]. split.
    + apply (has_row pt d0 os name). exact M1.
    + intros q Hq K. apply (M2 q Hq). apply (has_row pt d0 os name). exact K.
Qed.

Lemma black_of : forall p, p < N ->
  blackOk (ovBlack (object p)) = true
  /\ forall n i, nativeToDomesticOf n (blackIdx (ovBlack (object p))) = Some i <->
     (exists q j, q < N /\ In (n, j) (bget p (pb q))) /\ i < domSize (dom p) /\ ddof p i = name p n.
Proof.
  intros p Hp. cbn [object ovBlack].
  apply (black_result N fo shared dof theNumber (offset fo N) ddof dom SY pb name (bl_peers _ _ _ _ PB)); [|auto].
  intros q r n i Hq Hin. destruct (bl_entry _ _ _ _ PB q r n i Hq Hin) as [Hr E].
  pose proof (proj1 (row_local pt q i) Hr) as (l & Hl). exists l. split; [exact Hl|].
  split; [apply (toLocal_lt _ _ _ Hl)|]. unfold PipelineProofs.dof. rewrite (toNative_toLocal _ _ _ Hl). exact E.
Qed.

Section Values.
Context {V : Type}.
Variable zero : V.
Variable add : V -> V -> V.

Definition bufs (p : nat) : buffers := gotBuffers fo shared dom p.

Lemma vector_run : assuredRun
  (cfg N (fun p => @newVector V p (pt p) (object p)) noMsg)
  (cfg N (fun p => Ret (bufs p)) noMsg).
Proof.
  unfold newVector, forBuffer. apply lift_run; [reflexivity|].
  apply (buffers_run N fo shared dof theNumber (offset fo N) ddof dom SY).
Qed.

Variable v : nat -> list V.
Definition start_ (p : nat) : list V := fromNative (fo p) (dom p) zero (toNative (pt p)) (v p).

Lemma start_length : forall p, length (start_ p) = domSize (dom p).
Proof. intros p. unfold start_, fromNative. rewrite map_length, seq_length. reflexivity. Qed.

Lemma start_nth : forall p i, i < domSize (dom p) ->
  nth i (start_ p) zero = if i <? numLocal (fo p) then nth (toNative (pt p) i) (v p) zero else zero.
Proof.
  intros p i Hi. unfold start_, fromNative.
  rewrite (nth_indep _ zero ((fun d => if d <? numLocal (fo p) then nth (toNative (pt p) d) (v p) zero else zero) 0))
    by (rewrite map_length, seq_length; exact Hi).
  rewrite (map_nth (fun d => if d <? numLocal (fo p) then nth (toNative (pt p) d) (v p) zero else zero)).
  rewrite seq_nth by exact Hi. reflexivity.
Qed.

Lemma bufs_ok : forall p, p < N -> buffersOf fo shared dof (ddof p) (domSize (dom p)) p (bufs p).
Proof. intros p Hp. apply (buffers_correct N fo shared dof theNumber (offset fo N) ddof dom SY p Hp). Qed.

Lemma add_run : assuredRun
  (cfg N (fun p => buildAndAdd zero p N (pt p) (pb p) maxDistance maxRank add (v p)) noMsg)
  (cfg N (fun p => Ret (object p, syncAddResult fo zero add bufs start_ p)) noMsg).
Proof.
  unfold buildAndAdd. eapply phases; [apply build_all|]. cbv beta.
  eapply phases; [apply vector_run|]. cbv beta.
  eapply phases.
  { unfold forValues. apply lift_run; [reflexivity|]. unfold assignAddBorder, ovAsForeign.
    apply (syncAdd_run N fo shared dof theNumber (offset fo N) ddof dom SY zero add bufs bufs_ok start_). }
  apply ar_nil.
Qed.

Lemma assign_run : assuredRun
  (cfg N (fun p => forValues (assign (ovAsForeign p (pt p) (object p)) (ovDomestic (object p)) zero (bufs p) (toNative (pt p)) (v p))) noMsg)
  (cfg N (fun p => Ret (syncResult fo dom zero bufs start_ p)) noMsg).
Proof.
  unfold forValues. apply lift_run; [reflexivity|]. unfold assign, ovAsForeign.
  apply (sync_run N fo shared dof theNumber (offset fo N) ddof dom SY zero bufs bufs_ok start_).
Qed.

Lemma assign_all : assuredRun
  (cfg N (fun p => buildAndAssign zero p N (pt p) (pb p) maxDistance maxRank (v p)) noMsg)
  (cfg N (fun p => Ret (object p, syncResult fo dom zero bufs start_ p)) noMsg).
Proof.
  unfold buildAndAssign. eapply phases; [apply build_all|]. cbv beta.
  eapply phases; [apply vector_run|]. cbv beta.
  eapply phases; [apply assign_run|]. apply ar_nil.
Qed.

(** Every copy is the value of the lowest rank which has the row. *)
Lemma assign_value : forall p, p < N -> exists y, syncResult fo dom zero bufs start_ p = Some y
  /\ length y = domSize (dom p)
  /\ forall i m n, i < domSize (dom p) -> isRow pt m n -> name m n = ddof p i ->
     (forall q, q < m -> ~ hasRow pt name q (ddof p i)) -> nth i y zero = nth n (v m) zero.
Proof.
  intros p Hp.
  destruct (sync_result N fo shared dof theNumber (offset fo N) ddof dom SY zero add bufs bufs_ok start_
     (fun q _ => start_length q) p Hp) as (y & E & L & H).
  exists y. split; [exact E|]. split; [exact L|]. intros i m n Hi Hr En Hl.
  pose proof (proj1 (row_local pt m n) Hr) as (j & Hj). pose proof (toLocal_lt _ _ _ Hj) as Hj'.
  assert (Ed : dof m j = ddof p i).
  { unfold PipelineProofs.dof. rewrite (toNative_toLocal _ _ _ Hj). exact En. }
  assert (Hm : m < N).
  { destruct (Nat.lt_ge_cases m N) as [|Hge]; [auto|]. exfalso.
    destruct (master_local N fo shared dof theNumber (offset fo N) ddof dom SY p i Hp Hi) as [K1 K2].
    apply (Hl (domMasterRank (dom p) i)); [lia|]. apply (has_row pt d0 os name). exact K2. }
  rewrite (H i m j Hi); auto.
  - rewrite start_nth.
    + destruct (Nat.ltb_spec j (numLocal (fo m))) as [|K]; [|cbn [fo asForeign numLocal] in K; lia].
      rewrite (toNative_toLocal _ _ _ Hj). reflexivity.
    + pose proof (dm_size _ _ _ _ _ _ _ _ (DM m Hm)) as K. cbn [fo asForeign numLocal] in K. lia.
  - split; [exists j; auto|]. intros q Hq K. apply (Hl q Hq). apply (has_row pt d0 os name). exact K.
Qed.

End Values.

(* ----- sums ----- *)

Lemma map_nth_seq : forall A (L : list A) d, map (fun l => nth l L d) (seq 0 (length L)) = L.
Proof.
  induction L as [|a L IH]; intros d; [reflexivity|]. cbn [length seq map nth]. f_equal.
  rewrite <- seq_shift, map_map. apply IH.
Qed.

Lemma rowSum_local : forall v x, (rowSum N pt name v x ==
  sumLocal N fo dof x (fun q l => nth (toNative (pt q) l) (v q) 0))%Q.
Proof.
  intros v x. unfold rowSum, sumLocal. apply ResidualProofs.sumOver_ext. intros q _.
  assert (E : forall f : nat -> Q, (FluxSpec.sumOver (fun l => f (toNative (pt q) l)) (seq 0 (numLocal (fo q)))
              == FluxSpec.sumOver f (localIndices (pt q)))%Q).
  { intros f. rewrite <- (ResidualProofs.sumOver_map (toNative (pt q)) f). unfold toNative.
    change (numLocal (fo q)) with (length (localIndices (pt q))). rewrite map_nth_seq. reflexivity. }
  unfold PipelineProofs.dof.
  rewrite (E (fun n => if name q n =? x then nth n (v q) 0 else 0)%Q).
  unfold localIndices. rewrite <- sum_filter. apply ResidualProofs.sumOver_ext. intros n _.
  destruct (blackListed (pt q) n); cbn [negb andb]; reflexivity.
Qed.

Lemma add_value : forall v p, p < N -> exists y, syncAddResult fo 0%Q Qplus bufs (start_ 0%Q v) p = Some y
  /\ length y = domSize (dom p)
  /\ forall i, i < domSize (dom p) -> (nth i y 0 == rowSum N pt name v (ddof p i))%Q.
Proof.
  intros v p Hp.
  destruct (syncAdd_result N fo shared dof theNumber (offset fo N) ddof dom SY 0%Q Qplus bufs bufs_ok (start_ 0%Q v)
     (fun q _ => start_length 0%Q v q) p Hp) as (y & E & L & H).
  exists y. split; [exact E|]. split; [exact L|]. intros i Hi.
  destruct (H i Hi) as (c & C & Ey). rewrite Ey, rowSum_local.
  assert (Em : map (fun ql : nat * nat => nth (snd ql) (start_ 0%Q v (fst ql)) 0%Q) c
     = map (fun ql : nat * nat => nth (toNative (pt (fst ql)) (snd ql)) (v (fst ql)) 0%Q) c).
  { apply map_ext_in. intros [q l] Hin. cbn [fst snd]. apply C in Hin. destruct Hin as (Hq & _ & Hl & _).
    rewrite start_nth.
    - destruct (Nat.ltb_spec l (numLocal (fo q))); [reflexivity|lia].
    - pose proof (dm_size _ _ _ _ _ _ _ _ (DM q Hq)). lia. }
  rewrite Em.
  apply (add_total N fo shared dof theNumber (offset fo N) ddof dom SY p i c
    (fun q l => nth (toNative (pt q) l) (v q) 0%Q)); auto.
  rewrite start_nth by auto. reflexivity.
Qed.

(* ----- the scalar product ----- *)

Definition unwrap (o : option (list Q)) : list Q := match o with Some l => l | None => [] end.

Lemma dot_all : forall v w : nat -> list Q,
  assuredRun (cfg N (fun p => buildAndDot 0%Q p N (pt p) (pb p) maxDistance maxRank Qplus Qmult (v p) (w p)) noMsg)
   (cfg N (fun p => Ret (Some (fold_left Qplus (map (fun p => dotLocal (fo p) 0%Q Qplus Qmult p
        (unwrap (syncResult fo dom 0%Q bufs (start_ 0%Q v) p))
        (unwrap (syncResult fo dom 0%Q bufs (start_ 0%Q w) p))) (seq 0 N)) 0%Q))) noMsg).
Proof.
  intros v w. unfold buildAndDot. eapply phases; [apply build_all|]. cbv beta.
  eapply phases; [apply vector_run|]. cbv beta.
  eapply phases; [apply assign_run|]. cbv beta.
  eapply phases; [apply assign_run|]. cbv beta.
  rewrite (cfg_ext _ N _ (fun p => bind (forScalar 0%Q (dot (fo p) 0%Q Qplus Qmult p
        (unwrap (syncResult fo dom 0%Q bufs (start_ 0%Q v) p))
        (unwrap (syncResult fo dom 0%Q bufs (start_ 0%Q w) p)))) (fun s => Ret (Some s))) noMsg noMsg).
  - eapply phases.
    + unfold forScalar. apply lift_run; [reflexivity|].
      apply (dot_run N fo shared dof theNumber (offset fo N) ddof dom SY).
    + apply ar_nil.
  - intros p Hp.
    destruct (assign_value 0%Q Qplus v p Hp) as (y & E & _).
    destruct (assign_value 0%Q Qplus w p Hp) as (z & E' & _).
    rewrite E, E'. reflexivity.
  - reflexivity.
Qed.

Lemma dot_result : forall (v w : nat -> list Q) (X Y : nat -> Q) rows,
  (forall p n, p < N -> isRow pt p n -> (forall q, q < p -> ~ hasRow pt name q (name p n)) ->
     (nth n (v p) 0 == X (name p n))%Q /\ (nth n (w p) 0 == Y (name p n))%Q) ->
  NoDup rows -> (forall x, In x rows <-> exists p, p < N /\ hasRow pt name p x) ->
  (fold_left Qplus (map (fun p => dotLocal (fo p) 0 Qplus Qmult p
        (unwrap (syncResult fo dom 0%Q bufs (start_ 0%Q v) p))
        (unwrap (syncResult fo dom 0%Q bufs (start_ 0%Q w) p))) (seq 0 N)) 0
   == FluxSpec.sumOver (fun x => X x * Y x) rows)%Q.
Proof.
  intros v w X Y rows H ND Hrows.
  rewrite (dot_masters N fo shared dof theNumber (offset fo N) ddof dom SY _ _ X Y).
  - apply ResidualProofs.sumOver_perm.
    destruct (masterDofs_spec N fo shared dof theNumber (offset fo N) ddof dom SY) as [M1 M2].
    apply Permutation.NoDup_Permutation; auto. intros x. rewrite M2, Hrows.
    split; intros (p & Hp & K); exists p; (split; [auto|]); apply (has_row pt d0 os name); auto.
  - intros p i Hp Hi [_ M].
    assert (Hr : isRow pt p (toNative (pt p) i)) by (apply (native_row pt d0 os); auto).
    pose proof (dm_size _ _ _ _ _ _ _ _ (DM p Hp)) as Hs.
    pose proof (dm_local _ _ _ _ _ _ _ _ (DM p Hp) i Hi) as Ei.
    assert (Low : forall q, q < p -> ~ hasRow pt name q (name p (toNative (pt p) i))).
    { intros q Hq K. apply (M q Hq). apply (has_row pt d0 os name). exact K. }
    destruct (H p (toNative (pt p) i) Hp Hr Low) as [H1 H2].
    destruct (assign_value 0%Q Qplus v p Hp) as (y & E & _ & Hy).
    destruct (assign_value 0%Q Qplus w p Hp) as (z & E' & _ & Hz).
    rewrite E, E'. cbn [unwrap].
    rewrite (Hy i p (toNative (pt p) i)), (Hz i p (toNative (pt p) i)); auto; try lia; rewrite Ei; auto.
Qed.

End Vectors.
End Whole.
