From Coq Require Import Arith List Bool Lia Sorted Permutation.
From Verif Require Import MpiExchange GlobalIndexModel GlobalIndexSpec ForeignModel ForeignSpec ForeignProofs
  PipelineModel PipelineSpec CommModel CommSpec CommProofs.
Import ListNotations.

(* ----- vertices ----- *)

Lemma unpack_vertex : forall p pairs st, unpack handleVertex pairs (message handleVertex (p, []) pairs) st
  = Some (fst st, snd st ++ map (fun ij => mkBorder (snd ij) (fst ij) p 0) pairs).
Proof.
  intros p. induction pairs as [|[i j] pairs IH]; intros [r b].
  - cbn. rewrite app_nil_r. reflexivity.
  - cbn [message flat_map fst snd unpack handleVertex scatter gather gatherIndex app scatterVertex].
    etransitivity; [apply IH|]. cbn [fst snd map]. rewrite <- app_assoc. reflexivity.
Qed.

Lemma receive_vertex : forall plan q senders st,
  receiveFrom handleVertex plan (fun p => (p, [])) q senders st
  = Some (fst st, snd st ++ flat_map (fun p => map (fun ij => mkBorder (snd ij) (fst ij) p 0) (plan p q)) senders).
Proof.
  intros plan q. induction senders as [|p l IH]; intros [r b].
  - cbn. rewrite app_nil_r. reflexivity.
  - cbn [receiveFrom]. rewrite unpack_vertex, IH. cbn [fst snd flat_map]. rewrite <- app_assoc. reflexivity.
Qed.

Definition vertexList (plan : nat -> nat -> list (nat * nat)) (order : nat -> list nat) (q : nat) :=
  flat_map (fun p => map (fun ij => mkBorder (snd ij) (fst ij) p 0) (plan p q)) (order q).

Lemma vertex_list : forall plan order q, vertexBorderList plan order q = Some (vertexList plan order q).
Proof. intros. unfold vertexBorderList, communicate. rewrite receive_vertex. reflexivity. Qed.

(* ----- border lists over any interface ----- *)

Section Lists.
Variable N : nat.
Variable g : nat -> part.
Hypothesis IX : indexed N g.
Variables from to : partitionType -> bool.
Variable plan : nat -> nat -> list (nat * nat).
Variable order : nat -> list nat.
Hypothesis OV : overInterface N g from to plan order.
Variable d : nat.

Definition listOf (q : nat) := flat_map (fun p => map (fun ij => mkBorder (snd ij) (fst ij) p d) (plan p q)) (order q).

Lemma list_in : forall q e, q < N -> (In e (listOf q) <->
  exists p i j, e = mkBorder j i p d /\ p <> q /\ sameEntity N g p i q j /\ from (kind (g p) i) = true
    /\ to (kind (g q) j) = true).
Proof.
  destruct OV as [HP HO]. intros q e Hq. destruct (HO q Hq) as [_ HO'].
  unfold listOf. rewrite in_flat_map. split.
  - intros (p & Hp & H). apply HO' in Hp. destruct Hp as [Hp Hn]. apply in_map_iff in H.
    destruct H as ([i j] & E & H). apply (proj2 (HP p q Hp Hq Hn)) in H. exists p, i, j.
    split; [symmetry; exact E|]. tauto.
  - intros (p & i & j & -> & Hn & S & F & T). pose proof S as (Hp & _). exists p. split; [apply HO'; auto|].
    apply in_map_iff. exists (i, j). split; [reflexivity|]. apply (proj2 (HP p q Hp Hq Hn)). auto.
Qed.

Lemma list_once : forall q, q < N -> NoDup (map (fun e => (localIdx e, peerRank e)) (listOf q)).
Proof.
  destruct OV as [HP HO]. intros q Hq. destruct (HO q Hq) as [ND HO']. unfold listOf.
  assert (G : forall l, NoDup l -> (forall p, In p l -> p < N /\ p <> q) ->
    NoDup (map (fun e => (localIdx e, peerRank e))
             (flat_map (fun p => map (fun ij => mkBorder (snd ij) (fst ij) p d) (plan p q)) l))).
  { induction l as [|p l IH]; intros Hl Hin; [constructor|]. inversion Hl; subst. cbn [flat_map].
    destruct (Hin p (or_introl eq_refl)) as [Hp Hn]. destruct (HP p q Hp Hq Hn) as [NP IP].
    rewrite map_app, map_map. cbn [localIdx peerRank]. apply NoDup_append.
    - apply NoDup_map_in; [|exact NP].
      intros [i1 j1] [i2 j2] K1 K2 E. cbn [snd] in E. injection E as E.
      apply IP in K1, K2. destruct K1 as [(_ & _ & K1 & _ & E1) _], K2 as [(_ & _ & K2 & _ & E2) _].
      f_equal; [|exact E]. apply (IX p); auto. congruence.
    - apply IH; [assumption|]. intros p' Hp'. apply Hin. right. exact Hp'.
    - intros [j1 p1] K1 K2. apply in_map_iff in K1. destruct K1 as (x1 & E1 & _). injection E1 as _ E1.
      apply in_map_iff in K2. destruct K2 as (e & E2 & K2). injection E2 as _ E2.
      apply in_flat_map in K2. destruct K2 as (p2 & Hp2 & K2). apply in_map_iff in K2.
      destruct K2 as (x2 & E3 & _). rewrite <- E3 in E2. cbn [peerRank] in E2. congruence. }
  apply G; [exact ND|]. intros p Hp. apply HO'. exact Hp.
Qed.

End Lists.

(* ----- elements ----- *)

Lemma unpack_element : forall g p pairs st,
  (forall i j, In (i, j) pairs -> hasInteriorNeighbor g j = true) ->
  unpack (handleElement g) pairs (message (handleElement g) (mkBorderState p [] []) pairs) st
  = Some (mkBorderState (bsRank st)
       (match pairs with [] => bsPeers st | _ => setInsert p (bsPeers st) end)
       (bsBorder st ++ map (fun ij => mkBorder (snd ij) (fst ij) p 1) pairs)).
Proof.
  intros g p. induction pairs as [|[i j] pairs IH]; intros [r ps b] H.
  - cbn. rewrite app_nil_r. reflexivity.
  - cbn [message flat_map fst snd unpack handleElement scatter gather gatherIndex app scatterElement bsRank].
    unfold scatterElement. rewrite (H i j (or_introl eq_refl)). cbn [negb bsRank bsPeers bsBorder].
    etransitivity; [apply IH; intros i' j' Hin; apply (H i'); right; exact Hin|].
    cbn [bsRank bsPeers bsBorder map]. rewrite <- app_assoc. cbn [app].
    f_equal. f_equal. destruct pairs as [|e pairs]; [reflexivity|].
    (* inserting twice *)
    clear. induction ps as [|y ps IH]; cbn [setInsert].
    + rewrite Nat.ltb_irrefl, Nat.eqb_refl. reflexivity.
    + destruct (p <? y) eqn:E1; [cbn [setInsert]; rewrite Nat.ltb_irrefl, Nat.eqb_refl; reflexivity|].
      destruct (Nat.eqb p y) eqn:E2; cbn [setInsert]; rewrite E1, E2; [reflexivity|]. rewrite IH. reflexivity.
Qed.

Lemma receive_element : forall g plan q senders st,
  (forall p i j, In p senders -> In (i, j) (plan p q) -> hasInteriorNeighbor g j = true) ->
  exists st', receiveFrom (handleElement g) plan (fun p => mkBorderState p [] []) q senders st = Some st'
  /\ bsBorder st' = bsBorder st ++ flat_map (fun p => map (fun ij => mkBorder (snd ij) (fst ij) p 1) (plan p q)) senders
  /\ (StronglySorted lt (bsPeers st) -> StronglySorted lt (bsPeers st'))
  /\ forall p, In p (bsPeers st') <-> In p (bsPeers st) \/ In p senders /\ plan p q <> [].
Proof.
  intros g plan q. induction senders as [|p l IH]; intros st H.
  - exists st. cbn [flat_map]. rewrite app_nil_r. split; [reflexivity|]. split; [reflexivity|]. split; [auto|].
    cbn [In]. tauto.
  - cbn [receiveFrom]. rewrite unpack_element by (intros i j Hin; apply (H p i); [left; reflexivity|exact Hin]).
    match goal with |- context [receiveFrom _ _ _ _ _ ?s] => destruct (IH s) as (st' & E & B & S & P) end.
    { intros p' i j Hp Hin. apply (H p' i); [right; exact Hp|exact Hin]. }
    exists st'. split; [exact E|]. cbn [bsBorder bsPeers] in *. split.
    { rewrite B. cbn [flat_map]. rewrite <- app_assoc. reflexivity. }
    split.
    { intros K. apply S. destruct (plan p q); [exact K|]. apply setInsert_sorted. exact K. }
    intros x. rewrite P. cbn [In]. destruct (plan p q) as [|e r] eqn:Ep.
    + split; [tauto|]. intros [K|[[->|K] K2]]; auto. congruence.
    + rewrite setInsert_In. split; [|intuition]. intros [[->|K]|K]; auto; [|tauto].
      right. split; [auto|]. rewrite Ep. discriminate.
Qed.

Lemma bget_pushBack : forall q r e m, bget q (pushBack r e m) = if Nat.eqb q r then bget q m ++ [e] else bget q m.
Proof.
  intros q r e. induction m as [|[q' v] m IH]; cbn [pushBack bget].
  - destruct (Nat.eqb_spec q r); reflexivity.
  - destruct (Nat.eqb_spec r q') as [->|Hn]; cbn [bget].
    + destruct (Nat.eqb q q'); reflexivity.
    + destruct (Nat.eqb_spec q q') as [->|]; [|exact IH].
      destruct (Nat.eqb_spec q' r); [congruence|reflexivity].
Qed.

Lemma hasPeer_pushBack : forall q r e m, hasPeer q (pushBack r e m) = Nat.eqb q r || hasPeer q m.
Proof.
  intros q r e. induction m as [|[q' v] m IH]; cbn [pushBack hasPeer]; [reflexivity|].
  destruct (Nat.eqb_spec r q') as [->|Hn]; cbn [hasPeer].
  - destruct (Nat.eqb q q'); reflexivity.
  - rewrite IH. destruct (Nat.eqb q q'), (Nat.eqb q r); reflexivity.
Qed.

Lemma unpack_black : forall p pairs st, exists m,
  unpack handleBlack pairs (message handleBlack (p, []) pairs) st = Some (fst st, m)
  /\ (forall q, bget q m = if Nat.eqb q p then bget q (snd st) ++ pairs else bget q (snd st))
  /\ (forall q, hasPeer q m = hasPeer q (snd st) || (Nat.eqb q p && match pairs with [] => false | _ => true end)).
Proof.
  intros p. induction pairs as [|[i j] pairs IH]; intros [r m0].
  - exists m0. split; [reflexivity|]. split.
    + intros q. cbn [snd]. rewrite app_nil_r. destruct (Nat.eqb q p); reflexivity.
    + intros q. rewrite andb_false_r, orb_false_r. reflexivity.
  - cbn [message flat_map fst snd unpack handleBlack scatter gather gatherIndex app scatterBlack].
    destruct (IH (r, pushBack p (i, j) m0)) as (m & E & B & P). exists m. split; [exact E|]. cbn [fst snd] in *.
    split; intros q.
    + rewrite B, bget_pushBack. destruct (Nat.eqb q p); [|reflexivity]. rewrite <- app_assoc. reflexivity.
    + rewrite P, hasPeer_pushBack. destruct (Nat.eqb q p), (hasPeer q m0), pairs; reflexivity.
Qed.

Lemma receive_black : forall plan q senders st, NoDup senders -> exists m,
  receiveFrom handleBlack plan (fun p => (p, [])) q senders st = Some (fst st, m)
  /\ (forall p, In p senders -> bget p m = bget p (snd st) ++ plan p q)
  /\ (forall p, ~ In p senders -> bget p m = bget p (snd st))
  /\ (forall p, hasPeer p m = true <-> hasPeer p (snd st) = true \/ In p senders /\ plan p q <> []).
Proof.
  intros plan q. induction senders as [|p l IH]; intros st ND.
  - exists (snd st). destruct st. split; [reflexivity|]. cbn [In]. intuition.
  - inversion ND as [|? ? Hp Hl]; subst. cbn [receiveFrom].
    destruct (unpack_black p (plan p q) st) as (m1 & E1 & B1 & P1). rewrite E1.
    destruct (IH (fst st, m1) Hl) as (m & E & B & B' & P). exists m. split; [exact E|]. cbn [fst snd] in *.
    split; [|split].
    + intros x [->|Hx].
      * rewrite B' by exact Hp. rewrite B1, Nat.eqb_refl. reflexivity.
      * rewrite (B x Hx), B1. destruct (Nat.eqb_spec x p); [congruence|reflexivity].
    + intros x Hx. cbn [In] in Hx. rewrite B' by tauto. rewrite B1.
      destruct (Nat.eqb_spec x p) as [->|]; [tauto|reflexivity].
    + intros x. rewrite P, P1. cbn [In]. rewrite orb_true_iff, andb_true_iff, Nat.eqb_eq.
      destruct (Nat.eq_dec x p) as [->|Hn].
      * destruct (plan p q); intuition congruence.
      * intuition congruence.
Qed.

Lemma peerLists_some : forall peers m, (forall q, In q peers -> hasPeer q m = true) ->
  peerListsOf peers m = Some (map (fun q => (q, bget q m)) peers).
Proof.
  induction peers as [|q l IH]; intros m H; [reflexivity|]. cbn [peerListsOf map].
  rewrite (H q (or_introl eq_refl)), IH by (intros; apply H; right; assumption). reflexivity.
Qed.

Lemma bget_map : forall peers m p, bget p (map (fun q => (q, bget q m)) peers)
  = if existsb (Nat.eqb p) peers then bget p m else [].
Proof.
  induction peers as [|q l IH]; intros m p; [reflexivity|]. cbn [map bget existsb].
  destruct (Nat.eqb_spec p q) as [->|]; [reflexivity|]. apply IH.
Qed.

Section Elements.
Variable N : nat.
Variable g : nat -> part.
Variables plan plan2 : nat -> nat -> list (nat * nat).
Variables order order2 : nat -> list nat.
Hypothesis OV : overInterface N g anyEntity interiorBorder plan order.
Hypothesis OV2 : overInterface N g anyEntity interiorBorder plan2 order2.

Definition aligned (q : nat) : Prop := forall p i j, p <> q -> sameEntity N g p i q j ->
  interiorBorder (kind (g q) j) = true -> hasInteriorNeighbor (g q) j = true.

Lemma element_lists : forall q, q < N -> aligned q -> exists pb,
  elementBorderList g plan order plan2 order2 q = ElementLists (listOf plan order 1 q) pb
  /\ StronglySorted lt (map fst pb)
  /\ (forall p, In p (map fst pb) <-> p <> q /\ exists i j, sameEntity N g p i q j /\ interiorBorder (kind (g q) j) = true)
  /\ (forall p n i, In (n, i) (bget p pb) <-> p <> q /\ sameEntity N g p n q i /\ interiorBorder (kind (g q) i) = true).
Proof.
  intros q Hq AL. pose proof OV as [HP HO]. pose proof OV2 as [HP2 HO2].
  destruct (HO q Hq) as [ND HO']. destruct (HO2 q Hq) as [ND2 HO2'].
  unfold elementBorderList, communicate.
  destruct (receive_element (g q) plan q (order q) (mkBorderState q [] [])) as (st & E & B & S & P).
  { intros p i j Hp Hin. apply HO' in Hp. destruct Hp as [Hp Hn]. apply (proj2 (HP p q Hp Hq Hn)) in Hin.
    apply (AL p i j); tauto. }
  rewrite E. destruct (receive_black plan2 q (order2 q) (q, []) ND2) as (m & E2 & B1 & B2 & M). rewrite E2.
  cbn [fst snd bsPeers bsBorder bget app hasPeer] in *.
  assert (NE : forall p, p < N -> p <> q -> (plan p q <> [] <->
     exists i j, sameEntity N g p i q j /\ interiorBorder (kind (g q) j) = true)).
  { intros p Hp Hn. destruct (HP p q Hp Hq Hn) as [_ I]. split.
    - intros K. destruct (plan p q) as [|[i j] l]; [congruence|]. destruct (proj1 (I i j) (or_introl eq_refl)) as (K1 & _ & K2). eauto.
    - intros (i & j & K1 & K2) K. assert (F : In (i, j) (plan p q)) by (apply I; repeat split; auto; apply K1).
      rewrite K in F. destruct F. }
  assert (PP : forall p, In p (bsPeers st) <-> p <> q /\ exists i j, sameEntity N g p i q j /\ interiorBorder (kind (g q) j) = true).
  { intros p. rewrite P, HO'. split.
    - intros [[]|((Hp & Hn) & K)]. split; [exact Hn|]. apply NE; auto.
    - intros (Hn & K). right. assert (Hp : p < N) by (destruct K as (i & j & (K & _) & _); exact K).
      split; [auto|]. apply NE; auto. }
  assert (I2 : forall p n i, p < N -> p <> q -> (In (n, i) (plan2 p q) <-> sameEntity N g p n q i /\ interiorBorder (kind (g q) i) = true)).
  { intros p n i Hp Hn. rewrite (proj2 (HP2 p q Hp Hq Hn)). unfold anyEntity. tauto. }
  rewrite peerLists_some.
  2:{ intros p Hp. apply PP in Hp. destruct Hp as (Hn & i & j & K1 & K2). assert (Hp : p < N) by apply K1.
      apply M. right. split; [apply HO2'; auto|]. intros K. assert (F : In (i, j) (plan2 p q)) by (apply I2; auto).
      rewrite K in F. destruct F. }
  exists (map (fun p => (p, bget p m)) (bsPeers st)). split; [rewrite B; reflexivity|].
  assert (MF : map fst (map (fun p => (p, bget p m)) (bsPeers st)) = bsPeers st)
    by (rewrite map_map; cbn [fst]; apply map_id).
  rewrite MF. split; [apply S; constructor|]. split; [exact PP|].
  intros p n i. rewrite bget_map. destruct (existsb (Nat.eqb p) (bsPeers st)) eqn:X.
  - apply existsb_exists in X. destruct X as (p' & X & Ep). apply Nat.eqb_eq in Ep. subst p'.
    apply PP in X. destruct X as (Hn & K). assert (Hp : p < N) by (destruct K as (? & ? & (K & _) & _); exact K).
    rewrite (B1 p) by (apply HO2'; auto). rewrite I2 by auto. tauto.
  - split; [intros []|]. intros (Hn & K1 & K2). assert (F : In p (bsPeers st)) by (apply PP; eauto).
    assert (existsb (Nat.eqb p) (bsPeers st) = true) by (apply existsb_exists; exists p; split; [exact F|apply Nat.eqb_refl]).
    congruence.
Qed.

End Elements.

(* ----- the decompositions which arise ----- *)

Section Decompositions.
Variable N : nat.
Variable g : nat -> part.
Variable cols : nat -> nat -> list nat.
Variable os : nat.

(** The partition of a process for the linear solver: rows are entities. *)
Definition partOf (blackListed : part -> nat -> bool) (b : nat -> list borderIndex) (p : nat) : partition :=
  mkPartition (numEnt (g p)) (cols p) (b p) (blackListed (g p)) os.

Lemma interior_iff : forall k, k <> BorderEntity -> interiorBorder k = true -> k = InteriorEntity.
Proof. intros [] H K; cbn in K; congruence. Qed.

Lemma element_row : forall b p i, isRow (partOf elementBlackListed b) p i <->
  i < numEnt (g p) /\ kind (g p) i = InteriorEntity.
Proof using g cols os.
  clear N.
  intros b p i. unfold isRow, partOf, elementBlackListed. cbn [numNative blackListed].
  destruct (kind (g p) i); intuition congruence.
Qed.

Lemma same_sym : forall p i q j, sameEntity N g p i q j -> sameEntity N g q j p i.
Proof. unfold sameEntity. intuition. Qed.

Lemma element_decomposition : forall b, 1 <= os -> elementGrid N g ->
  (forall q, q < N -> forall e, In e (b q) <-> exists p i j, e = mkBorder j i p 1 /\ p <> q /\ sameEntity N g p i q j
     /\ interiorBorder (kind (g q) j) = true) ->
  (forall q, q < N -> NoDup (map (fun e => (localIdx e, peerRank e)) (b q))) ->
  decomposition N (partOf elementBlackListed b) 1 os (fun p => ident (g p)).
Proof.
  intros b Ho EG HB ON. destruct EG as [IX KI OW MU].
  assert (L : forall p i q j, p < N -> (lists (partOf elementBlackListed b) p i q j <->
     q <> p /\ sameEntity N g q j p i /\ kind (g p) i = InteriorEntity)).
  { intros p i q j Hp. unfold lists. cbn [partOf border]. split.
    - intros (e & He & E1 & E2 & E3). apply (HB p Hp) in He. destruct He as (q' & j' & i' & -> & Hn & S & K).
      cbn [localIdx peerRank peerIdx] in *. subst. split; [auto|]. split; [exact S|].
      destruct S as (_ & _ & _ & Hi & _). apply interior_iff; auto.
    - intros (Hn & S & K). exists (mkBorder i j q 1). split; [|auto]. apply (HB p Hp). exists q, j, i.
      split; [reflexivity|]. split; [auto|]. split; [exact S|]. rewrite K. reflexivity. }
  split; try lia.
  - split.
    + intros p e Hp He. apply (HB p Hp) in He. destruct He as (q & j & i & -> & _). reflexivity.
    + intros p i q j Hp H. apply L in H; [|auto]. destruct H as (Hn & (Hq & _) & _). auto.
    + intros p i q j Hp H. apply L in H; [|auto]. destruct H as (Hn & S & K).
      destruct (MU p i q j (same_sym _ _ _ _ S) (fun E => Hn (eq_sym E)) K) as (i' & j' & S' & K').
      assert (Hq : q < N) by apply S. exists i', j'. apply L; [auto|]. split; [auto|]. auto.
    + reflexivity.
  - split; try lia.
    + intros p i j Hp Hi Hj. apply element_row in Hi, Hj. apply IX; tauto.
    + intros _ p i q j Hp Hq Hn Hi Hj E. apply element_row in Hi, Hj. apply Hn.
      apply (OW p i q j); try tauto. unfold sameEntity. tauto.
    + intros p i q j Hp H. apply L in H; [|auto]. apply element_row. destruct H as (_ & (_ & _ & _ & Hi & _) & K). auto.
    + intros p Hp. cbn [partOf border]. apply ON. exact Hp.
Qed.

Lemma element_black : forall b pb, elementGrid N g ->
  (forall q, q < N -> StronglySorted lt (map fst (pb q))) ->
  (forall q, q < N -> forall p, In p (map fst (pb q)) <-> p <> q /\ exists i j, sameEntity N g p i q j /\ interiorBorder (kind (g q) j) = true) ->
  (forall q, q < N -> forall p n i, In (n, i) (bget p (pb q)) <-> p <> q /\ sameEntity N g p n q i /\ interiorBorder (kind (g q) i) = true) ->
  blackListsOf N (partOf elementBlackListed b) (fun p => ident (g p)) pb.
Proof.
  intros b pb EG SS PS EN. destruct EG as [IX KI OW MU]. split.
  - split.
    + intros p q Hp Hq. apply (PS p Hp) in Hq. destruct Hq as (Hn & i & j & (Hq & _) & _). auto.
    + intros p Hp. apply sorted_NoDup. apply SS. exact Hp.
    + intros p q Hp Hq. apply (PS p Hp) in Hq. destruct Hq as (Hn & j & i & S & K). pose proof S as (Hq & _ & _ & Hi & _).
      assert (K' : kind (g p) i = InteriorEntity) by (apply interior_iff; auto).
      destruct (MU p i q j (same_sym _ _ _ _ S) (fun E => Hn (eq_sym E)) K') as (i' & j' & S' & K2).
      apply (PS q Hq). split; [auto|]. exists i', j'. split; [exact S'|]. rewrite K2. reflexivity.
  - intros p q n i Hp H. apply (EN p Hp) in H. destruct H as (Hn & S & K). pose proof S as (_ & _ & _ & Hi & E).
    split; [|auto]. apply element_row. split; [auto|]. apply interior_iff; auto.
Qed.

Lemma vertex_row : forall b p i, isRow (partOf vertexBlackListed b) p i <->
  i < numEnt (g p) /\ interiorBorder (kind (g p) i) = true.
Proof using g cols os.
  clear N.
  intros b p i. unfold isRow, partOf, vertexBlackListed, interiorBorder. cbn [numNative blackListed].
  destruct (kind (g p) i); intuition congruence.
Qed.

Lemma vertex_decomposition : forall b, indexed N g ->
  (forall p i j, p < N -> j < numEnt (g p) -> interiorBorder (kind (g p) j) = true -> i < j -> interiorBorder (kind (g p) i) = true) ->
  undirected N (partOf vertexBlackListed b) ->
  (forall q, q < N -> forall e, In e (b q) <-> exists p i j, e = mkBorder j i p 0 /\ p <> q /\ sameEntity N g p i q j
     /\ interiorBorder (kind (g p) i) = true /\ interiorBorder (kind (g q) j) = true) ->
  (forall q, q < N -> NoDup (map (fun e => (localIdx e, peerRank e)) (b q))) ->
  decomposition N (partOf vertexBlackListed b) 0 os (fun p => ident (g p)).
Proof.
  intros b IX FI UN HB ON.
  assert (L : forall p i q j, p < N -> (lists (partOf vertexBlackListed b) p i q j <->
     q <> p /\ sameEntity N g q j p i /\ interiorBorder (kind (g q) j) = true /\ interiorBorder (kind (g p) i) = true)).
  { intros p i q j Hp. unfold lists. cbn [partOf border]. split.
    - intros (e & He & E1 & E2 & E3). apply (HB p Hp) in He. destruct He as (q' & j' & i' & -> & Hn & S & K).
      cbn [localIdx peerRank peerIdx] in *. subst. auto.
    - intros (Hn & S & K). exists (mkBorder i j q 0). split; [|auto]. apply (HB p Hp). exists q, j, i.
      split; [reflexivity|]. auto. }
  split; try lia.
  - split.
    + intros p e Hp He. apply (HB p Hp) in He. destruct He as (q & j & i & -> & _). reflexivity.
    + intros p i q j Hp H. apply L in H; [|auto]. destruct H as (Hn & (Hq & _) & _). auto.
    + intros p i q j Hp H. apply L in H; [|auto]. destruct H as (Hn & S & K1 & K2). exists i, j.
      apply L; [apply S|]. split; [auto|]. split; [apply same_sym; exact S|auto].
    + reflexivity.
  - intros _. split; [split|].
    + intros p i q j Hp H. apply L in H; [|auto]. apply vertex_row. destruct H as (_ & (_ & _ & _ & Hi & _) & _ & K). auto.
    + intros p i q j Hp H. apply L in H; [|auto]. destruct H as (Hn & S & K1 & K2).
      apply L; [apply S|]. split; [auto|]. split; [apply same_sym; exact S|auto].
    + intros p i q j j' Hp H K. apply L in H; [|auto]. apply L in K; [|auto].
      destruct H as (_ & (Hq & _ & Hj & _ & E) & _), K as (_ & (_ & _ & Hj' & _ & E') & _). apply (IX q); auto. congruence.
    + intros p i q j r l Hp H K Hr. apply L in H; [|auto].
      destruct H as (Hn & (Hq & _ & Hj & Hi & E) & K1 & K2). apply L in K; [|auto].
      destruct K as (Hn' & (Hr' & _ & Hl & _ & E') & K3 & K4).
      apply L; [auto|]. split; [auto|]. split; [|auto]. unfold sameEntity. repeat split; auto. congruence.
    + intros p i j Hp H Hij. apply vertex_row in H. apply vertex_row. split; [lia|]. apply (FI p i j); tauto.
  - intros _. exact UN.
  - split; try lia.
    + intros p i j Hp Hi Hj. apply vertex_row in Hi, Hj. apply IX; tauto.
    + intros _ p i q j Hp Hq Hn Hi Hj. apply vertex_row in Hi, Hj. rewrite L by auto. unfold sameEntity.
      split; [intros E|]; intuition.
    + intros p i q j Hp H. apply L in H; [|auto]. apply vertex_row. destruct H as (_ & (_ & _ & _ & Hi & _) & _ & K). auto.
    + intros p Hp. cbn [partOf border]. apply ON. exact Hp.
Qed.

End Decompositions.
