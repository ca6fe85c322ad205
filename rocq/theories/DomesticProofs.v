From Coq Require Import Arith List Bool Lia.
From Verif Require Import MpiModel MpiSpec MpiProofs MpiLemmas MpiExchange ExchangeModel
  GlobalIndexModel GlobalIndexSpec GlobalIndexProofs ForeignModel ForeignProofs DomesticModel DomesticSpec.
Import ListNotations.

(* ----- std::map, std::vector ----- *)

Lemma pget_ppush_eq : forall q x m, pget q (ppush q x m) =
  Some (match pget q m with Some v => v ++ [x] | None => [x] end).
Proof.
  induction m as [|[q' v] m IH]; cbn; [now rewrite Nat.eqb_refl|].
  destruct (Nat.eqb_spec q q'); cbn.
  - subst. now rewrite Nat.eqb_refl.
  - destruct (Nat.eqb_spec q q'); [lia|auto].
Qed.

Lemma pget_ppush_ne : forall q q' x m, q <> q' -> pget q (ppush q' x m) = pget q m.
Proof.
  induction m as [|[q2 v] m IH]; intros H; cbn.
  - destruct (Nat.eqb_spec q q'); [lia|reflexivity].
  - destruct (Nat.eqb_spec q' q2); cbn.
    + subst. destruct (Nat.eqb_spec q q2); [lia|reflexivity].
    + destruct (Nat.eqb_spec q q2); [reflexivity|auto].
Qed.

Lemma resize_grow : forall A n (x : A) l, n = S (length l) -> resize n x l = l ++ [x].
Proof.
  intros A n x l ->. unfold resize.
  rewrite firstn_all2 by lia. replace (S (length l) - length l) with 1 by lia. reflexivity.
Qed.

Lemma mset_length : forall k v m, length (mset k v m) =
  match mget k m with Some _ => length m | None => S (length m) end.
Proof.
  induction m as [|[k' v'] m IH]; cbn; [reflexivity|].
  destruct (Nat.eqb_spec k k'); cbn; [reflexivity|].
  rewrite IH. destruct (mget k m); reflexivity.
Qed.

Lemma nth_error_snoc : forall A (l : list A) x i y, nth_error (l ++ [x]) i = Some y <->
  nth_error l i = Some y \/ (i = length l /\ y = x).
Proof.
  intros A l x i y. destruct (lt_eq_lt_dec i (length l)) as [[H|H]|H].
  - rewrite nth_error_app1 by auto. split; [auto|]. intros [K|[K _]]; [auto|lia].
  - subst. rewrite nth_error_app2 by auto. rewrite Nat.sub_diag. cbn. split.
    + intros E. injection E as ->. auto.
    + intros [K|[_ ->]]; [|reflexivity].
      assert (length l < length l) by (apply nth_error_Some; congruence). lia.
  - split.
    + intros E. assert (i < length (l ++ [x])) by (apply nth_error_Some; congruence).
      rewrite app_length in *. cbn in *. lia.
    + intros [K|[K _]]; [|lia]. assert (i < length l) by (apply nth_error_Some; congruence). lia.
Qed.

Lemma nth_error_unique : forall A (l : list A) i j x, NoDup l ->
  nth_error l i = Some x -> nth_error l j = Some x -> i = j.
Proof.
  intros A l i j x ND Hi Hj. apply (proj1 (NoDup_nth_error l) ND); [|congruence].
  apply nth_error_Some. congruence.
Qed.

Lemma NoDup_app_snoc : forall A (l : list A) x, NoDup l -> ~ In x l -> NoDup (l ++ [x]).
Proof.
  intros A l x H Hn. apply NoDup_Add with (a := x) (l := l).
  - rewrite <- (app_nil_r l) at 1. apply Add_app.
  - auto.
Qed.

Lemma Forall2_weaken : forall A B (P Q : A -> B -> Prop) l l',
  (forall a b, P a b -> Q a b) -> Forall2 P l l' -> Forall2 Q l l'.
Proof. intros A B P Q l l' H F. induction F; constructor; auto. Qed.

Section Receive.
Variable N : nat.
Variable fo : nat -> foreignOverlap.
Variable shared : nat -> nat -> list (nat * nat).
Variable dof : nat -> nat -> nat.
Variable nPeers : nat -> nat -> nat.
Variable maxDistance maxRank : nat.
Variable number : nat -> nat.
Variable p : nat.

Notation nl := (numLocal (fo p)).
Notation has := (has fo dof).

(** What was received: from which rank, its local index, the distance. *)
Definition told := (nat * (nat * nat))%type.

Record building (seen : list told) (doms : list nat) (st : domestic) : Prop := {
  bu_ok : domOk st = true;
  bu_nodup : NoDup doms;
  bu_len1 : length (domByIndex st) = length doms;
  bu_len2 : length (domDistance st) = length doms;
  bu_len3 : numDomestic (domIdx st) = length doms;
  bu_d2g : forall i g, domesticToGlobal (domIdx st) i = Some g <->
    exists x, nth_error doms i = Some x /\ g = number x;
  bu_g2d : forall g i, globalToDomestic (domIdx st) g = Some i <->
    exists x, nth_error doms i = Some x /\ g = number x;
  bu_local : forall i, i < nl -> nth_error doms i = Some (dof p i);
  bu_in : forall x, In x doms <-> has p x \/ exists q l d, In (q, (l, d)) seen /\ dof q l = x;
  bu_with : forall q, match pget q (domWith st) with
    | Some is => Forall2 (fun i l => nth_error doms i = Some (dof q l)) is
        (map (fun t : told => fst (snd t)) (filter (fun t : told => Nat.eqb (fst t) q) seen))
    | None => filter (fun t : told => Nat.eqb (fst t) q) seen = []
    end;
  bu_by : forall i x q d, nth_error doms i = Some x ->
    (mget q (nth i (domByIndex st) []) = Some d <-> exists l, In (q, (l, d)) seen /\ dof q l = x);
  bu_dist_local : forall i, i < nl -> nth i (domDistance st) 0 = 0;
  bu_dist : forall i x, nth_error doms i = Some x -> nl <= i ->
    (exists q l, In (q, (l, nth i (domDistance st) 0)) seen /\ dof q l = x)
    /\ forall q l d, In (q, (l, d)) seen -> dof q l = x -> nth i (domDistance st) 0 <= d
}.

Hypothesis number_inj : forall x y, (exists r, r < N /\ has r x) -> (exists r, r < N /\ has r y) ->
  number x = number y -> x = y.
Hypothesis pN : p < N.
Hypothesis dof_inj : forall q i j, q < N -> i < numLocal (fo q) -> j < numLocal (fo q) -> dof q i = dof q j -> i = j.

(** All that is told is really there. *)
Definition telling (t : told) : Prop :=
  let '(q, (l, d)) := t in q < N /\ q <> p /\ l < numLocal (fo q) /\ (d <= maxDistance) .

Lemma in_doms_has : forall seen doms st, Forall telling seen -> building seen doms st ->
  forall x, In x doms -> exists r, r < N /\ has r x.
Proof.
  intros seen doms st T H x Hx. apply (bu_in _ _ _ H) in Hx.
  destruct Hx as [K|(q & l & d & K & E)]; [eauto|].
  rewrite Forall_forall in T. apply T in K. destruct K as (H1 & _ & H2 & _).
  exists q. split; [auto|]. exists l. auto.
Qed.

Lemma receive_step : forall seen doms st q l d,
  Forall telling seen -> telling (q, (l, d)) ->
  (forall d', ~ In (q, (l, d')) seen) ->
  building seen doms st ->
  exists doms', building (seen ++ [(q, (l, d))]) doms'
    (receiveDomestic maxDistance q st (mkIndexDist (number (dof q l)) d (nPeers q l))).
Proof.
  intros seen doms st q l d T Tq Hnew H.
  pose proof Tq as (Hq & Hqp & Hl & Hd).
  assert (Hx : exists r, r < N /\ has r (dof q l)) by (exists q; split; [auto|exists l; auto]).
  unfold receiveDomestic. cbn [idGlobal idDistance].
  set (x := dof q l) in *.
  assert (Honly : forall l' d', In (q, (l', d')) seen -> dof q l' <> x).
  { intros l' d' Hi E. rewrite Forall_forall in T. pose proof (T _ Hi) as (_ & _ & Hl' & _).
    assert (l' = l) by (apply (dof_inj q); auto). subst l'. apply (Hnew d' Hi). }
  (* the index of x *)
  assert (G : exists doms1 st1 i,
     (match globalToDomestic (domIdx st) (number x) with
      | Some _ => st
      | None => let idx := addIndex (domIdx st) (numDomestic (domIdx st)) (number x) in
          let newSize := numDomestic idx in
          mkDomestic (domOk st) idx (resize newSize [] (domByIndex st)) (domWith st)
            (resize newSize maxDistance (domDistance st)) (domMaster st)
      end) = st1
     /\ (doms1 = doms \/ doms1 = doms ++ [x])
     /\ nth_error doms1 i = Some x /\ NoDup doms1
     /\ domOk st1 = true /\ length (domByIndex st1) = length doms1
     /\ length (domDistance st1) = length doms1 /\ numDomestic (domIdx st1) = length doms1
     /\ (forall i g, domesticToGlobal (domIdx st1) i = Some g <-> exists x, nth_error doms1 i = Some x /\ g = number x)
     /\ (forall g i, globalToDomestic (domIdx st1) g = Some i <-> exists x, nth_error doms1 i = Some x /\ g = number x)
     /\ domWith st1 = domWith st
     /\ (forall j y, nth_error doms j = Some y -> nth j (domByIndex st1) [] = nth j (domByIndex st) []
           /\ nth j (domDistance st1) 0 = nth j (domDistance st) 0)
     /\ (i = length doms -> nth i (domByIndex st1) [] = [] /\ nth i (domDistance st1) 0 = maxDistance)
     /\ (i = length doms <-> ~ In x doms)).
  { destruct (globalToDomestic (domIdx st) (number x)) as [i|] eqn:Eg.
    - apply (bu_g2d _ _ _ H) in Eg. destruct Eg as (x' & Hi & En).
      assert (x' = x).
      { symmetry. apply number_inj; auto. apply (in_doms_has _ _ _ T H). eapply nth_error_In; eauto. }
      subst x'. exists doms, st, i. destruct H. repeat (split; [solve [auto]|]).
      assert (Hlt : i < length doms) by (apply nth_error_Some; congruence).
      split; [lia|]. split; [lia|]. intros Hni. exfalso. apply Hni. eapply nth_error_In; eauto.
    - assert (Hnin : ~ In x doms).
      { intros Hin. apply In_nth_error in Hin. destruct Hin as (i & Hi).
        assert (E : globalToDomestic (domIdx st) (number x) = Some i) by (apply (bu_g2d _ _ _ H); eauto).
        congruence. }
      assert (E2 : mget (numDomestic (domIdx st)) (d2g (domIdx st)) = None).
      { destruct (mget (numDomestic (domIdx st)) (d2g (domIdx st))) as [g|] eqn:E; [|reflexivity].
        apply (bu_d2g _ _ _ H) in E. destruct E as (y & Hy & _).
        assert (numDomestic (domIdx st) < length doms) by (apply nth_error_Some; congruence).
        rewrite (bu_len3 _ _ _ H) in *. lia. }
      assert (E3 : numDomestic (addIndex (domIdx st) (numDomestic (domIdx st)) (number x)) = S (length doms)).
      { unfold numDomestic at 1, addIndex. cbn [d2g]. rewrite mset_length, E2.
        unfold numDomestic in *. rewrite <- (bu_len3 _ _ _ H). reflexivity. }
      cbn zeta. rewrite E3.
      assert (R1 : resize (S (length doms)) [] (domByIndex st) = domByIndex st ++ [[]]).
      { apply resize_grow. f_equal. symmetry. exact (bu_len1 _ _ _ H). }
      assert (R2 : resize (S (length doms)) maxDistance (domDistance st) = domDistance st ++ [maxDistance]).
      { apply resize_grow. f_equal. symmetry. exact (bu_len2 _ _ _ H). }
      rewrite R1, R2.
      exists (doms ++ [x]). eexists. exists (length doms).
      split; [reflexivity|]. split; [auto|].
      split; [apply nth_error_snoc; auto|].
      split. { apply NoDup_app_snoc; [exact (bu_nodup _ _ _ H)|auto]. }
      cbn [domOk domByIndex domDistance domIdx domWith].
      split; [exact (bu_ok _ _ _ H)|].
      split; [rewrite !app_length, (bu_len1 _ _ _ H); reflexivity|].
      split; [rewrite !app_length, (bu_len2 _ _ _ H); reflexivity|].
      split; [rewrite E3, app_length; cbn; lia|].
      split.
      { intros i g. unfold domesticToGlobal, addIndex. cbn [d2g].
        destruct (Nat.eq_dec i (numDomestic (domIdx st))) as [->|Hne].
        - rewrite mget_mset_eq. rewrite (bu_len3 _ _ _ H). split.
          + intros E. injection E as <-. exists x. split; [apply nth_error_snoc; auto|reflexivity].
          + intros (y & Hy & ->). apply nth_error_snoc in Hy. destruct Hy as [Hy|[_ ->]]; [|reflexivity].
            assert (length doms < length doms) by (apply nth_error_Some; congruence). lia.
        - rewrite mget_mset_ne by auto. fold (domesticToGlobal (domIdx st) i). rewrite (bu_d2g _ _ _ H).
          rewrite (bu_len3 _ _ _ H) in Hne.
          split; intros (y & Hy & E); exists y; (split; [|auto]).
          + apply nth_error_snoc. auto.
          + apply nth_error_snoc in Hy. destruct Hy as [Hy|[Hy _]]; [auto|congruence]. }
      split.
      { intros g i. unfold globalToDomestic, addIndex. cbn [g2d].
        destruct (Nat.eq_dec g (number x)) as [->|Hne].
        - rewrite mget_mset_eq, (bu_len3 _ _ _ H). split.
          + intros E. injection E as <-. exists x. split; [apply nth_error_snoc; auto|reflexivity].
          + intros (y & Hy & E). apply nth_error_snoc in Hy. destruct Hy as [Hy|[-> _]]; [|reflexivity].
            assert (x = y).
            { apply number_inj; auto. apply (in_doms_has _ _ _ T H). eapply nth_error_In; eauto. }
            subst y. exfalso. apply Hnin. eapply nth_error_In; eauto.
        - rewrite mget_mset_ne by auto. fold (globalToDomestic (domIdx st) g). rewrite (bu_g2d _ _ _ H).
          split; intros (y & Hy & E); exists y; (split; [|auto]).
          + apply nth_error_snoc. auto.
          + apply nth_error_snoc in Hy. destruct Hy as [Hy|[_ Hy]]; [auto|congruence]. }
      split; [reflexivity|].
      split.
      { intros j y Hj. assert (j < length doms) by (apply nth_error_Some; congruence).
        rewrite !app_nth1; [auto| |]; rewrite ?(bu_len1 _ _ _ H), ?(bu_len2 _ _ _ H); auto. }
      split; [|tauto].
      intros _. rewrite <- (bu_len1 _ _ _ H) at 1. rewrite <- (bu_len2 _ _ _ H).
      rewrite !app_nth2 by lia. rewrite !Nat.sub_diag. auto. }
  destruct G as (doms1 & st1 & i & E1 & Hdoms & Hi & ND & Hok & L1 & L2 & L3 & D2G & G2D & HW & Hold & Hnewi & Hiff).
  cbn zeta in E1. cbn zeta. rewrite E1. clear E1.
  assert (Eg : globalToDomestic (domIdx st1) (number x) = Some i) by (apply G2D; eauto).
  rewrite Eg.
  assert (Hlt : i < length doms1) by (apply nth_error_Some; congruence).
  destruct (Nat.ltb_spec i (length (domByIndex st1))) as [Hb1|]; [|lia].
  destruct (Nat.ltb_spec i (length (domDistance st1))) as [Hb2|]; [|lia].
  cbn [andb].
  assert (Hmono : forall j y, nth_error doms j = Some y -> nth_error doms1 j = Some y).
  { intros j y Hj. destruct Hdoms as [->| ->]; [auto|]. apply nth_error_snoc. auto. }
  assert (Hback : forall j y, nth_error doms1 j = Some y -> nth_error doms j = Some y \/ (j = i /\ j = length doms)).
  { intros j y Hj. destruct Hdoms as [->| ->]; [auto|]. apply nth_error_snoc in Hj.
    destruct Hj as [Hj|[Hj ->]]; [auto|]. right. split; [|auto].
    apply (nth_error_unique _ _ j i x ND); [|auto]. apply nth_error_snoc. auto. }
  assert (Hin' : forall t, In t (seen ++ [(q, (l, d))]) <-> In t seen \/ t = (q, (l, d))).
  { intros t. rewrite in_app_iff. cbn [In]. intuition auto. }
  exists doms1. split; cbn [domOk domByIndex domDistance domIdx domWith].
  - exact Hok.
  - exact ND.
  - rewrite upd_len. exact L1.
  - rewrite upd_len. exact L2.
  - exact L3.
  - exact D2G.
  - exact G2D.
  - intros j Hj. apply Hmono. apply (bu_local _ _ _ H); auto.
  - intros y. split.
    + intros Hy. destruct (Nat.eq_dec y x) as [->|Hyx].
      * right. exists q, l, d. split; [apply Hin'; auto|reflexivity].
      * assert (Hy' : In y doms).
        { destruct Hdoms as [->| ->]; [auto|]. apply in_app_iff in Hy. destruct Hy as [Hy|[Hy|[]]]; congruence. }
        apply (bu_in _ _ _ H) in Hy'. destruct Hy' as [K|(q' & l' & d' & K & K')]; [auto|].
        right. exists q', l', d'. rewrite Hin'. auto.
    + intros K. assert (K' : In y doms \/ y = x).
      { destruct K as [K|(q' & l' & d' & K & K')].
        - left. apply (bu_in _ _ _ H). auto.
        - apply Hin' in K. destruct K as [K|K].
          + left. apply (bu_in _ _ _ H). right. eauto.
          + injection K as -> -> ->. auto. }
      destruct K' as [K'| ->]; [|eapply nth_error_In; eauto].
      apply In_nth_error in K'. destruct K' as (j & Hj). apply Hmono in Hj. eapply nth_error_In; eauto.
  - intros q'. pose proof (bu_with _ _ _ H q') as W. rewrite HW. rewrite filter_app. cbn [filter fst].
    destruct (Nat.eq_dec q' q) as [->|Hne].
    + rewrite pget_ppush_eq, Nat.eqb_refl, map_app. cbn [map fst snd].
      destruct (pget q (domWith st)) as [is|].
      * apply Forall2_app; [|repeat constructor; auto].
        eapply Forall2_weaken; [|exact W]. cbn beta. intros a b. apply Hmono.
      * rewrite W. cbn. repeat constructor. auto.
    + rewrite pget_ppush_ne by auto. destruct (Nat.eqb_spec q q'); [congruence|]. rewrite app_nil_r.
      destruct (pget q' (domWith st)) as [is|]; [|auto].
      eapply Forall2_weaken; [|exact W]. cbn beta. intros a b. apply Hmono.
  - intros j y q' d' Hj. destruct (Nat.eq_dec i j) as [<-|Hne].
    + assert (y = x) by congruence. subst y. rewrite nth_upd_eq by auto.
      destruct (Nat.eq_dec q' q) as [->|Hqq].
      * rewrite mget_mset_eq. split.
        -- intros E. injection E as <-. exists l. split; [apply Hin'; auto|reflexivity].
        -- intros (l' & Hl' & E). apply Hin' in Hl'. destruct Hl' as [Hl'|Hl'].
           ++ exfalso. apply (Honly _ _ Hl'). exact E.
           ++ congruence.
      * rewrite mget_mset_ne by auto.
        assert (Eq : mget q' (nth i (domByIndex st1) []) = Some d' <-> exists l', In (q', (l', d')) seen /\ dof q' l' = x).
        { destruct (Hback _ _ Hj) as [Hj'|[_ Hlen]].
          - destruct (Hold _ _ Hj') as [-> _]. apply (bu_by _ _ _ H); auto.
          - destruct (Hnewi Hlen) as [-> _]. split; [discriminate|].
            intros (l' & K & K'). exfalso. apply (proj1 Hiff Hlen). apply (bu_in _ _ _ H).
            right. exists q', l', d'. auto. }
        rewrite Eq. split; intros (l' & K & K'); exists l'; (split; [|auto]).
        -- apply Hin'. auto.
        -- apply Hin' in K. destruct K as [K|K]; [auto|congruence].
    + rewrite nth_upd_ne by auto.
      destruct (Hback _ _ Hj) as [Hj'|[Hji _]]; [|congruence].
      destruct (Hold _ _ Hj') as [-> _]. rewrite (bu_by _ _ _ H _ _ _ _ Hj').
      split; intros (l' & K & K'); exists l'; (split; [|auto]).
      * apply Hin'. auto.
      * apply Hin' in K. destruct K as [K|K]; [auto|]. injection K as -> -> ->.
        exfalso. apply Hne. apply (nth_error_unique _ _ i j x ND); [auto|]. rewrite Hj. f_equal. symmetry. exact K'.
  - intros j Hj. pose proof (bu_local _ _ _ H j Hj) as Hj'.
    destruct (Hold _ _ Hj') as [_ E2].
    destruct (Nat.eq_dec i j) as [<-|Hne].
    + rewrite nth_upd_eq by auto. rewrite E2, (bu_dist_local _ _ _ H i Hj). lia.
    + rewrite nth_upd_ne by auto. rewrite E2. apply (bu_dist_local _ _ _ H j Hj).
  - intros j y Hj Hnl. destruct (Nat.eq_dec i j) as [<-|Hne].
    + assert (y = x) by congruence. subst y. rewrite nth_upd_eq by auto.
      destruct (Hback _ _ Hj) as [Hj'|[_ Hlen]].
      * destruct (Hold _ _ Hj') as [_ ->].
        destruct (bu_dist _ _ _ H _ _ Hj' Hnl) as ((q1 & l1 & K1 & K2) & Hmin). split.
        -- destruct (Nat.min_spec d (nth i (domDistance st) 0)) as [[_ ->]|[_ ->]].
           ++ exists q, l. split; [apply Hin'; auto|reflexivity].
           ++ exists q1, l1. split; [apply Hin'; auto|auto].
        -- intros q' l' d' K K'. apply Hin' in K. destruct K as [K|K].
           ++ pose proof (Hmin _ _ _ K K'). lia.
           ++ injection K as -> -> ->. lia.
      * destruct (Hnewi Hlen) as [_ ->]. rewrite Nat.min_l by auto. split.
        -- exists q, l. split; [apply Hin'; auto|reflexivity].
        -- intros q' l' d' K K'. apply Hin' in K. destruct K as [K|K].
           ++ exfalso. apply (proj1 Hiff Hlen). apply (bu_in _ _ _ H). right. exists q', l', d'. auto.
           ++ injection K as -> -> ->. lia.
    + rewrite nth_upd_ne by auto. destruct (Hback _ _ Hj) as [Hj'|[Hji _]]; [|congruence].
      destruct (Hold _ _ Hj') as [_ ->].
      destruct (bu_dist _ _ _ H _ _ Hj' Hnl) as ((q1 & l1 & K1 & K2) & Hmin). split.
      * exists q1, l1. split; [apply Hin'; auto|auto].
      * intros q' l' d' K K'. apply Hin' in K. destruct K as [K|K]; [eauto|].
        injection K as -> -> ->. exfalso. apply Hne.
        apply (nth_error_unique _ _ i j x ND); [auto|]. rewrite Hj. f_equal. symmetry. exact K'.
Qed.


Definition entryOf (q : nat) (ld : nat * nat) : indexDist :=
  mkIndexDist (number (dof q (fst ld))) (snd ld) (nPeers q (fst ld)).

Lemma receive_from : forall q lds seen doms st,
  Forall telling seen -> Forall telling (map (pair q) lds) ->
  NoDup (map fst lds) -> (forall l d d', In (l, d) lds -> ~ In (q, (l, d')) seen) ->
  building seen doms st ->
  exists doms', building (seen ++ map (pair q) lds) doms'
    (fold_left (receiveDomestic maxDistance q) (map (entryOf q) lds) st).
Proof.
  induction lds as [|[l d] lds IH]; intros seen doms st T Tq ND Hnew H.
  - exists doms. cbn. rewrite app_nil_r. exact H.
  - cbn [map fold_left] in *. inversion Tq as [|? ? T1 T2]; subst. inversion ND as [|? ? N1 N2]; subst.
    destruct (receive_step seen doms st q l d T T1) as (doms1 & H1); [|exact H|].
    { intros d'. apply (Hnew l d). left. reflexivity. }
    edestruct (IH (seen ++ [(q, (l, d))]) doms1) as (doms2 & H2); [| | | |exact H1|].
    + apply Forall_app. split; [auto|]. constructor; auto.
    + auto.
    + auto.
    + intros l' d1 d' Hin Hs. apply in_app_iff in Hs. destruct Hs as [Hs|[Hs|[]]].
      * apply (Hnew l' d1 d'); [right; auto|auto].
      * injection Hs as -> ->. apply N1. apply (in_map fst) in Hin. exact Hin.
    + exists doms2. rewrite <- app_assoc in H2. exact H2.
Qed.

Lemma receive_peers : forall qs seen doms st,
  Forall telling seen ->
  (forall q, In q qs -> Forall telling (map (pair q) (shared q p))) ->
  (forall q, In q qs -> NoDup (map fst (shared q p))) ->
  NoDup qs -> (forall q t, In q qs -> ~ In (q, t) seen) ->
  building seen doms st ->
  exists doms', building (seen ++ flat_map (fun q => map (pair q) (shared q p)) qs) doms'
    (fold_left (fun st q => fold_left (receiveDomestic maxDistance q) (map (entryOf q) (shared q p)) st) qs st).
Proof.
  induction qs as [|q qs IH]; intros seen doms st T Tq NDs ND Hnew H.
  - exists doms. cbn. rewrite app_nil_r. exact H.
  - cbn [flat_map fold_left] in *. inversion ND as [|? ? N1 N2]; subst.
    destruct (receive_from q (shared q p) seen doms st T) as (doms1 & H1); auto.
    { apply Tq. left; reflexivity. }
    { apply NDs. left; reflexivity. }
    { intros l d d' _. apply Hnew. left; reflexivity. }
    edestruct (IH (seen ++ map (pair q) (shared q p)) doms1) as (doms2 & H2); [| | | | |exact H1|].
    + apply Forall_app. split; [auto|]. apply Tq. left; reflexivity.
    + intros q' Hq'. apply Tq. right; auto.
    + intros q' Hq'. apply NDs. right; auto.
    + auto.
    + intros q' t Hq' Ht. apply in_app_iff in Ht. destruct Ht as [Ht|Ht].
      * apply (Hnew q' t); [right; auto|auto].
      * apply in_map_iff in Ht. destruct Ht as (ld & E & _). injection E as -> _. auto.
    + exists doms2. rewrite <- app_assoc in H2. exact H2.
Qed.

(* ----- the masters ----- *)

Lemma update_masters : forall q l st,
  domOk st = true -> (forall i, In i l -> i < length (domMaster st)) ->
  let st' := fold_left (updateMaster (fo p) q) l st in
  domOk st' = true /\ domIdx st' = domIdx st /\ domByIndex st' = domByIndex st
  /\ domWith st' = domWith st /\ domDistance st' = domDistance st
  /\ length (domMaster st') = length (domMaster st)
  /\ (forall i, i < nl -> nth i (domMaster st') 0 = nth i (domMaster st) 0)
  /\ (forall i, nl <= i -> (In i l -> nth i (domMaster st') 0 = Nat.min (nth i (domMaster st) 0) q)
                /\ (~ In i l -> nth i (domMaster st') 0 = nth i (domMaster st) 0)).
Proof using Type. clear pN number_inj dof_inj.
  intros q. induction l as [|x l IH]; intros st Hok Hl st'.
  - subst st'. cbn [fold_left]. do 7 (split; [auto|]). intros i Hi. split; [intros []|auto].
  - subst st'. cbn [fold_left].
    assert (U : let s1 := updateMaster (fo p) q st x in
      domOk s1 = true /\ domIdx s1 = domIdx st /\ domByIndex s1 = domByIndex st
      /\ domWith s1 = domWith st /\ domDistance s1 = domDistance st
      /\ length (domMaster s1) = length (domMaster st)
      /\ (forall i, i < nl -> nth i (domMaster s1) 0 = nth i (domMaster st) 0)
      /\ (forall i, nl <= i -> nth i (domMaster s1) 0 =
            if Nat.eqb i x then Nat.min (nth i (domMaster st) 0) q else nth i (domMaster st) 0)).
    { cbn zeta. unfold updateMaster. destruct (Nat.ltb_spec x nl).
      - repeat (split; [auto|]). intros i Hi. destruct (Nat.eqb_spec i x); [lia|reflexivity].
      - pose proof (Hl x (or_introl eq_refl)) as Hx.
        destruct (Nat.ltb_spec x (length (domMaster st))); [|lia].
        cbn [domOk domIdx domByIndex domWith domDistance domMaster].
        repeat (split; [solve [auto]|]). split; [apply upd_len|]. split.
        + intros i Hi. apply nth_upd_ne. lia.
        + intros i Hi. destruct (Nat.eqb_spec i x) as [->|Hne].
          * apply nth_upd_eq. auto.
          * apply nth_upd_ne. auto. }
    cbn zeta in U. destruct U as (U1 & U2 & U3 & U4 & U5 & U6 & U7 & U8).
    set (s1 := updateMaster (fo p) q st x) in *. clearbody s1.
    destruct (IH s1 U1) as (V1 & V2 & V3 & V4 & V5 & V6 & V7 & V8).
    { intros i Hi. rewrite U6. apply Hl. right; auto. }
    split; [exact V1|]. split; [congruence|]. split; [congruence|]. split; [congruence|].
    split; [congruence|]. split; [congruence|]. split.
    + intros i Hi. rewrite V7, U7; auto.
    + intros i Hi. destruct (V8 i Hi) as [V9 V10]. rewrite (U8 i Hi) in V9, V10.
      destruct (in_dec Nat.eq_dec i l) as [Hin|Hin].
      * rewrite (V9 Hin). split; [intros _|intros Hc; exfalso; apply Hc; right; auto].
        destruct (Nat.eqb_spec i x); lia.
      * rewrite (V10 Hin). destruct (Nat.eqb_spec i x) as [->|Hne].
        -- split; [auto|]. intros Hc. exfalso. apply Hc. left; auto.
        -- split; [|auto]. intros [->|Hc]; [congruence|contradiction].
Qed.

(** [who i q]: rank q tells about the domestic index i. *)
Lemma update_all : forall qs (who : nat -> nat -> Prop) st,
  domOk st = true ->
  (forall q, In q qs -> exists is, pget q (domWith st) = Some is
      /\ (forall i, In i is -> i < length (domMaster st)) /\ forall i, In i is <-> who i q) ->
  let st' := fold_left (fun st q => match pget q (domWith st) with
      | Some l => fold_left (updateMaster (fo p) q) l st
      | None => badDomestic st
      end) qs st in
  domOk st' = true /\ domIdx st' = domIdx st /\ domByIndex st' = domByIndex st
  /\ domWith st' = domWith st /\ domDistance st' = domDistance st
  /\ (forall i, i < nl -> nth i (domMaster st') 0 = nth i (domMaster st) 0)
  /\ (forall i, nl <= i ->
        (nth i (domMaster st') 0 = nth i (domMaster st) 0
         \/ exists q, In q qs /\ who i q /\ nth i (domMaster st') 0 = q)
        /\ nth i (domMaster st') 0 <= nth i (domMaster st) 0
        /\ forall q, In q qs -> who i q -> nth i (domMaster st') 0 <= q).
Proof using Type. clear pN number_inj dof_inj.
  induction qs as [|q qs IH]; intros who st Hok Hw st'.
  - subst st'. cbn [fold_left]. do 6 (split; [auto|]). intros i Hi. split; [auto|]. split; [auto|]. intros q [].
  - subst st'. cbn [fold_left].
    destruct (Hw q (or_introl eq_refl)) as (is & E & Hlt & Hwho). rewrite E.
    destruct (update_masters q is st Hok Hlt) as (U1 & U2 & U3 & U4 & U5 & U6 & U7 & U8).
    set (s1 := fold_left (updateMaster (fo p) q) is st) in *. clearbody s1.
    destruct (IH who s1 U1) as (V1 & V2 & V3 & V4 & V5 & V6 & V7).
    { intros q' Hq'. destruct (Hw q' (or_intror Hq')) as (is' & E' & Hlt' & Hwho').
      exists is'. rewrite U4, U6. auto. }
    set (s2 := fold_left _ qs s1) in *. clearbody s2.
    split; [exact V1|]. split; [congruence|]. split; [congruence|]. split; [congruence|].
    split; [congruence|]. split.
    + intros i Hi. rewrite V6, U7; auto.
    + intros i Hi. destruct (V7 i Hi) as (W1 & W2 & W3). destruct (U8 i Hi) as [U9 U10].
      destruct (in_dec Nat.eq_dec i is) as [Hin|Hin].
      * rewrite (U9 Hin) in W1, W2. split; [|split].
        -- destruct W1 as [W1|(q' & K1 & K2 & K3)].
           ++ destruct (Nat.min_spec (nth i (domMaster st) 0) q) as [[_ M]|[_ M]]; rewrite M in W1; [auto|].
              right. exists q. split; [left; auto|]. split; [apply Hwho; auto|auto].
           ++ right. exists q'. split; [right; auto|auto].
        -- lia.
        -- intros q' [<-|Hq'] K; [lia|auto].
      * rewrite (U10 Hin) in W1, W2. split; [|split].
        -- destruct W1 as [W1|(q' & K1 & K2 & K3)]; [auto|].
           right. exists q'. split; [right; auto|auto].
        -- lia.
        -- intros q' [<-|Hq'] K; [exfalso; apply Hin; apply Hwho; auto|auto].
Qed.

End Receive.

Lemma filter_pairs : forall (f : nat -> list (nat * nat)) qs q, NoDup qs ->
  filter (fun t : told => Nat.eqb (fst t) q) (flat_map (fun q => map (pair q) (f q)) qs)
  = if in_dec Nat.eq_dec q qs then map (pair q) (f q) else [].
Proof.
  intros f qs q ND. induction ND as [|x qs Hx ND IH]; [reflexivity|].
  cbn [flat_map].
  assert (E : filter (fun t : told => Nat.eqb (fst t) q) (map (pair x) (f x)) =
    if Nat.eqb x q then map (pair x) (f x) else []).
  { induction (f x) as [|a l IH']; cbn [map filter fst]; [destruct (Nat.eqb x q); reflexivity|].
    rewrite IH'. destruct (Nat.eqb x q); reflexivity. }
  etransitivity; [apply filter_app|]. etransitivity; [apply (f_equal2 (@app told) E IH)|].
  clear E IH. destruct (Nat.eqb_spec x q) as [->|Hne].
  - destruct (in_dec Nat.eq_dec q qs); [contradiction|].
    destruct (in_dec Nat.eq_dec q (q :: qs)) as [|n']; [apply app_nil_r|exfalso; apply n'; left; auto].
  - destruct (in_dec Nat.eq_dec q qs) as [i|n], (in_dec Nat.eq_dec q (x :: qs)) as [i'|n']; cbn; auto.
    + exfalso. apply n'. right; auto.
    + exfalso. destruct i'; auto.
Qed.

Section Stage.
Variable N : nat.
Variable fo : nat -> foreignOverlap.
Variable shared : nat -> nat -> list (nat * nat).
Variable dof : nat -> nat -> nat.
Variable nPeers : nat -> nat -> nat.
Variable maxDistance maxRank : nat.
Variable number : nat -> nat.
Variable total : nat.
Variable gi : nat -> indices.
Hypothesis D : distributed N fo dof.
Hypothesis O : overlapping N fo shared dof.
Hypothesis NU : numbering N fo dof number total.
Hypothesis GI : forall p, p < N -> mapsTo fo dof number p (gi p).
Hypothesis Hdist : forall p q l d, p < N -> In (l, d) (shared p q) -> d <= maxDistance.
Hypothesis Hrank : N <= maxRank.

Definition received (p : nat) : domestic :=
  fold_left (fun st q => fold_left (receiveDomestic maxDistance q) (indicesFor (shared q) (nPeers q) (gi q) p) st)
    (peerSet (fo p)) (initialDomestic (fo p) (shared p) (gi p)).

Definition domResult (p : nat) : domestic := updateMasterRanks (fo p) maxRank (received p).

Lemma peers_sym : symmetric N (fun p => peerSet (fo p)).
Proof.
  split.
  - apply (ov_range _ _ _ _ O).
  - apply (ov_peer_once _ _ _ _ O).
  - apply (ov_mutual _ _ _ _ O).
Qed.

Lemma domestic_run : assuredRun
  (cfg N (fun p => buildDomestic (fo p) (shared p) (nPeers p) maxDistance maxRank (gi p)) noMsg)
  (cfg N (fun p => Ret (domResult p)) noMsg).
Proof.
  unfold buildDomestic. eapply phases.
  - apply (exchangeBuffers_run N (fun p => peerSet (fo p)) peers_sym
      (fun p => indicesFor (shared p) (nPeers p) (gi p))
      (fun _ q es s => fold_left (receiveDomestic maxDistance q) es s)).
  - constructor.
Qed.

Lemma global_of : forall p i, p < N -> i < numLocal (fo p) -> domesticToGlobal (gi p) i = Some (number (dof p i)).
Proof. intros p i Hp Hi. destruct (GI p Hp) as (_ & _ & H & _). auto. Qed.

Lemma indices_for : forall q p, q < N ->
  indicesFor (shared q) (nPeers q) (gi q) p = map (entryOf dof nPeers number q) (shared q p).
Proof.
  intros q p Hq. unfold indicesFor. apply map_ext_in. intros [l d] Hin. cbn [fst snd].
  rewrite global_of; [reflexivity|auto|]. apply (ov_local _ _ _ _ O q p l Hq). exists d. auto.
Qed.

Lemma fold_left_ext_in : forall A B (f g : A -> B -> A) l a,
  (forall a x, In x l -> f a x = g a x) -> fold_left f l a = fold_left g l a.
Proof.
  induction l as [|x l IH]; intros a H; cbn; [reflexivity|].
  rewrite H by (left; auto). apply IH. intros. apply H. right; auto.
Qed.

Lemma number_injective : forall x y, (exists r, r < N /\ has fo dof r x) -> (exists r, r < N /\ has fo dof r y) ->
  number x = number y -> x = y.
Proof.
  intros x y (r & Hr & Hx) (r' & Hr' & Hy). destruct NU as (_ & H & _). apply (H r r'); auto.
Qed.

Definition seenBy (p : nat) : list told := flat_map (fun q => map (pair q) (shared q p)) (peerSet (fo p)).

Lemma seen_iff : forall p q l d, p < N -> (In (q, (l, d)) (seenBy p) <-> q < N /\ In (l, d) (shared q p)).
Proof.
  intros p q l d Hp. unfold seenBy. rewrite in_flat_map. split.
  - intros (q' & Hq' & Hin). apply in_map_iff in Hin. destruct Hin as (ld & E & Hin).
    injection E as -> ->. split; [|auto]. apply (ov_range _ _ _ _ O p q); auto.
  - intros (Hq & Hin). exists q. split.
    + apply (ov_mutual _ _ _ _ O q p Hq). apply (ov_peer _ _ _ _ O q p Hq). exists l, d. auto.
    + apply in_map_iff. exists (l, d). auto.
Qed.

Lemma received_building : forall p, p < N ->
  exists doms, building fo dof number p (seenBy p) doms (received p).
Proof.
  intros p Hp. unfold received, seenBy.
  rewrite (fold_left_ext_in _ _ _ (fun st q => fold_left (receiveDomestic maxDistance q) (map (entryOf dof nPeers number q) (shared q p)) st)).
  2:{ intros st q Hq. rewrite indices_for; [reflexivity|]. apply (ov_range _ _ _ _ O p q); auto. }
  apply (receive_peers N fo shared dof nPeers maxDistance number p number_injective Hp) with (seen := [])
    (doms := map (dof p) (seq 0 (numLocal (fo p)))).
  - intros q i j Hq. apply (di_dof _ _ _ D q i j Hq).
  - constructor.
  - intros q Hq. apply Forall_forall. intros t Ht. apply in_map_iff in Ht. destruct Ht as ([l d] & <- & Hin).
    destruct (ov_range _ _ _ _ O p q Hp Hq) as [H1 H2].
    split; [auto|]. split; [auto|]. split; [|apply (Hdist q p l d); auto].
    apply (ov_local _ _ _ _ O q p l H1). exists d; auto.
  - intros q Hq. apply (ov_once _ _ _ _ O). apply (ov_range _ _ _ _ O p q); auto.
  - apply (ov_peer_once _ _ _ _ O); auto.
  - intros q t _ [].
  - destruct (GI p Hp) as (G1 & G2 & G3 & G4 & G5).
    assert (NE : forall i x, nth_error (map (dof p) (seq 0 (numLocal (fo p)))) i = Some x <->
      i < numLocal (fo p) /\ x = dof p i).
    { intros i x. split.
      - intros E. assert (Hi : i < numLocal (fo p)).
        { assert (i < length (map (dof p) (seq 0 (numLocal (fo p))))) by (apply nth_error_Some; congruence).
          rewrite map_length, seq_length in *. auto. }
        split; [auto|]. rewrite nth_error_map_seq in E by auto. congruence.
      - intros [Hi ->]. apply nth_error_map_seq. auto. }
    assert (SD : sendDefined (fo p) (shared p) (gi p) = true).
    { unfold sendDefined. rewrite G1. cbn [andb]. apply forallb_forall. intros q Hq.
      apply forallb_forall. intros [l d] Hin. cbn [fst]. rewrite G3; [reflexivity|].
      apply (ov_local _ _ _ _ O p q l Hp). exists d; auto. }
    unfold initialDomestic. split; cbn [domOk domByIndex domDistance domIdx domWith].
    + exact SD.
    + apply NoDup_nth_error. rewrite map_length, seq_length. intros i j Hi E.
      rewrite nth_error_map_seq in E by auto. symmetry in E. apply NE in E. destruct E as [Hj E].
      apply (di_dof _ _ _ D p i j Hp); auto.
    + rewrite repeat_length, map_length, seq_length. reflexivity.
    + rewrite repeat_length, map_length, seq_length. reflexivity.
    + rewrite map_length, seq_length. exact G2.
    + intros i g. split.
      * intros E. destruct (Nat.lt_ge_cases i (numLocal (fo p))) as [Hi|Hi]; [|rewrite G4 in E; [discriminate|auto]].
        rewrite G3 in E by auto. injection E as <-. exists (dof p i). split; [apply NE; auto|reflexivity].
      * intros (x & E & ->). apply NE in E. destruct E as [Hi ->]. apply G3; auto.
    + intros g i. rewrite G5. split.
      * intros [Hi ->]. exists (dof p i). split; [apply NE; auto|reflexivity].
      * intros (x & E & ->). apply NE in E. destruct E as [Hi ->]. auto.
    + intros i Hi. apply NE. auto.
    + intros x. rewrite in_map_iff. split.
      * intros (i & <- & Hi). apply in_seq in Hi. left. exists i. split; [lia|auto].
      * intros [(i & Hi & <-)|(q & l & d & [] & _)]. exists i. split; [auto|]. apply in_seq. lia.
    + intros q. cbn. reflexivity.
    + intros i x q d E. rewrite nth_repeat. split; [discriminate|]. intros (l & [] & _).
    + intros i Hi. apply nth_repeat.
    + intros i x E Hi. apply NE in E. lia.
Qed.

Lemma with_peers : forall p q, p < N -> In q (peerSet (fo p)) -> forall doms st,
  building fo dof number p (seenBy p) doms st ->
  exists is, pget q (domWith st) = Some is
   /\ Forall2 (fun i ld => nth_error doms i = Some (dof q (fst ld))) is (shared q p).
Proof.
  intros p q Hp Hq doms st H. pose proof (bu_with _ _ _ _ _ _ _ H q) as W.
  unfold seenBy in W. rewrite filter_pairs in W by (apply (ov_peer_once _ _ _ _ O); auto).
  destruct (in_dec Nat.eq_dec q (peerSet (fo p))); [|contradiction].
  destruct (ov_range _ _ _ _ O p q Hp Hq) as [Hq' Hne].
  destruct (pget q (domWith st)) as [is|].
  - exists is. split; [reflexivity|]. rewrite map_map in W. cbn [snd] in W.
    clear - W. revert is W. induction (shared q p) as [|ld l IH]; intros is W; inversion W; subst; constructor; auto.
  - exfalso. destruct (proj1 (ov_peer _ _ _ _ O q p Hq') (ov_mutual _ _ _ _ O p q Hp Hq)) as (l & d & Hin).
    destruct (shared q p); [contradiction|discriminate].
Qed.

Lemma Forall2_map_nth : forall (doms : list nat) (f : nat * nat -> nat) is lds,
  Forall2 (fun i ld => nth_error doms i = Some (f ld)) is lds ->
  map (fun i => nth i doms 0) is = map f lds /\ forall i, In i is -> i < length doms.
Proof.
  intros doms f is lds H. induction H as [|i ld is lds E H [IH1 IH2]].
  - split; [reflexivity|intros i []].
  - split.
    + cbn [map]. rewrite IH1. f_equal. apply nth_error_nth. exact E.
    + intros j [<-|Hj]; [|auto]. apply nth_error_Some. congruence.
Qed.

Lemma domestic_result : forall p, p < N ->
  exists ddof, domesticOf N fo shared dof number ddof p (domResult p).
Proof.
  intros p Hp. destruct (received_building p Hp) as (doms & H).
  exists (fun i => nth i doms 0).
  assert (NE : forall i, i < length doms -> nth_error doms i = Some (nth i doms 0)).
  { intros i Hi. apply nth_error_nth'. auto. }
  assert (LT : forall i x, nth_error doms i = Some x -> i < length doms).
  { intros i x E. apply nth_error_Some. congruence. }
  assert (NL : numLocal (fo p) <= length doms).
  { destruct (numLocal (fo p)) as [|n] eqn:E; [lia|].
    assert (n < length doms); [|lia]. apply (LT n (dof p n)). apply (bu_local _ _ _ _ _ _ _ H). lia. }
  assert (KN : forall x, knows N fo shared dof p x <-> In x doms).
  { intros x. rewrite (bu_in _ _ _ _ _ _ _ H). unfold knows, tells. split.
    - intros [K|(q & l & Hq & (d & Hin) & E)]; [auto|]. right. exists q, l, d.
      split; [apply seen_iff; auto|auto].
    - intros [K|(q & l & d & Hin & E)]; [auto|]. apply seen_iff in Hin; [|auto].
      right. exists q, l. split; [apply Hin|]. split; [exists d; apply Hin|auto]. }
  set (st0 := received p) in *.
  (* the masters *)
  unfold domResult, updateMasterRanks. fold st0.
  set (st1 := mkDomestic (domOk st0) (domIdx st0) (domByIndex st0) (domWith st0) (domDistance st0)
                (initialMasters (fo p) maxRank (numDomestic (domIdx st0)))).
  assert (L1 : length (domMaster st1) = length doms).
  { unfold st1. cbn [domMaster]. unfold initialMasters.
    rewrite app_length, map_length, seq_length, repeat_length, (bu_len3 _ _ _ _ _ _ _ H). lia. }
  assert (M1 : forall i, i < numLocal (fo p) -> nth i (domMaster st1) 0 = masterRank (fo p) i).
  { intros i Hi. unfold st1. cbn [domMaster]. unfold initialMasters.
    rewrite app_nth1 by (rewrite map_length, seq_length; auto).
    apply nth_error_nth. apply nth_error_map_seq. auto. }
  assert (M2 : forall i, numLocal (fo p) <= i < length doms -> nth i (domMaster st1) 0 = maxRank).
  { intros i Hi. unfold st1. cbn [domMaster]. unfold initialMasters.
    rewrite app_nth2 by (rewrite map_length, seq_length; lia). rewrite map_length, seq_length.
    rewrite (bu_len3 _ _ _ _ _ _ _ H). clear - Hi.
    set (n := length doms - numLocal (fo p)). set (k := i - numLocal (fo p)).
    assert (Hk : k < n) by (unfold n, k; lia). clearbody n k. revert k Hk.
    induction n; intros k Hk; [lia|]. destruct k; cbn; [reflexivity|]. apply IHn. lia. }
  (* who tells p about the domestic index i *)
  set (who := fun i q => i < length doms /\ q < N /\ exists l, tells shared q p l /\ dof q l = nth i doms 0).
  destruct (update_all fo p (peerSet (fo p)) who st1) as (U1 & U2 & U3 & U4 & U5 & U6 & U7).
  { exact (bu_ok _ _ _ _ _ _ _ H). }
  { intros q Hq. destruct (with_peers p q Hp Hq doms st0 H) as (is & E & F).
    exists is. split; [exact E|].
    destruct (Forall2_map_nth doms (fun ld => dof q (fst ld)) is (shared q p) F) as [F1 F2].
    destruct (ov_range _ _ _ _ O p q Hp Hq) as [Hq' Hne].
    split; [intros i Hi; rewrite L1; auto|]. intros i. unfold who. split.
    - intros Hi. split; [auto|]. split; [auto|].
      assert (Hi' : In (nth i doms 0) (map (fun ld => dof q (fst ld)) (shared q p))).
      { rewrite <- F1. apply (in_map (fun i => nth i doms 0)) in Hi. exact Hi. }
      apply in_map_iff in Hi'. destruct Hi' as ([l d] & E' & Hin). exists l. split; [exists d; auto|exact E'].
    - intros (Hi & _ & l & (d & Hin) & E').
      assert (Hi' : In (nth i doms 0) (map (fun i => nth i doms 0) is)).
      { rewrite F1, <- E'. apply (in_map (fun ld => dof q (fst ld)) _ (l, d) Hin). }
      apply in_map_iff in Hi'. destruct Hi' as (j & Ej & Hj).
      assert (j = i); [|congruence].
      apply (nth_error_unique _ doms j i (nth i doms 0) (bu_nodup _ _ _ _ _ _ _ H)); [|apply NE; auto].
      rewrite <- Ej. apply NE. auto. }
  set (st2 := fold_left _ (peerSet (fo p)) st1) in *. clearbody st2.
  assert (SZ : domSize st2 = length doms).
  { unfold domSize. rewrite U2. exact (bu_len3 _ _ _ _ _ _ _ H). }
  change (domIdx st1) with (domIdx st0) in U2. change (domByIndex st1) with (domByIndex st0) in U3.
  change (domWith st1) with (domWith st0) in U4. change (domDistance st1) with (domDistance st0) in U5.
  split.
  - exact U1.
  - lia.
  - intros i Hi. apply nth_error_nth. apply (bu_local _ _ _ _ _ _ _ H). auto.
  - intros i j Hi Hj E. rewrite SZ in Hi, Hj.
    apply (nth_error_unique _ doms i j (nth i doms 0) (bu_nodup _ _ _ _ _ _ _ H)); [auto|].
    rewrite E. auto.
  - intros x. rewrite KN, SZ. split.
    + intros Hx. destruct (In_nth doms x 0 Hx) as (i & Hi & E). eauto.
    + intros (i & Hi & <-). apply nth_In. auto.
  - intros i g. rewrite U2, SZ, (bu_d2g _ _ _ _ _ _ _ H). split.
    + intros (x & E & ->). split; [eauto|]. f_equal. symmetry. apply nth_error_nth. auto.
    + intros (Hi & ->). eauto.
  - intros g i. rewrite U2, SZ, (bu_g2d _ _ _ _ _ _ _ H). split.
    + intros (x & E & ->). split; [eauto|]. f_equal. symmetry. apply nth_error_nth. auto.
    + intros (Hi & ->). eauto.
  - intros q Hq. rewrite U4. destruct (with_peers p q Hp Hq doms st0 H) as (is & E & F).
    destruct (Forall2_map_nth doms (fun ld => dof q (fst ld)) is (shared q p) F) as [F1 F2].
    exists is. rewrite SZ. auto.
  - intros i q d Hi. rewrite SZ in Hi. rewrite U3, (bu_by _ _ _ _ _ _ _ H i (nth i doms 0) q d (NE i Hi)).
    split.
    + intros (l & Hin & E). apply seen_iff in Hin; [|auto]. split; [apply Hin|]. exists l. split; [apply Hin|auto].
    + intros (Hq & l & Hin & E). exists l. split; [apply seen_iff; auto|auto].
  - intros i Hi. rewrite U5. apply (bu_dist_local _ _ _ _ _ _ _ H). auto.
  - intros i [Hi1 Hi2]. rewrite SZ in Hi2. rewrite U5.
    destruct (bu_dist _ _ _ _ _ _ _ H i (nth i doms 0) (NE i Hi2) Hi1) as ((q & l & Hin & E) & Hmin). split.
    + apply seen_iff in Hin; [|auto]. exists q, l. split; [apply Hin|]. split; [apply Hin|auto].
    + intros q' l' d' Hq' Hin' E'. apply (Hmin q' l'); [apply seen_iff; auto|auto].
  - intros i Hi. rewrite SZ in Hi. unfold domMasterRank.
    destruct (Nat.lt_ge_cases i (numLocal (fo p))) as [Hl|Hl].
    + rewrite U6, M1 by auto.
      assert (E : nth i doms 0 = dof p i) by (apply nth_error_nth; apply (bu_local _ _ _ _ _ _ _ H); auto).
      rewrite E. destruct (di_master _ _ _ D p i Hp Hl) as (_ & K1 & K2). split; auto.
    + destruct (U7 i Hl) as (W1 & _ & W3). rewrite M2 in W1 by lia.
      set (x := nth i doms 0) in *.
      assert (Hx : In x doms) by (apply nth_In; auto).
      assert (Hnp : ~ has fo dof p x).
      { intros (j & Hj & E). assert (j = i); [|lia].
        apply (nth_error_unique _ doms j i x (bu_nodup _ _ _ _ _ _ _ H)); [|apply NE; auto].
        rewrite <- E. apply (bu_local _ _ _ _ _ _ _ H). auto. }
      apply KN in Hx. destruct Hx as [Hx|(q & l & Hq & Ht & E)]; [contradiction|].
      assert (All : forall r, r < N -> has fo dof r x -> nth i (domMaster st2) 0 <= r).
      { intros r Hr (j & Hj & Ej).
        assert (Hrp : r <> p) by (intros ->; apply Hnp; exists j; auto).
        assert (Tr : tells shared r p j).
        { apply (ov_closed _ _ _ _ O q p l r j); auto. congruence. }
        apply W3.
        - apply (ov_mutual _ _ _ _ O r p Hr). apply (ov_peer _ _ _ _ O r p Hr). eauto.
        - unfold who. split; [auto|]. split; [auto|]. exists j. auto. }
      assert (Hq2 : has fo dof q x).
      { exists l. split; [apply (ov_local _ _ _ _ O q p l); auto|auto]. }
      pose proof (All q Hq Hq2) as Hle.
      destruct W1 as [W1|(q' & Hq' & (_ & Hq'N & l' & Ht' & E') & W1)]; [lia|].
      rewrite W1 in *. split.
      * exists l'. split; [apply (ov_local _ _ _ _ O q' p l'); auto|auto].
      * intros r Hr Hh. assert (r < N) by lia. specialize (All r H0 Hh). lia.
Qed.

End Stage.
