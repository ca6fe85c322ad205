From Coq Require Import Arith List Bool Lia Sorted.
From Verif Require Import MpiModel MpiSpec MpiProofs MpiLemmas MpiExchange ExchangeModel
  GlobalIndexModel GlobalIndexSpec GlobalIndexProofs ForeignModel ForeignProofs
  DomesticModel DomesticSpec DomesticProofs VectorModel VectorSpec.
Import ListNotations.

Lemma pget_pset_eq : forall q v m, pget q (pset q v m) = Some v.
Proof.
  induction m as [|[q' v'] m IH]; cbn; [now rewrite Nat.eqb_refl|].
  destruct (Nat.eqb_spec q q'); cbn.
  - subst. now rewrite Nat.eqb_refl.
  - destruct (Nat.eqb_spec q q'); [lia|auto].
Qed.

Lemma pget_pset_ne : forall q q' v m, q <> q' -> pget q (pset q' v m) = pget q m.
Proof.
  induction m as [|[q2 v2] m IH]; intros H; cbn.
  - destruct (Nat.eqb_spec q q'); [lia|reflexivity].
  - destruct (Nat.eqb_spec q' q2); cbn.
    + subst. destruct (Nat.eqb_spec q q2); [lia|reflexivity].
    + destruct (Nat.eqb_spec q q2); [reflexivity|auto].
Qed.

Lemma allSome_map : forall A (f : A -> option nat) (g : A -> nat) l,
  (forall a, In a l -> f a = Some (g a)) -> allSome (map f l) = true /\ values0 (map f l) = map g l.
Proof.
  induction l as [|a l IH]; intros H; [auto|].
  destruct IH as [I1 I2]; [intros; apply H; right; auto|].
  unfold allSome, values0 in *. cbn [map forallb]. rewrite (H a) by (left; auto). cbn [andb].
  rewrite I1, I2. auto.
Qed.

Lemma combine_in : forall A B (R : nat -> A -> Prop) (f : A -> B) is lds, Forall2 R is lds ->
  (forall i v, In (i, v) (combine is (map f lds)) -> exists ld, In ld lds /\ R i ld /\ v = f ld)
  /\ (forall ld, In ld lds -> exists i, In i is /\ R i ld /\ In (i, f ld) (combine is (map f lds))).
Proof.
  intros A B R f is lds H. induction H as [|i ld is lds E H [IH1 IH2]].
  - split; [intros i v []|intros ld []].
  - cbn [combine map]. split.
    + intros j v [K|K].
      * injection K as <- <-. exists ld. split; [left; auto|auto].
      * destruct (IH1 j v K) as (ld' & K1 & K2). exists ld'. split; [right; auto|auto].
    + intros ld' [<-|K].
      * exists i. split; [left; auto|]. split; [auto|left; auto].
      * destruct (IH2 ld' K) as (j & K1 & K2 & K3). exists j. split; [right; auto|]. split; [auto|right; auto].
Qed.

Lemma combine_fst : forall A B (R : nat -> A -> Prop) (f : A -> B) is lds, Forall2 R is lds ->
  map fst (combine is (map f lds)) = is.
Proof. intros A B R f is lds H. induction H; cbn; congruence. Qed.

Lemma map_Forall2 : forall A B C (f : A -> C) (g : B -> C) l l', map f l = map g l' ->
  Forall2 (fun a b => f a = g b) l l'.
Proof.
  induction l as [|a l IH]; intros [|b l'] H; cbn in H; try discriminate; [constructor|].
  injection H as H1 H2. constructor; auto.
Qed.

Section System.
Variable N : nat.
Variable fo : nat -> foreignOverlap.
Variable shared : nat -> nat -> list (nat * nat).
Variable dof : nat -> nat -> nat.
Variable number : nat -> nat.
Variable total : nat.
Variable ddof : nat -> nat -> nat.
Variable dom : nat -> domestic.
Hypothesis SY : system N fo shared dof number total ddof dom.

Let D := sy_distributed _ _ _ _ _ _ _ _ SY.
Let O := sy_overlapping _ _ _ _ _ _ _ _ SY.
Let NU := sy_numbering _ _ _ _ _ _ _ _ SY.
Let DM := sy_domestic _ _ _ _ _ _ _ _ SY.

Lemma sym_peers : symmetric N (fun p => peerSet (fo p)).
Proof. apply (peers_sym N fo shared dof O). Qed.

(** Every process which has x tells the others which know it. *)
Lemma holder_tells : forall p q l, p < N -> q < N -> q <> p -> l < numLocal (fo q) ->
  knows N fo shared dof p (dof q l) -> tells shared q p l.
Proof.
  intros p q l Hp Hq Hne Hl [H|(r & j & Hr & Ht & E)].
  - apply (ov_common _ _ _ _ O q p l); auto.
  - apply (ov_closed _ _ _ _ O r p j q l); auto.
Qed.

Lemma tells_peer : forall p q l, p < N -> tells shared p q l -> In q (peerSet (fo p)) /\ In p (peerSet (fo q)).
Proof.
  intros p q l Hp H. assert (In q (peerSet (fo p))) by (apply (ov_peer _ _ _ _ O p q Hp); eauto).
  split; [auto|]. apply (ov_mutual _ _ _ _ O p q Hp); auto.
Qed.

Lemma tells_has : forall p q l, p < N -> tells shared p q l -> l < numLocal (fo p).
Proof. intros p q l Hp H. apply (ov_local _ _ _ _ O p q l Hp H). Qed.

(** The index of what q tells. *)
Lemma told_known : forall p q l, p < N -> q < N -> tells shared q p l ->
  exists i, i < domSize (dom p) /\ ddof p i = dof q l /\
    globalToDomestic (domIdx (dom p)) (number (dof q l)) = Some i.
Proof.
  intros p q l Hp Hq H.
  destruct (proj1 (dm_knows _ _ _ _ _ _ _ _ (DM p Hp) (dof q l))) as (i & Hi & E).
  { right. exists q, l. auto. }
  exists i. split; [auto|]. split; [auto|].
  apply (dm_g2d _ _ _ _ _ _ _ _ (DM p Hp)). rewrite E. auto.
Qed.

Lemma local_global : forall p l, p < N -> l < numLocal (fo p) ->
  domesticToGlobal (domIdx (dom p)) l = Some (number (dof p l)).
Proof.
  intros p l Hp Hl. apply (dm_d2g _ _ _ _ _ _ _ _ (DM p Hp)).
  pose proof (dm_size _ _ _ _ _ _ _ _ (DM p Hp)).
  rewrite (dm_local _ _ _ _ _ _ _ _ (DM p Hp)) by auto. split; [lia|auto].
Qed.

(* ----- the buffers ----- *)

Lemma globals_for : forall p q, p < N ->
  allSome (globalsFor (shared p) (dom p) q) = true
  /\ values0 (globalsFor (shared p) (dom p) q) = map (fun ld => number (dof p (fst ld))) (shared p q).
Proof.
  intros p q Hp. unfold globalsFor. apply allSome_map. intros [l d] Hin. cbn [fst].
  apply local_global; [auto|]. apply (tells_has p q l Hp). exists d; auto.
Qed.

Definition gotBuffers (p : nat) : buffers :=
  fold_left (convertSent (shared p) (dom p)) (peerSet (fo p))
    (fold_left (fun b q => receiveGlobals (dom p) q (values0 (globalsFor (shared q) (dom q) p)) b)
       (peerSet (fo p)) (mkBuffers true [] [])).

Lemma buffers_run : assuredRun (cfg N (fun p => createBuffers (fo p) (shared p) (dom p)) noMsg)
  (cfg N (fun p => Ret (gotBuffers p)) noMsg).
Proof.
  unfold createBuffers. eapply phases.
  - apply (exchangeBuffers_run N (fun p => peerSet (fo p)) sym_peers
      (fun p q => values0 (globalsFor (shared p) (dom p) q)) (fun p => receiveGlobals (dom p))).
  - constructor.
Qed.

Lemma receive_globals : forall p q, p < N -> In q (peerSet (fo p)) -> forall b, bufOk b = true ->
  exists is, receiveGlobals (dom p) q (values0 (globalsFor (shared q) (dom q) p)) b
     = mkBuffers true (sendIdx b) (pset q is (recvIdx b))
   /\ (forall i, In i is -> i < domSize (dom p))
   /\ map (ddof p) is = map (fun ld => dof q (fst ld)) (shared q p).
Proof.
  intros p q Hp Hq b Hb. destruct (ov_range _ _ _ _ O p q Hp Hq) as [HqN Hne].
  unfold receiveGlobals. rewrite (proj2 (globals_for q p HqN)), map_map, Hb. cbn [andb].
  assert (G : exists is, (forall i, In i is -> i < domSize (dom p))
     /\ map (ddof p) is = map (fun ld => dof q (fst ld)) (shared q p)
     /\ map (fun ld => globalToDomestic (domIdx (dom p)) (number (dof q (fst ld)))) (shared q p) = map Some is).
  { assert (A : forall ld, In ld (shared q p) -> tells shared q p (fst ld)).
    { intros [l d] Hin. exists d. auto. }
    induction (shared q p) as [|ld lds IH].
    - exists []. split; [intros i []|auto].
    - destruct IH as (is & I1 & I2 & I3); [intros; apply A; right; auto|].
      destruct (told_known p q (fst ld) Hp HqN (A ld (or_introl eq_refl))) as (i & Hi & E & G).
      exists (i :: is). split; [intros j [<-|Hj]; auto|]. cbn [map]. rewrite I2, I3, E, G. auto. }
  destruct G as (is & I1 & I2 & I3). exists is. split; [|auto]. rewrite I3.
  destruct (allSome_map nat Some (fun i => i) is) as [S1 S2]; [auto|].
  rewrite S1, S2, map_id. reflexivity.
Qed.

Lemma receive_all_globals : forall p, p < N -> forall qs b, bufOk b = true ->
  (forall q, In q qs -> In q (peerSet (fo p))) ->
  let b' := fold_left (fun b q => receiveGlobals (dom p) q (values0 (globalsFor (shared q) (dom q) p)) b) qs b in
  bufOk b' = true /\
  (forall q, (In q qs \/ exists is, pget q (recvIdx b) = Some is
    /\ (forall i, In i is -> i < domSize (dom p)) /\ map (ddof p) is = map (fun ld => dof q (fst ld)) (shared q p)) ->
    exists is, pget q (recvIdx b') = Some is
    /\ (forall i, In i is -> i < domSize (dom p)) /\ map (ddof p) is = map (fun ld => dof q (fst ld)) (shared q p)).
Proof.
  intros p Hp. induction qs as [|q qs IH]; intros b Hb Hqs b'.
  - subst b'. cbn. split; [auto|]. intros q [[]|H]; auto.
  - subst b'. cbn [fold_left].
    destruct (receive_globals p q Hp (Hqs q (or_introl eq_refl)) b Hb) as (is & E & I1 & I2). rewrite E.
    destruct (IH (mkBuffers true (sendIdx b) (pset q is (recvIdx b)))) as [J1 J2]; [reflexivity|intros; apply Hqs; right; auto|].
    split; [exact J1|]. intros q' Hq'. apply J2. cbn [recvIdx].
    destruct (Nat.eq_dec q' q) as [->|Hne].
    + right. exists is. rewrite pget_pset_eq. auto.
    + rewrite pget_pset_ne by auto. destruct Hq' as [[->|Hq']|Hq']; [congruence|auto|auto].
Qed.

Lemma convert_all : forall p, p < N -> forall qs b, bufOk b = true ->
  let b' := fold_left (convertSent (shared p) (dom p)) qs b in
  bufOk b' = true /\ recvIdx b' = recvIdx b /\
  (forall q, In q qs \/ pget q (sendIdx b) = Some (map fst (shared p q)) ->
     pget q (sendIdx b') = Some (map fst (shared p q))).
Proof.
  intros p Hp. induction qs as [|q qs IH]; intros b Hb b'.
  - subst b'. cbn. split; [auto|]. split; [auto|]. intros q [[]|H]; auto.
  - subst b'. cbn [fold_left].
    assert (E : convertSent (shared p) (dom p) b q =
      mkBuffers true (pset q (map fst (shared p q)) (sendIdx b)) (recvIdx b)).
    { unfold convertSent. rewrite (proj1 (globals_for p q Hp)), (proj2 (globals_for p q Hp)), map_map, Hb.
      destruct (allSome_map (nat * nat) (fun ld => globalToDomestic (domIdx (dom p)) (number (dof p (fst ld))))
                  fst (shared p q)) as [S1 S2].
      - intros [l d] Hin. cbn [fst]. assert (Hl : l < numLocal (fo p)) by (apply (tells_has p q l Hp); exists d; auto).
        apply (dm_g2d _ _ _ _ _ _ _ _ (DM p Hp)).
        pose proof (dm_size _ _ _ _ _ _ _ _ (DM p Hp)).
        rewrite (dm_local _ _ _ _ _ _ _ _ (DM p Hp)) by auto. split; [lia|auto].
      - rewrite S1, S2. reflexivity. }
    rewrite E. destruct (IH (mkBuffers true (pset q (map fst (shared p q)) (sendIdx b)) (recvIdx b))) as (J1 & J2 & J3); [reflexivity|].
    split; [exact J1|]. split; [exact J2|]. intros q' Hq'. apply J3. cbn [sendIdx].
    destruct (Nat.eq_dec q' q) as [->|Hne].
    + right. apply pget_pset_eq.
    + rewrite pget_pset_ne by auto. destruct Hq' as [[->|Hq']|Hq']; [congruence|auto|auto].
Qed.

Lemma buffers_correct : forall p, p < N ->
  buffersOf fo shared dof (ddof p) (domSize (dom p)) p (gotBuffers p).
Proof.
  intros p Hp. unfold gotBuffers.
  destruct (receive_all_globals p Hp (peerSet (fo p)) (mkBuffers true [] [])) as [R1 R2]; [reflexivity|auto|].
  set (b1 := fold_left _ (peerSet (fo p)) (mkBuffers true [] [])) in *. clearbody b1.
  destruct (convert_all p Hp (peerSet (fo p)) b1 R1) as (C1 & C2 & C3).
  split; [exact C1| |].
  - intros q Hq. apply C3. auto.
  - intros q Hq. rewrite C2. apply R2. auto.
Qed.

(* ----- synchronisation ----- *)

Section Values.
Context {V : Type}.
Variable zero : V.
Variable add : V -> V -> V.
Variable buf : nat -> buffers.
Hypothesis BF : forall p, p < N -> buffersOf fo shared dof (ddof p) (domSize (dom p)) p (buf p).
Variable x : nat -> list V.
Hypothesis LX : forall p, p < N -> length (x p) = domSize (dom p).

Lemma values_for : forall p q, p < N -> In q (peerSet (fo p)) ->
  valuesFor zero (buf p) (x p) q = map (fun ld => nth (fst ld) (x p) zero) (shared p q).
Proof.
  intros p q Hp Hq. unfold valuesFor, indicesOf. rewrite (bf_send _ _ _ _ _ _ _ (BF p Hp) q Hq), map_map.
  reflexivity.
Qed.

Lemma send_in_range : forall p, p < N -> sendInRange (fo p) (buf p) (x p) = true.
Proof.
  intros p Hp. unfold sendInRange. rewrite (bf_ok _ _ _ _ _ _ _ (BF p Hp)). cbn [andb].
  apply forallb_forall. intros q Hq. apply forallb_forall. intros i Hi.
  unfold indicesOf in Hi. rewrite (bf_send _ _ _ _ _ _ _ (BF p Hp) q Hq) in Hi.
  apply in_map_iff in Hi. destruct Hi as ([l d] & <- & Hin). cbn [fst].
  apply Nat.ltb_lt. rewrite LX by auto.
  pose proof (dm_size _ _ _ _ _ _ _ _ (DM p Hp)).
  assert (l < numLocal (fo p)) by (apply (tells_has p q l Hp); exists d; auto). lia.
Qed.

(** What arrives from q. *)
Definition arrived (p q : nat) : list (nat * V) :=
  combine (indicesOf q (recvIdx (buf p))) (valuesFor zero (buf q) (x q) p).

Lemma arrived_spec : forall p q, p < N -> In q (peerSet (fo p)) ->
  length (indicesOf q (recvIdx (buf p))) = length (valuesFor zero (buf q) (x q) p)
  /\ NoDup (map fst (arrived p q))
  /\ (forall i v, In (i, v) (arrived p q) <->
        i < domSize (dom p) /\ exists l, l < numLocal (fo q) /\ dof q l = ddof p i /\ v = nth l (x q) zero).
Proof.
  intros p q Hp Hq. destruct (ov_range _ _ _ _ O p q Hp Hq) as [HqN Hne].
  destruct (bf_recv _ _ _ _ _ _ _ (BF p Hp) q Hq) as (is & E & I1 & I2).
  unfold arrived, indicesOf. rewrite E.
  rewrite (values_for q p HqN (ov_mutual _ _ _ _ O p q Hp Hq)).
  pose proof (map_Forall2 _ _ _ _ _ _ _ I2) as F.
  assert (ND : NoDup is).
  { apply NoDup_map_inv with (f := ddof p). rewrite I2.
    rewrite <- (map_map fst (dof q)).
    assert (G : forall l, (forall a, In a l -> a < numLocal (fo q)) -> NoDup l -> NoDup (map (dof q) l)).
    { induction l as [|a l IH]; intros Hl N1; [constructor|]. inversion N1; subst. cbn [map]. constructor.
      - intros Hin. apply in_map_iff in Hin. destruct Hin as (b & E1 & Hb).
        assert (b = a); [|subst; contradiction].
        apply (di_dof _ _ _ D q b a HqN); auto; apply Hl; [right; auto|left; auto].
      - apply IH; [intros; apply Hl; right; auto|auto]. }
    apply G; [|apply (ov_once _ _ _ _ O); auto].
    intros a Ha. apply in_map_iff in Ha. destruct Ha as ([l d] & <- & Hin). cbn [fst].
    apply (tells_has q p l HqN). exists d; auto. }
  split; [|split].
  - rewrite map_length. apply (f_equal (@length nat)) in I2. rewrite !map_length in I2. exact I2.
  - rewrite (combine_fst _ _ _ _ _ _ F). exact ND.
  - destruct (combine_in _ _ _ (fun ld => nth (fst ld) (x q) zero) _ _ F) as [C1 C2].
    intros i v. split.
    + intros Hin. pose proof (in_combine_l _ _ _ _ Hin) as Hi. apply I1 in Hi.
      apply C1 in Hin. destruct Hin as ([l d] & Hin & E1 & ->). split; [auto|]. exists l.
      split; [apply (tells_has q p l HqN); exists d; auto|]. auto.
    + intros (Hi & l & Hl & E1 & ->).
      assert (Ht : tells shared q p l).
      { apply holder_tells; auto. rewrite E1. apply (dm_knows _ _ _ _ _ _ _ _ (DM p Hp)). eauto. }
      destruct Ht as (d & Hin). destruct (C2 _ Hin) as (j & Hj & E2 & Hc). cbn [fst] in *.
      assert (j = i); [|subst; exact Hc].
      apply (dm_inj _ _ _ _ _ _ _ _ (DM p Hp)); auto. congruence.
Qed.

Lemma from_master : forall p q es y, (forall i v, In (i, v) es -> i < length y) -> NoDup (map fst es) ->
  exists y', fold_left (fun y (iv : nat * V) =>
      match y with
      | None => None
      | Some y => let (i, v) := iv in
          if i <? length y
          then Some (if Nat.eqb (domMasterRank (dom p) i) q then upd y i v else y)
          else None
      end) es (Some y) = Some y' /\ length y' = length y
   /\ (forall i, domMasterRank (dom p) i <> q -> nth i y' zero = nth i y zero)
   /\ (forall i v, domMasterRank (dom p) i = q -> In (i, v) es -> nth i y' zero = v)
   /\ (forall i, ~ In i (map fst es) -> nth i y' zero = nth i y zero).
Proof.
  intros p q. induction es as [|[i v] es IH]; intros y Hlt ND.
  - exists y. cbn. do 3 (split; [auto|]). split; [intros i v _ []|auto].
  - cbn [fold_left map fst] in *. inversion ND as [|? ? N1 N2]; subst.
    pose proof (Hlt i v (or_introl eq_refl)) as Hi.
    destruct (Nat.ltb_spec i (length y)); [|lia].
    set (y1 := if Nat.eqb (domMasterRank (dom p) i) q then upd y i v else y).
    assert (L1 : length y1 = length y) by (unfold y1; destruct (Nat.eqb _ q); [apply upd_len|reflexivity]).
    destruct (IH y1) as (y' & E & L & H1 & H2 & H3).
    { intros j w Hj. rewrite L1. apply (Hlt j w). right; auto. }
    { auto. }
    assert (K : forall j, j <> i -> nth j y1 zero = nth j y zero).
    { intros j Hj. unfold y1. destruct (Nat.eqb _ q); [apply nth_upd_ne; auto|reflexivity]. }
    assert (K2 : domMasterRank (dom p) i = q -> nth i y1 zero = v).
    { intros Eq. unfold y1. rewrite Eq, Nat.eqb_refl. apply nth_upd_eq; auto. }
    assert (K3 : domMasterRank (dom p) i <> q -> nth i y1 zero = nth i y zero).
    { intros Eq. unfold y1. destruct (Nat.eqb_spec (domMasterRank (dom p) i) q); [contradiction|reflexivity]. }
    exists y'. split; [exact E|]. split; [congruence|]. split; [|split].
    + intros j Hj. rewrite H1 by auto. destruct (Nat.eq_dec j i) as [->|Hne]; auto.
    + intros j w Hm [Hj|Hj].
      * injection Hj as <- <-. rewrite H3 by auto. apply K2. exact Hm.
      * apply H2; auto.
    + intros j Hj. rewrite H3 by (intros K'; apply Hj; right; auto). apply K. intros ->. apply Hj. left; auto.
Qed.

(** The master of a domestic index, and where it is there. *)
Lemma master_local : forall p i, p < N -> i < domSize (dom p) ->
  let m := domMasterRank (dom p) i in
  m < N /\ exists j, j < numLocal (fo m) /\ dof m j = ddof p i.
Proof.
  intros p i Hp Hi. cbn zeta.
  pose proof (dm_master _ _ _ _ _ _ _ _ (DM p Hp) i Hi) as [H1 H2].
  split; [|exact H1].
  destruct (Nat.lt_ge_cases (domMasterRank (dom p) i) N) as [|Hge]; [auto|]. exfalso.
  assert (K : knows N fo shared dof p (ddof p i)) by (apply (dm_knows _ _ _ _ _ _ _ _ (DM p Hp)); eauto).
  destruct K as [K|(q & l & Hq & Ht & E)].
  - apply (H2 p); [lia|auto].
  - apply (H2 q); [lia|]. exists l. split; [apply (tells_has q p l Hq Ht)|auto].
Qed.

Definition syncResult (p : nat) : option (list V) :=
  fold_left (fun y q => receiveFromMaster (dom p) (buf p) q (valuesFor zero (buf q) (x q) p) y)
    (peerSet (fo p)) (if sendInRange (fo p) (buf p) (x p) then Some (x p) else None).

Lemma sync_run : assuredRun (cfg N (fun p => sync (fo p) (dom p) zero (buf p) (x p)) noMsg)
  (cfg N (fun p => Ret (syncResult p)) noMsg).
Proof.
  unfold sync.
  apply (exchangeValues_run N (fun p => peerSet (fo p)) sym_peers
    (fun p => valuesFor zero (buf p) (x p)) (fun p => entriesFrom (buf p))
    (fun p => receiveFromMaster (dom p) (buf p))).
  intros p q Hp Hq. unfold entriesFrom. apply (arrived_spec p q Hp Hq).
Qed.

Lemma sync_result : forall p, p < N -> exists y, syncResult p = Some y /\ length y = domSize (dom p)
  /\ forall i m j, i < domSize (dom p) -> isMaster fo dof m (ddof p i) ->
     j < numLocal (fo m) -> dof m j = ddof p i -> nth i y zero = nth j (x m) zero.
Proof.
  intros p Hp. unfold syncResult. rewrite (send_in_range p Hp).
  assert (G : forall qs y, length y = domSize (dom p) -> NoDup qs -> (forall q, In q qs -> In q (peerSet (fo p))) ->
    exists y', fold_left (fun y q => receiveFromMaster (dom p) (buf p) q (valuesFor zero (buf q) (x q) p) y) qs (Some y) = Some y'
     /\ length y' = domSize (dom p)
     /\ forall i, i < domSize (dom p) ->
        (~ In (domMasterRank (dom p) i) qs -> nth i y' zero = nth i y zero)
        /\ (forall j, In (domMasterRank (dom p) i) qs -> j < numLocal (fo (domMasterRank (dom p) i)) ->
            dof (domMasterRank (dom p) i) j = ddof p i -> nth i y' zero = nth j (x (domMasterRank (dom p) i)) zero)).
  { induction qs as [|q qs IH]; intros y Ly ND Hqs.
    - exists y. cbn. split; [auto|]. split; [auto|]. intros i Hi. split; [auto|]. intros j [].
    - cbn [fold_left]. inversion ND as [|? ? N1 N2]; subst.
      destruct (arrived_spec p q Hp (Hqs q (or_introl eq_refl))) as (A1 & A2 & A3).
      unfold receiveFromMaster at 2. fold (arrived p q).
      destruct (from_master p q (arrived p q) y) as (y1 & E & L & H1 & H2 & H3).
      { intros i v Hin. rewrite Ly. apply A3 in Hin. apply Hin. }
      { exact A2. }
      rewrite E. destruct (IH y1) as (y' & E' & L' & J); [congruence|auto|intros; apply Hqs; right; auto|].
      exists y'. split; [exact E'|]. split; [auto|]. intros i Hi. destruct (J i Hi) as [J1 J2]. split.
      + intros Hn. rewrite J1 by (intros K; apply Hn; right; auto). apply H1. intros K. apply Hn. left; auto.
      + intros j [Hq|Hin] Hj Ej; [|apply J2; auto].
        rewrite J1 by (rewrite <- Hq; auto).
        apply H2; [auto|]. apply A3. split; [auto|]. exists j. rewrite Hq. auto. }
  destruct (G (peerSet (fo p)) (x p)) as (y & E & L & H).
  { apply LX; auto. }
  { apply (ov_peer_once _ _ _ _ O); auto. }
  { auto. }
  exists y. split; [exact E|]. split; [exact L|].
  intros i m j Hi [M1 M2] Hj Ej.
  assert (Em : domMasterRank (dom p) i = m).
  { destruct (dm_master _ _ _ _ _ _ _ _ (DM p Hp) i Hi) as [M3 M4].
    destruct (lt_eq_lt_dec (domMasterRank (dom p) i) m) as [[Hlt|He]|Hgt]; [|auto|].
    - exfalso. apply (M2 _ Hlt M3).
    - exfalso. apply (M4 _ Hgt M1). }
  destruct (master_local p i Hp Hi) as [Hm _]. rewrite Em in Hm.
  destruct (H i Hi) as [H1 H2]. rewrite Em in H1, H2.
  destruct (Nat.eq_dec m p) as [->|Hmp].
  - rewrite H1.
    + f_equal. apply (dm_inj _ _ _ _ _ _ _ _ (DM p Hp)); auto.
      * pose proof (dm_size _ _ _ _ _ _ _ _ (DM p Hp)). lia.
      * rewrite (dm_local _ _ _ _ _ _ _ _ (DM p Hp) j) by auto. auto.
    + intros K. apply (ov_range _ _ _ _ O p p Hp) in K. tauto.
  - apply H2; auto.
    apply (tells_peer m p j Hm). apply holder_tells; auto. rewrite Ej.
    apply (dm_knows _ _ _ _ _ _ _ _ (DM p Hp)). eauto.
Qed.

(* ----- adding up ----- *)

Lemma add_fold : forall es y, (forall i v, In (i, v) es -> i < length y) ->
  exists y', fold_left (fun y (iv : nat * V) =>
      match y with
      | None => None
      | Some y => let (i, v) := iv in
          if i <? length y then Some (upd y i (add (nth i y zero) v)) else None
      end) es (Some y) = Some y' /\ length y' = length y
   /\ forall i, nth i y' zero = fold_left add (map snd (filter (fun iv => Nat.eqb (fst iv) i) es)) (nth i y zero).
Proof.
  induction es as [|[i v] es IH]; intros y Hlt.
  - exists y. cbn. auto.
  - cbn [fold_left filter fst]. pose proof (Hlt i v (or_introl eq_refl)) as Hi.
    destruct (Nat.ltb_spec i (length y)); [|lia].
    destruct (IH (upd y i (add (nth i y zero) v))) as (y' & E & L & H1).
    { intros j w Hj. rewrite upd_len. apply (Hlt j w). right; auto. }
    exists y'. split; [exact E|]. split; [rewrite L; apply upd_len|].
    intros j. rewrite H1. destruct (Nat.eqb_spec i j) as [->|Hne].
    + cbn [map snd fold_left]. rewrite nth_upd_eq by auto. reflexivity.
    + rewrite nth_upd_ne by auto. reflexivity.
Qed.

(** At most one value for an index comes from one rank. *)
Lemma one_entry : forall (es : list (nat * V)) i, NoDup (map fst es) ->
  (~ (exists v, In (i, v) es) /\ filter (fun iv => Nat.eqb (fst iv) i) es = []) \/
  exists v, In (i, v) es /\ filter (fun iv => Nat.eqb (fst iv) i) es = [(i, v)].
Proof.
  induction es as [|[j w] es IH]; intros i ND.
  - left. split; [intros (v & [])|reflexivity].
  - cbn [map fst] in ND. inversion ND as [|? ? N1 N2]; subst. cbn [filter fst].
    destruct (Nat.eqb_spec j i) as [->|Hne].
    + right. exists w. split; [left; auto|]. f_equal.
      destruct (IH i N2) as [[_ H]|(v & Hin & _)]; [auto|].
      exfalso. apply N1. apply (in_map fst) in Hin. exact Hin.
    + destruct (IH i N2) as [[H1 H2]|(v & Hin & E)].
      * left. split; [|auto]. intros (v & [K|K]); [congruence|apply H1; eauto].
      * right. exists v. split; [right; auto|auto].
Qed.

Definition syncAddResult (p : nat) : option (list V) :=
  fold_left (fun y q => receiveAdd zero add (buf p) q (valuesFor zero (buf q) (x q) p) y)
    (peerSet (fo p)) (if sendInRange (fo p) (buf p) (x p) then Some (x p) else None).

Lemma syncAdd_run : assuredRun (cfg N (fun p => syncAdd (fo p) zero add (buf p) (x p)) noMsg)
  (cfg N (fun p => Ret (syncAddResult p)) noMsg).
Proof.
  unfold syncAdd.
  apply (exchangeValues_run N (fun p => peerSet (fo p)) sym_peers
    (fun p => valuesFor zero (buf p) (x p)) (fun p => entriesFrom (buf p))
    (fun p => receiveAdd zero add (buf p))).
  intros p q Hp Hq. unfold entriesFrom. apply (arrived_spec p q Hp Hq).
Qed.

Lemma syncAdd_result : forall p, p < N -> exists y, syncAddResult p = Some y /\ length y = domSize (dom p)
  /\ forall i, i < domSize (dom p) -> exists c, copies N fo dof p (ddof p i) c
     /\ nth i y zero = fold_left add (map (fun ql => nth (snd ql) (x (fst ql)) zero) c) (nth i (x p) zero).
Proof.
  intros p Hp. unfold syncAddResult. rewrite (send_in_range p Hp).
  assert (G : forall qs y, length y = domSize (dom p) -> StronglySorted lt qs -> (forall q, In q qs -> In q (peerSet (fo p))) ->
    exists y', fold_left (fun y q => receiveAdd zero add (buf p) q (valuesFor zero (buf q) (x q) p) y) qs (Some y) = Some y'
     /\ length y' = domSize (dom p)
     /\ forall i, i < domSize (dom p) ->
        exists c, StronglySorted lt (map fst c) /\
        (forall q l, In (q, l) c <-> In q qs /\ l < numLocal (fo q) /\ dof q l = ddof p i)
        /\ nth i y' zero = fold_left add (map (fun ql => nth (snd ql) (x (fst ql)) zero) c) (nth i y zero)).
  { induction qs as [|q qs IH]; intros y Ly SS Hqs.
    - exists y. cbn [fold_left]. split; [auto|]. split; [auto|]. intros i Hi. exists [].
      split; [constructor|]. split; [|reflexivity]. intros q l. split; [intros []|intros [[] _]].
    - cbn [fold_left]. inversion SS as [|? ? N1 N2]; subst. rewrite Forall_forall in N2.
      pose proof (Hqs q (or_introl eq_refl)) as Hq.
      destruct (ov_range _ _ _ _ O p q Hp Hq) as [HqN Hne].
      destruct (arrived_spec p q Hp Hq) as (A1 & A2 & A3).
      unfold receiveAdd at 2. fold (arrived p q).
      destruct (add_fold (arrived p q) y) as (y1 & E & L & H1).
      { intros i v Hin. rewrite Ly. apply A3 in Hin. apply Hin. }
      rewrite E. destruct (IH y1) as (y' & E' & L' & J); [congruence|auto|intros; apply Hqs; right; auto|].
      exists y'. split; [exact E'|]. split; [auto|]. intros i Hi.
      destruct (J i Hi) as (c & C1 & C2 & C3). rewrite H1 in C3.
      destruct (one_entry (arrived p q) i A2) as [[F1 F2]|(v & Hin & F2)]; rewrite F2 in C3.
      + exists c. split; [auto|]. split; [|exact C3].
        intros q' l'. rewrite C2. split; [intros (K1 & K2); split; [right; auto|auto]|].
        intros ([<-|K1] & K2 & K3); [|auto]. exfalso. apply F1.
        exists (nth l' (x q) zero). apply A3. split; [auto|]. exists l'. auto.
      + apply A3 in Hin. destruct Hin as (_ & l & Hl & El & ->).
        exists ((q, l) :: c). split; [|split].
        * cbn [map fst]. constructor; [auto|]. apply Forall_forall. intros q' Hq'.
          apply in_map_iff in Hq'. destruct Hq' as ([q2 l2] & <- & Hin). apply C2 in Hin. apply N2. apply Hin.
        * intros q' l'. cbn [In]. rewrite C2. split.
          -- intros [K|(K1 & K2)]; [injection K as <- <-; auto|auto].
          -- intros ([<-|K1] & K2 & K3); [|auto]. left. f_equal.
             apply (di_dof _ _ _ D q l l' HqN); auto. congruence.
        * rewrite C3. reflexivity. }
  destruct (G (peerSet (fo p)) (x p)) as (y & E & L & H).
  { apply LX; auto. }
  { apply (di_sorted _ _ _ D p Hp). }
  { auto. }
  exists y. split; [exact E|]. split; [exact L|]. intros i Hi.
  destruct (H i Hi) as (c & C1 & C2 & C3). exists c. split; [|exact C3]. split; [exact C1|].
  intros q l. rewrite C2. split.
  - intros (K1 & K2 & K3). destruct (ov_range _ _ _ _ O p q Hp K1). auto.
  - intros (K1 & K2 & K3 & K4). split; [|auto].
    apply (tells_peer q p l K1). apply holder_tells; auto. rewrite K4.
    apply (dm_knows _ _ _ _ _ _ _ _ (DM p Hp)). eauto.
Qed.

End Values.
End System.
