(** * Proofs about the hierarchy of elements *)
From Coq Require Import QArith List Arith Bool Lia Lqa.
From Verif Require Import AdaptModel AdaptSpec AdaptProofs.
Import ListNotations.
Open Scope Q_scope.

Lemma subT_nil : forall d s, subT (T []) d = Some s -> d = [] /\ s = T [].
Proof.
  intros d s. destruct (rev d) as [|j r] eqn:R; intros S.
  - assert (D : d = []) by (rewrite <- (rev_involutive d), R; reflexivity). subst d. cbn in S. split; [reflexivity|congruence].
  - assert (D : d = rev r ++ [j]) by (rewrite <- (rev_involutive d), R; reflexivity). rewrite D, subT_last in S. destruct j; discriminate.
Qed.

Fixpoint sumKids (f : path -> Q) (p : path) (i : nat) (ks : list tree) : Q :=
  match ks with [] => 0 | t :: ks => sumTree f (i :: p) t + sumKids f p (S i) ks end.
Lemma sumTree_T : forall f p k ks, sumTree f p (T (k :: ks)) = sumKids f p 0 (k :: ks).
Proof.
  intros f p k ks. cbn [sumTree sumKids]. f_equal. generalize 1%nat as i.
  induction ks as [|t ks IH]; intros i; [reflexivity|]. cbn [sumKids]. f_equal. apply IH.
Qed.
Lemma sumFrom_kids : forall f ts i, sumFrom f i ts = sumKids f [] i ts.
Proof. intros f. induction ts as [|t ts IH]; intros i; [reflexivity|]. cbn [sumFrom sumKids]. now rewrite IH. Qed.

Lemma sumTree_repeat : forall f p n, (0 < n)%nat -> sumTree f p (T (repeat (T []) n)) = sumKids f p 0 (repeat (T []) n).
Proof. intros f p [|n] H; [lia|]. cbn [repeat]. apply sumTree_T. Qed.
Lemma adaptTree_repeat : forall numKids m p n, (0 < n)%nat -> allVanish m p 0 (repeat (T []) n) = true ->
  adaptTree numKids m p (T (repeat (T []) n)) = T [].
Proof. intros numKids m p [|n] H V; [lia|]. cbn [repeat] in *. rewrite adaptTree_T, V. reflexivity. Qed.

Lemma reg_inv : forall n k ks, regular n (T (k :: ks)) -> length (k :: ks) = n /\ Forall (regular n) (k :: ks).
Proof. intros n k ks R. inversion R as [|? L F]; subst. split; [reflexivity|exact F]. Qed.

Section S.
Variable numKids : nat.
Notation regular := (regular numKids).
Variable pos : (0 < numKids)%nat.
Variable vol : path -> Q.
Hypothesis add : additive numKids vol.

Lemma sumKids_repeat : forall f g p n i, (forall j, (j < n)%nat -> f ((i + j)%nat :: p) == vol ((i + j)%nat :: p) * g) ->
  sumKids f p i (repeat (T []) n) == volumesOf vol p i n * g.
Proof.
  intros f g p. induction n as [|n IH]; intros i H; cbn [repeat sumKids volumesOf sumTree]; [lra|].
  rewrite (IH (S i)). 2:{ intros j J. specialize (H (S j)). rewrite <- Nat.add_succ_comm in H. apply H. lia. }
  specialize (H 0%nat ltac:(lia)). rewrite Nat.add_0_r in H. rewrite H. ring.
Qed.
Lemma sumKids_leaves : forall m (c : path -> Q) g p ks i, allVanish m p i ks = true ->
  (forall j, (j < length ks)%nat -> c ((i + j)%nat :: p) == g) ->
  sumKids (fun q => vol q * c q) p i ks == volumesOf vol p i (length ks) * g.
Proof.
  intros m c g p. induction ks as [|k ks IH]; intros i A H; [cbn; lra|]. cbn [allVanish] in A. apply andb_true_iff in A. destruct A as [A B].
  cbn [sumKids length volumesOf]. rewrite (IH (S i) B).
  2:{ intros j J. specialize (H (S j)). rewrite <- Nat.add_succ_comm in H. apply H. cbn [length]. lia. }
  unfold mightVanish in A. apply andb_true_iff in A. destruct A as [A _]. destruct k as [[|]]; [|discriminate]. cbn [sumTree].
  specialize (H 0%nat). rewrite Nat.add_0_r in H. rewrite H by (cbn [length]; lia). ring.
Qed.
Lemma transfer_sum : forall m c c' t p, regular t ->
  (forall d, subT t d = Some (T []) -> c' (d ++ p) == c (d ++ p)) ->
  (forall d i, subT t d = Some (T []) -> m (d ++ p) = Refine -> (i < numKids)%nat -> c' (i :: d ++ p) == c (d ++ p)) ->
  (forall d k ks, subT t d = Some (T (k :: ks)) -> allVanish m (d ++ p) 0 (k :: ks) = true ->
     c' (d ++ p) == c (0%nat :: d ++ p) /\ forall j, (j < length (k :: ks))%nat -> c (j :: d ++ p) == c (0%nat :: d ++ p)) ->
  sumTree (fun q => vol q * c' q) p (adaptTree numKids m p t) == sumTree (fun q => vol q * c q) p t.
Proof.
  intros m c c' t p R. revert p R. induction t as [ks F] using tree_rec'. intros p R H1 H2 H3. destruct ks as [|k ks].
  - rewrite adaptTree_nil. destruct (m p) eqn:M; cbn [isRefine].
    + rewrite (sumTree_repeat _ p numKids pos).
      rewrite (sumKids_repeat _ (c p) p numKids 0%nat).
      * cbn [sumTree]. unfold additive in add. rewrite add. reflexivity.
      * intros j J. cbn [Nat.add]. specialize (H2 [] j eq_refl M J). cbn [app] in H2. rewrite H2. reflexivity.
    + cbn [sumTree]. specialize (H1 [] eq_refl). cbn [app] in H1. rewrite H1. reflexivity.
    + cbn [sumTree]. specialize (H1 [] eq_refl). cbn [app] in H1. rewrite H1. reflexivity.
  - rewrite adaptTree_T. destruct (allVanish m p 0 (k :: ks)) eqn:A.
    + destruct (H3 [] k ks eq_refl A) as [C0 CJ]. cbn [app] in C0, CJ. destruct (reg_inv _ _ _ R) as [Ln _]. rewrite sumTree_T.
      rewrite (sumKids_leaves m c (c (0%nat :: p)) p (k :: ks) 0%nat A); [|intros j J; apply CJ; exact J].
      rewrite Ln. cbn [sumTree]. unfold additive in add. rewrite add, C0. reflexivity.
    + destruct (reg_inv _ _ _ R) as [_ FR]. assert (G : forall l i,
        Forall (fun t => forall p, regular t ->
           (forall d, subT t d = Some (T []) -> c' (d ++ p) == c (d ++ p)) ->
           (forall d i, subT t d = Some (T []) -> m (d ++ p) = Refine -> (i < numKids)%nat -> c' (i :: d ++ p) == c (d ++ p)) ->
           (forall d k ks, subT t d = Some (T (k :: ks)) -> allVanish m (d ++ p) 0 (k :: ks) = true ->
              c' (d ++ p) == c (0%nat :: d ++ p) /\ forall j, (j < length (k :: ks))%nat -> c (j :: d ++ p) == c (0%nat :: d ++ p)) ->
           sumTree (fun q => vol q * c' q) p (adaptTree numKids m p t) == sumTree (fun q => vol q * c q) p t) l ->
        Forall regular l ->
        (forall j t, nth_error l j = Some t -> forall d, subT t d = Some (T []) -> c' (d ++ (i + j)%nat :: p) == c (d ++ (i + j)%nat :: p)) ->
        (forall j t, nth_error l j = Some t -> forall d n, subT t d = Some (T []) -> m (d ++ (i + j)%nat :: p) = Refine -> (n < numKids)%nat ->
            c' (n :: d ++ (i + j)%nat :: p) == c (d ++ (i + j)%nat :: p)) ->
        (forall j t, nth_error l j = Some t -> forall d k ks, subT t d = Some (T (k :: ks)) -> allVanish m (d ++ (i + j)%nat :: p) 0 (k :: ks) = true ->
            c' (d ++ (i + j)%nat :: p) == c (0%nat :: d ++ (i + j)%nat :: p) /\
            forall n, (n < length (k :: ks))%nat -> c (n :: d ++ (i + j)%nat :: p) == c (0%nat :: d ++ (i + j)%nat :: p)) ->
        sumKids (fun q => vol q * c' q) p i (adaptKids numKids m p i l) == sumKids (fun q => vol q * c q) p i l).
      { induction l as [|x l IH]; intros i FF RR K1 K2 K3; [reflexivity|]. inversion FF as [|? ? A1 B1]; subst. inversion RR as [|? ? R1 R2]; subst. cbn [adaptKids sumKids].
        rewrite (IH (S i) B1 R2).
        - rewrite A1; [reflexivity|exact R1| | |].
          + intros d S. specialize (K1 0%nat x eq_refl d S). rewrite Nat.add_0_r in K1. exact K1.
          + intros d n S. specialize (K2 0%nat x eq_refl d n S). rewrite Nat.add_0_r in K2. exact K2.
          + intros d k' ks' S. specialize (K3 0%nat x eq_refl d k' ks' S). rewrite Nat.add_0_r in K3. exact K3.
        - intros j t N d S. specialize (K1 (Datatypes.S j) t N d S). rewrite <- Nat.add_succ_comm in K1. exact K1.
        - intros j t N d n S. specialize (K2 (Datatypes.S j) t N d n S). rewrite <- Nat.add_succ_comm in K2. exact K2.
        - intros j t N d k' ks' S. specialize (K3 (Datatypes.S j) t N d k' ks' S). rewrite <- Nat.add_succ_comm in K3. exact K3. }
      specialize (G (k :: ks) 0%nat F FR). cbn [adaptKids] in G |- *. rewrite sumTree_T. rewrite G.
      * rewrite sumTree_T. reflexivity.
      * intros j t N d S. specialize (H1 (d ++ [j])). rewrite subT_last in H1. cbn [kidsOf] in H1. rewrite N in H1. specialize (H1 S).
        rewrite <- app_assoc in H1. exact H1.
      * intros j t N d n S. specialize (H2 (d ++ [j]) n). rewrite subT_last in H2. cbn [kidsOf] in H2. rewrite N in H2. specialize (H2 S).
        rewrite <- app_assoc in H2. exact H2.
      * intros j t N d k' ks' S. specialize (H3 (d ++ [j]) k' ks'). rewrite subT_last in H3. cbn [kidsOf] in H3. rewrite N in H3. specialize (H3 S).
        rewrite <- app_assoc in H3. exact H3.
Qed.

Lemma regular_repeat : regular (T (repeat (T []) numKids)).
Proof.
  apply regNode; [apply repeat_length|]. apply Forall_forall. intros x X. apply repeat_spec in X. subst x. constructor.
Qed.
Lemma adaptKids_length : forall m p ks i, length (adaptKids numKids m p i ks) = length ks.
Proof. intros m p. induction ks as [|k ks IH]; intros i; [reflexivity|]. cbn [adaptKids length]. now rewrite IH. Qed.
Lemma adapt_regular : forall m t, regular t -> forall p, regular (adaptTree numKids m p t).
Proof.
  intros m t. induction t as [ks F] using tree_rec'. intros R p. destruct ks as [|k ks].
  - rewrite adaptTree_nil. destruct (isRefine (m p)); [apply regular_repeat|constructor].
  - rewrite adaptTree_T. destruct (allVanish m p 0 (k :: ks)); [constructor|]. destruct (reg_inv _ _ _ R) as [L FR].
    apply regNode; [now rewrite adaptKids_length|].
    assert (G : forall l i, Forall (fun t => regular t -> forall p, regular (adaptTree numKids m p t)) l -> Forall regular l ->
       Forall regular (adaptKids numKids m p i l)).
    { induction l as [|x l IH]; intros i A B; [constructor|]. inversion A; inversion B; subst. cbn [adaptKids]. constructor; [now auto|now apply IH]. }
    now apply G.
Qed.
Lemma sumKids_vanish : forall m p ks i, allVanish m p i ks = true -> sumKids vol p i ks == volumesOf vol p i (length ks).
Proof.
  intros m p. induction ks as [|k ks IH]; intros i A; [reflexivity|]. cbn [allVanish] in A. apply andb_true_iff in A. destruct A as [A B].
  cbn [sumKids length volumesOf]. rewrite (IH (S i) B). unfold mightVanish in A. apply andb_true_iff in A. destruct A as [A _].
  destruct k as [[|]]; [reflexivity|discriminate].
Qed.
Lemma sumKids_repeat_vol : forall p n i, sumKids vol p i (repeat (T []) n) == volumesOf vol p i n.
Proof. intros p. induction n as [|n IH]; intros i; [reflexivity|]. cbn [repeat sumKids volumesOf sumTree]. rewrite IH. reflexivity. Qed.
Lemma adapt_volume : forall m t, regular t -> forall p, sumTree vol p (adaptTree numKids m p t) == sumTree vol p t.
Proof.
  intros m t. induction t as [ks F] using tree_rec'. intros R p. destruct ks as [|k ks].
  - rewrite adaptTree_nil. destruct (isRefine (m p)); [|reflexivity]. rewrite (sumTree_repeat _ p numKids pos), sumKids_repeat_vol. cbn [sumTree]. apply add.
  - rewrite adaptTree_T. destruct (reg_inv _ _ _ R) as [L FR]. destruct (allVanish m p 0 (k :: ks)) eqn:A.
    + rewrite sumTree_T, (sumKids_vanish m p _ 0%nat A), L. cbn [sumTree]. symmetry. apply add.
    + clear L. cbn [adaptKids]. rewrite !sumTree_T.
      change (adaptTree numKids m (0%nat :: p) k :: adaptKids numKids m p 1 ks) with (adaptKids numKids m p 0 (k :: ks)).
      assert (G : forall l i, Forall (fun t => regular t -> forall p, sumTree vol p (adaptTree numKids m p t) == sumTree vol p t) l -> Forall regular l ->
         sumKids vol p i (adaptKids numKids m p i l) == sumKids vol p i l).
      { induction l as [|x l IH]; intros i A1 B1; [reflexivity|]. inversion A1; inversion B1; subst. cbn [adaptKids sumKids]. rewrite IH by assumption.
        match goal with Y : AdaptSpec.regular numKids x -> _ |- _ => rewrite Y by assumption end. reflexivity. }
      now apply G.
Qed.

(** ** Refinement is undone by coarsening *)
Lemma undo : forall m m' t p, (forall q, m q <> Coarsen) ->
  (forall d s, subT t d = Some s -> m' (d ++ p) = Keep) ->
  (forall d i, subT t d = Some (T []) -> m (d ++ p) = Refine -> m' (i :: d ++ p) = Coarsen) ->
  adaptTree numKids m' p (adaptTree numKids m p t) = t.
Proof.
  intros m m' t p NC. revert p. induction t as [ks F] using tree_rec'. intros p H1 H2. destruct ks as [|k ks].
  - rewrite (adaptTree_nil numKids m). pose proof (H1 [] (T []) eq_refl) as M'. cbn [app] in M'. destruct (m p) eqn:M; cbn [isRefine].
    + assert (V : forall n i, allVanish m' p i (repeat (T []) n) = true).
      { induction n as [|n IH]; intros i; [reflexivity|]. cbn [repeat allVanish]. rewrite IH. unfold mightVanish. cbn [isLeafTree kidsOf].
        pose proof (H2 [] i eq_refl M) as C. cbn [app] in C. rewrite C. reflexivity. }
      apply (adaptTree_repeat numKids m' p numKids pos), V.
    + rewrite adaptTree_nil, M'. reflexivity.
    + now destruct (NC p).
  - rewrite (adaptTree_T numKids m). destruct (allVanish m p 0 (k :: ks)) eqn:A.
    + exfalso. destruct (allVanish_kid m p _ 0 0%nat k A eq_refl) as [_ C]. now apply (NC _ C).
    + assert (G : forall l i,
        Forall (fun t => forall p, (forall d s, subT t d = Some s -> m' (d ++ p) = Keep) ->
           (forall d i, subT t d = Some (T []) -> m (d ++ p) = Refine -> m' (i :: d ++ p) = Coarsen) ->
           adaptTree numKids m' p (adaptTree numKids m p t) = t) l ->
        (forall j t, nth_error l j = Some t -> forall d s, subT t d = Some s -> m' (d ++ (i + j)%nat :: p) = Keep) ->
        (forall j t, nth_error l j = Some t -> forall d n, subT t d = Some (T []) -> m (d ++ (i + j)%nat :: p) = Refine ->
            m' (n :: d ++ (i + j)%nat :: p) = Coarsen) ->
        adaptKids numKids m' p i (adaptKids numKids m p i l) = l).
      { induction l as [|x l IH]; intros i FF K1 K2; [reflexivity|]. inversion FF as [|? ? A1 B1]; subst. cbn [adaptKids]. f_equal.
        - apply A1.
          + intros d s S. specialize (K1 0%nat x eq_refl d s S). rewrite Nat.add_0_r in K1. exact K1.
          + intros d n S. specialize (K2 0%nat x eq_refl d n S). rewrite Nat.add_0_r in K2. exact K2.
        - apply IH; [exact B1| |].
          + intros j t N d s S. specialize (K1 (Datatypes.S j) t N d s S). rewrite <- Nat.add_succ_comm in K1. exact K1.
          + intros j t N d n S. specialize (K2 (Datatypes.S j) t N d n S). rewrite <- Nat.add_succ_comm in K2. exact K2. }
      specialize (G (k :: ks) 0%nat F). cbn [adaptKids] in G |- *. rewrite adaptTree_T.
      assert (M0 : m' (0%nat :: p) = Keep).
      { apply (H1 [0%nat] k). reflexivity. }
      cbn [allVanish]. unfold mightVanish at 1. rewrite M0. cbn [isCoarsen]. rewrite andb_false_r. cbn [andb adaptKids]. f_equal. apply G.
      * intros j t N d s S. specialize (H1 (d ++ [j]) s). rewrite subT_last in H1. cbn [kidsOf] in H1. rewrite N in H1. specialize (H1 S).
        rewrite <- app_assoc in H1. exact H1.
      * intros j t N d n S. specialize (H2 (d ++ [j]) n). rewrite subT_last in H2. cbn [kidsOf] in H2. rewrite N in H2. specialize (H2 S).
        rewrite <- app_assoc in H2. exact H2.
Qed.
Lemma keep_id : forall m t p, (forall q, m q = Keep) -> adaptTree numKids m p t = t.
Proof.
  intros m t p K. revert p. induction t as [ks F] using tree_rec'. intros p. destruct ks as [|k ks].
  - rewrite adaptTree_nil, K. reflexivity.
  - rewrite adaptTree_T. cbn [allVanish]. unfold mightVanish. rewrite K. cbn [isCoarsen]. rewrite andb_false_r. cbn [andb]. f_equal.
    revert F. generalize 0%nat as i. generalize (k :: ks) as l. clear k ks. induction l as [|x l IH]; intros i F; [reflexivity|].
    inversion F as [|? ? A B]; subst. cbn [adaptKids]. f_equal; [apply A|now apply IH].
Qed.
End S.

(** ** Marks of a call *)
Lemma marksOf_elem : forall a p, marksOf a p <> Keep -> In p (c_order a) /\ marksOf a p = lastMark (mkElem (level p) (c_sats a p)).
Proof.
  intros a p. unfold marksOf, elemsOf. rewrite markElements_eq. cbn [fst]. rewrite map_map.
  induction (c_order a) as [|q l IH]; cbn [map combine find]; [contradiction|].
  cbn [fst]. destruct (list_eq_dec Nat.eq_dec q p) as [->|NE].
  - intros _. split; [left; reflexivity|reflexivity].
  - intros H. destruct (IH H) as [A B]. split; [right; exact A|exact B].
Qed.
Lemma marksOf_in : forall a p, In p (c_order a) -> marksOf a p = lastMark (mkElem (level p) (c_sats a p)).
Proof.
  intros a p. unfold marksOf, elemsOf. rewrite markElements_eq. cbn [fst]. rewrite map_map.
  induction (c_order a) as [|q l IH]; cbn [map combine find]; [intros []|].
  cbn [fst]. destruct (list_eq_dec Nat.eq_dec q p) as [->|NE]; [reflexivity|]. intros [E|H]; [contradiction|]. now apply IH.
Qed.
Lemma no_marks : forall a, markForGridAdaptation [elemsOf a] = 0%nat -> forall p, marksOf a p = Keep.
Proof.
  intros a H p. rewrite markForGridAdaptation_eq in H. cbn [concat] in H. rewrite app_nil_r in H.
  destruct (marksOf a p) eqn:M; [|reflexivity|]; exfalso;
    (assert (N : marksOf a p <> Keep) by congruence; destruct (marksOf_elem a p N) as [I E];
     assert (Z : phaseCount (mkElem (level p) (c_sats a p)) = 0%nat);
     [ unfold elemsOf in H; rewrite map_map in H; clear -H I;
       induction (c_order a) as [|q l IH]; [destruct I|]; unfold list_sum in H; cbn [map fold_right] in H;
       destruct I as [->|I]; [lia|]; apply IH; [unfold list_sum; lia|exact I]
     | apply phaseCount_zero in Z; congruence ]).
Qed.
