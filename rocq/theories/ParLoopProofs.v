(** Proofs about the threaded element loops. *)
From Verif Require Import ParLoopModel ParLoopSpec.

Arguments updt : simpl never.
Arguments list_sum : simpl never.
Lemma list_sum_cons x l : list_sum (x :: l) = x + list_sum l.
Proof. reflexivity. Qed.

Lemma nth_split_updt (l : list tstate) i t x : nth_error l i = Some t ->
  exists a b, l = a ++ t :: b /\ updt l i x = a ++ x :: b.
Proof.
  revert i; induction l as [|h l IH]; intros [|i] H; cbn in H; try discriminate.
  - inversion H; subst. exists [], l. auto.
  - destruct (IH _ H) as (a & b & -> & E). exists (h :: a), b. split; auto.
    change (updt (h :: a ++ t :: b) (S i) x) with (h :: updt (a ++ t :: b) i x). rewrite E. auto.
Qed.

Section P.
  Variable R : Type.
  Variable add : R -> R -> R.
  Variable zero : R.
  Hypothesis add_comm : forall a b, add a b = add b a.
  Hypothesis add_assoc : forall a b c, add a (add b c) = add (add a b) c.
  Hypothesis add_zero : forall a, add a zero = a.

  Variable elems : list (elem R).
  Variable nonlocal prefetching : bool.
  Variable r0 : nat -> R.
  Variable j0 : nat -> nat -> R.

  Notation n := (nelem R elems).
  Notation tstep := (tstep R add elems nonlocal prefetching).
  Notation prun := (prun R add elems nonlocal prefetching).
  Notation skipped := (skipped R elems nonlocal).
  Notation rsum := (rsum R add zero).

  Definition one (q : nat) : list nat := if q =? n then [] else [q].
  Definition heldof (t : tstate) : list nat :=
    match t with
    | THave p => one p
    | TWork p q | TAdd p q => p :: match q with Some q => one q | None => [] end
    | _ => []
    end.
  Definition heldl (ts : list tstate) : list nat := flat_map heldof ts.
  Arguments heldl : simpl never.

  Definition sees_end (t : tstate) : Prop :=
    match t with
    | TDone => True
    | THave p => p = n
    | TWork _ (Some q) | TAdd _ (Some q) => q = n
    | _ => False
    end.

  Definition rvals (i p : nat) : list R :=
    match nth_error elems p with
    | Some e => map snd (filter (fun x => Nat.eqb (fst x) i) (rentries e))
    | None => []
    end.
  Definition jvals (i j p : nat) : list R :=
    match nth_error elems p with
    | Some e => map snd (filter (fun x => Nat.eqb (fst (fst x)) i && Nat.eqb (snd (fst x)) j) (jentries e))
    | None => []
    end.
  Definition committed (s : pst R) : list nat := filter (fun p => negb (skipped p)) (finishedl s).

  Record PInv (s : pst R) : Prop := {
    pi_main : exists m lost,
      handed s = rev (seq 0 m) /\ m <= n /\
      Permutation (seq 0 m) (heldl (threads s) ++ finishedl s ++ lost) /\
      (lost = [] \/ threw s = true \/ In TCatch (threads s)) /\
      it s = (if threw s then n else m);
    pi_end : forall t, In t (threads s) -> sees_end t -> it s = n;
    pi_add : forall p q, In (TAdd p q) (threads s) -> skipped p = false;
    pi_res : forall i, res s i = add (r0 i) (rsum (flat_map (rvals i) (committed s)));
    pi_jac : forall i j, jac s i j = add (j0 i j) (rsum (flat_map (jvals i j) (committed s))) }.

  Lemma rsum_app a b : rsum (a ++ b) = add (rsum a) (rsum b).
  Proof.
    induction a as [|x a IH]; cbn.
    - rewrite add_comm, add_zero. reflexivity.
    - rewrite IH. apply add_assoc.
  Qed.

  Lemma rsum_perm a b : Permutation a b -> rsum a = rsum b.
  Proof.
    induction 1; cbn; auto.
    - congruence.
    - rewrite !add_assoc. rewrite (add_comm y x). reflexivity.
    - congruence.
  Qed.

  Lemma fold_add_res l : forall f i,
    fold_left (add_res R add) l f i = add (f i) (rsum (map snd (filter (fun x => Nat.eqb (fst x) i) l))).
  Proof.
    induction l as [|[g v] l IH]; cbn; intros f i.
    - symmetry; apply add_zero.
    - rewrite IH. unfold add_res at 1. cbn. rewrite (Nat.eqb_sym i g).
      destruct (g =? i); cbn; [symmetry; apply add_assoc|reflexivity].
  Qed.
  Lemma fold_add_jac l : forall f i j,
    fold_left (add_jac R add) l f i j =
      add (f i j) (rsum (map snd (filter (fun x => Nat.eqb (fst (fst x)) i && Nat.eqb (snd (fst x)) j) l))).
  Proof.
    induction l as [|[[g h] v] l IH]; cbn; intros f i j.
    - symmetry; apply add_zero.
    - rewrite IH. unfold add_jac at 1. cbn. rewrite (Nat.eqb_sym i g), (Nat.eqb_sym j h).
      destruct ((g =? i) && (h =? j)); cbn; [symmetry; apply add_assoc|reflexivity].
  Qed.

  Lemma PInv_init T : PInv (pinit R T r0 j0).
  Proof.
    constructor; cbn.
    - exists 0, []. do 2 (split; [try reflexivity; lia|]). split; [|split; auto].
      assert (E : heldl (repeat TStart T) = []) by (clear; induction T; cbn; auto).
      rewrite E. constructor.
    - intros t H Hs. apply repeat_spec in H. subst. destruct Hs.
    - intros p q H. apply repeat_spec in H. discriminate.
    - intros; symmetry; apply add_zero.
    - intros; symmetry; apply add_zero.
  Qed.

  Lemma heldl_split a t b : Permutation (heldl (a ++ t :: b)) (heldof t ++ heldl (a ++ b)).
  Proof.
    unfold heldl. rewrite !flat_map_app. cbn.
    rewrite !app_assoc. apply Permutation_app_tail. apply Permutation_app_comm.
  Qed.

  Lemma in_mid {A} (x y : A) a b : In x (a ++ y :: b) <-> x = y \/ In x (a ++ b).
  Proof. rewrite !in_app_iff. cbn. intuition. Qed.

  (** A fetch hands out the next position or reports the end. *)
  Lemma fetch_spec s m : it s = (if threw s then n else m) -> m <= n -> handed s = rev (seq 0 m) ->
    let '(p, s1) := fetch R elems s in
    threads s1 = threads s /\ finishedl s1 = finishedl s /\ threw s1 = threw s /\
    res s1 = res s /\ jac s1 = jac s /\
    exists m', m' <= n /\ handed s1 = rev (seq 0 m') /\ it s1 = (if threw s then n else m') /\
      Permutation (seq 0 m') (one p ++ seq 0 m) /\ (p = n -> it s1 = n) /\ (it s = n -> it s1 = n).
  Proof.
    intros Hi Hm Hh. unfold fetch. cbn. repeat (split; [reflexivity|]).
    unfold one. destruct (Nat.eqb_spec (it s) n) as [E|E].
    - exists m. repeat split; auto.
    - destruct (threw s); [congruence|]. subst m. exists (S (it s)). repeat split; try lia.
      + rewrite seq_S, rev_app_distr. cbn. rewrite Hh. reflexivity.
      + rewrite seq_S. cbn. apply Permutation_sym, Permutation_cons_append.
  Qed.

  Lemma perm_mid (a b c : list nat) : Permutation (a ++ b ++ c) (b ++ a ++ c).
  Proof. rewrite !app_assoc. apply Permutation_app_tail, Permutation_app_comm. Qed.

  Lemma perm_fin (p : nat) (Q H F L : list nat) :
    Permutation (((p :: Q) ++ H) ++ F ++ L) ((Q ++ H) ++ (p :: F) ++ L).
  Proof. cbn. apply Permutation_middle. Qed.

  Lemma perm_lost (Q H F L : list nat) :
    Permutation ((Q ++ H) ++ F ++ L) (([] ++ H) ++ F ++ Q ++ L).
  Proof. cbn. rewrite <- app_assoc. rewrite (perm_mid Q H). apply Permutation_app_head, perm_mid. Qed.

  Lemma PInv_step i b s s' : PInv s -> tstep i b s = Some s' -> PInv s'.
  Proof.
    intros [(m & lost & Hh & Hm & Hp & Hl & Hi) He Ha Hr Hj] E. unfold ParLoopModel.tstep in E.
    destruct (nth_error (threads s) i) as [t|] eqn:Et; [|discriminate].
    assert (Hupd : forall x, exists ta tb, threads s = ta ++ t :: tb /\ updt (threads s) i x = ta ++ x :: tb)
      by (intros x; apply nth_split_updt; auto).
    assert (Hfetch : forall x, heldof t = [] -> t <> TCatch ->
              (let '(p, s1) := fetch R elems s in x = THave p /\ Some (set_thread R i x s1) = Some s') -> PInv s').
    { intros x Hz Hc. pose proof (fetch_spec s m Hi Hm Hh) as F. destruct (fetch R elems s) as [p s1].
      destruct F as (F1 & F2 & F3 & F4 & F5 & m' & F6 & F7 & F8 & F9 & F10 & F11).
      intros [-> Es]. inversion Es; subst s'; clear Es.
      destruct (Hupd (THave p)) as (ta & tb & Et1 & Et2).
      constructor; cbn; rewrite ?F1, ?F2, ?F3, ?F4, ?F5; auto.
      - rewrite Et2. exists m', lost. repeat split; auto.
        + rewrite F9, Hp, Et1, !heldl_split, Hz. cbn.
          rewrite <- !app_assoc. reflexivity.
        + rewrite in_mid. rewrite Et1, in_mid in Hl. intuition congruence.
      - rewrite Et2. intros t0 H0 Hs. apply in_mid in H0 as [->|H0].
        + cbn in Hs. auto.
        + apply F11. apply (He t0); auto. rewrite Et1. apply in_mid; auto.
      - rewrite Et2. intros p0 q H0. apply in_mid in H0 as [H0|H0]; [discriminate|].
        apply (Ha p0 q). rewrite Et1. apply in_mid; auto.
      all: unfold committed; cbn; rewrite F2; auto. }
    destruct t as [ | p | p q | p q | | | ].
    - apply (Hfetch (THave (it s))); [reflexivity|discriminate|split; [reflexivity|exact E]].
    - (* have *)
      unfold is_finished in E. destruct (Nat.eqb_spec p n) as [Epn|Epn].
      + inversion E; subst s'; clear E. destruct (Hupd TDone) as (ta & tb & Et1 & Et2).
        constructor; cbn; auto.
        * rewrite Et2. exists m, lost. repeat split; auto.
          -- rewrite Hp, Et1, !heldl_split. cbn. unfold one. subst p. rewrite Nat.eqb_refl. reflexivity.
          -- rewrite in_mid. rewrite Et1, in_mid in Hl. intuition congruence.
        * rewrite Et2. intros t0 H0 Hs. apply in_mid in H0 as [->|H0].
          -- apply (He (THave p)); auto. rewrite Et1. apply in_mid; auto.
          -- apply (He t0); auto. rewrite Et1. apply in_mid; auto.
        * rewrite Et2. intros p0 q H0. apply in_mid in H0 as [H0|H0]; [discriminate|].
          apply (Ha p0 q). rewrite Et1. apply in_mid; auto.
      + destruct prefetching.
        * pose proof (fetch_spec s m Hi Hm Hh) as F. destruct (fetch R elems s) as [q s1].
          destruct F as (F1 & F2 & F3 & F4 & F5 & m' & F6 & F7 & F8 & F9 & F10 & F11).
          inversion E; subst s'; clear E. destruct (Hupd (TWork p (Some q))) as (ta & tb & Et1 & Et2).
          constructor; cbn; rewrite ?F1, ?F2, ?F3, ?F4, ?F5; auto.
          -- rewrite Et2. exists m', lost. repeat split; auto.
             ++ rewrite F9, Hp, Et1, !heldl_split. cbn.
                unfold one at 2. destruct (Nat.eqb_spec p n); [congruence|]. cbn.
                rewrite <- Permutation_middle. rewrite <- !app_assoc. reflexivity.
             ++ rewrite in_mid. rewrite Et1, in_mid in Hl. intuition congruence.
          -- rewrite Et2. intros t0 H0 Hs. apply in_mid in H0 as [->|H0].
             ++ cbn in Hs. auto.
             ++ apply F11. apply (He t0); auto. rewrite Et1. apply in_mid; auto.
          -- rewrite Et2. intros p0 q0 H0. apply in_mid in H0 as [H0|H0]; [discriminate|].
             apply (Ha p0 q0). rewrite Et1. apply in_mid; auto.
          all: unfold committed; cbn; rewrite F2; auto.
        * inversion E; subst s'; clear E. destruct (Hupd (TWork p None)) as (ta & tb & Et1 & Et2).
          constructor; cbn; auto.
          -- rewrite Et2. exists m, lost. repeat split; auto.
             ++ rewrite Hp, Et1, !heldl_split. cbn. unfold one. destruct (Nat.eqb_spec p n); [congruence|]. reflexivity.
             ++ rewrite in_mid. rewrite Et1, in_mid in Hl. intuition congruence.
          -- rewrite Et2. intros t0 H0 Hs. apply in_mid in H0 as [->|H0]; [destruct Hs|].
             apply (He t0); auto. rewrite Et1. apply in_mid; auto.
          -- rewrite Et2. intros p0 q H0. apply in_mid in H0 as [H0|H0]; [discriminate|].
             apply (Ha p0 q). rewrite Et1. apply in_mid; auto.
    - (* work *)
      assert (Hcont : forall t0, t0 = continue_at q -> sees_end t0 -> sees_end (TWork p q))
        by (intros t0 ->; destruct q; cbn; tauto).
      assert (Hheld : heldof (continue_at q) = match q with Some q => one q | None => [] end)
        by (destruct q; reflexivity).
      destruct (skipped p) eqn:Esk.
      + inversion E; subst s'; clear E. destruct (Hupd (continue_at q)) as (ta & tb & Et1 & Et2).
        constructor; cbn; auto.
        * rewrite Et2. exists m, lost. repeat split; auto.
          -- rewrite Hp, Et1, !heldl_split, Hheld. cbn [heldof]. apply perm_fin.
          -- rewrite in_mid. rewrite Et1, in_mid in Hl. intuition congruence.
        * rewrite Et2. intros t0 H0 Hs. apply in_mid in H0 as [H0|H0].
          -- apply (He (TWork p q)); eauto. rewrite Et1. apply in_mid; auto.
          -- apply (He t0); auto. rewrite Et1. apply in_mid; auto.
        * rewrite Et2. intros p0 q0 H0. apply in_mid in H0 as [H0|H0]; [destruct q; discriminate|].
          apply (Ha p0 q0). rewrite Et1. apply in_mid; auto.
        * unfold committed. cbn. rewrite Esk. auto.
        * unfold committed. cbn. rewrite Esk. auto.
      + destruct b.
        * inversion E; subst s'; clear E. destruct (Hupd TCatch) as (ta & tb & Et1 & Et2).
          constructor; cbn; auto.
          -- rewrite Et2. exists m, (heldof (TWork p q) ++ lost). repeat split; auto.
             ++ rewrite Hp, Et1, !heldl_split. cbn [heldof]. apply perm_lost.
             ++ right; right. apply in_mid; auto.
          -- rewrite Et2. intros t0 H0 Hs. apply in_mid in H0 as [->|H0]; [destruct Hs|].
             apply (He t0); auto. rewrite Et1. apply in_mid; auto.
          -- rewrite Et2. intros p0 q0 H0. apply in_mid in H0 as [H0|H0]; [discriminate|].
             apply (Ha p0 q0). rewrite Et1. apply in_mid; auto.
        * inversion E; subst s'; clear E. destruct (Hupd (TAdd p q)) as (ta & tb & Et1 & Et2).
          constructor; cbn; auto.
          -- rewrite Et2. exists m, lost. repeat split; auto.
             ++ rewrite Hp, Et1, !heldl_split. reflexivity.
             ++ rewrite in_mid. rewrite Et1, in_mid in Hl. intuition congruence.
          -- rewrite Et2. intros t0 H0 Hs. apply in_mid in H0 as [->|H0].
             ++ apply (He (TWork p q)); auto. rewrite Et1. apply in_mid; auto.
             ++ apply (He t0); auto. rewrite Et1. apply in_mid; auto.
          -- rewrite Et2. intros p0 q0 H0. apply in_mid in H0 as [H0|H0]; [congruence|].
             apply (Ha p0 q0). rewrite Et1. apply in_mid; auto.
    - (* add *)
      assert (Hcont : forall t0, t0 = continue_at q -> sees_end t0 -> sees_end (TAdd p q))
        by (intros t0 ->; destruct q; cbn; tauto).
      assert (Hheld : heldof (continue_at q) = match q with Some q => one q | None => [] end)
        by (destruct q; reflexivity).
      destruct (Hupd (continue_at q)) as (ta & tb & Et1 & Et2).
      assert (Esk : skipped p = false) by (apply (Ha p q); rewrite Et1; apply in_mid; auto).
      assert (Hpn : p < n).
      { assert (Hin : In p (seq 0 m)).
        { eapply Permutation_in; [apply Permutation_sym, Hp|]. rewrite Et1. apply in_or_app. left.
          eapply Permutation_in; [apply Permutation_sym, heldl_split|]. left; auto. }
        apply in_seq in Hin. lia. }
      inversion E; subst s'; clear E.
      unfold commit. destruct (nth_error elems p) as [e|] eqn:Ee.
      2:{ apply nth_error_None in Ee. unfold nelem in Hpn. lia. }
      constructor; cbn; auto.
      + rewrite Et2. exists m, lost. repeat split; auto.
        * rewrite Hp, Et1, !heldl_split, Hheld. cbn [heldof]. apply perm_fin.
        * rewrite in_mid. rewrite Et1, in_mid in Hl. intuition congruence.
      + rewrite Et2. intros t0 H0 Hs. apply in_mid in H0 as [H0|H0].
        * apply (He (TAdd p q)); eauto. rewrite Et1. apply in_mid; auto.
        * apply (He t0); auto. rewrite Et1. apply in_mid; auto.
      + rewrite Et2. intros p0 q0 H0. apply in_mid in H0 as [H0|H0]; [destruct q; discriminate|].
        apply (Ha p0 q0). rewrite Et1. apply in_mid; auto.
      + intros i0. rewrite fold_add_res, Hr. unfold committed. cbn. rewrite Esk. cbn.
        rewrite rsum_app. unfold rvals at 2. rewrite Ee.
        rewrite <- add_assoc. f_equal. apply add_comm.
      + intros i0 k0. rewrite fold_add_jac, Hj. unfold committed. cbn. rewrite Esk. cbn.
        rewrite rsum_app. unfold jvals at 2. rewrite Ee.
        rewrite <- add_assoc. f_equal. apply add_comm.
    - apply (Hfetch (THave (it s))); [reflexivity|discriminate|split; [reflexivity|exact E]].
    - (* catch *)
      inversion E; subst s'; clear E. destruct (Hupd TDone) as (ta & tb & Et1 & Et2).
      constructor; cbn; auto.
      + rewrite Et2. exists m, lost. repeat split; auto.
        rewrite Hp, Et1, !heldl_split. reflexivity.
      + rewrite Et2. intros p0 q0 H0. apply in_mid in H0 as [H0|H0]; [discriminate|].
        apply (Ha p0 q0). rewrite Et1. apply in_mid; auto.
    - discriminate.
  Qed.

  Lemma PInv_run ls : forall s s', PInv s -> prun ls s = Some s' -> PInv s'.
  Proof.
    induction ls as [|[i b] ls IH]; cbn; intros s s' HI H.
    - inversion H; subst; auto.
    - destruct (tstep i b s) as [s1|] eqn:E; [|discriminate].
      exact (IH _ _ (PInv_step _ _ _ _ HI E) H).
  Qed.

  Lemma NoDup_rev_seq m : NoDup (rev (seq 0 m)).
  Proof. apply NoDup_rev, seq_NoDup. Qed.

  (** Entities are handed out in order, each at most once, never the end. *)
  Lemma handed_once T ls s : prun ls (pinit R T r0 j0) = Some s ->
    exists m, handed s = rev (seq 0 m) /\ m <= n.
  Proof.
    intros H. destruct (pi_main _ (PInv_run _ _ _ (PInv_init T) H)) as (m & lost & ? & ? & _). eauto.
  Qed.

  Lemma processed_sub T ls s : prun ls (pinit R T r0 j0) = Some s ->
    NoDup (finishedl s) /\ incl (finishedl s) (seq 0 n).
  Proof.
    intros H. destruct (pi_main _ (PInv_run _ _ _ (PInv_init T) H)) as (m & lost & Hh & Hm & Hp & _).
    assert (Hnd : NoDup (heldl (threads s) ++ finishedl s ++ lost)).
    { eapply Permutation_NoDup; [exact Hp|apply seq_NoDup]. }
    split.
    - clear -Hnd. revert Hnd. generalize (heldl (threads s)). intros l.
      induction l as [|x l IH]; cbn; intros Hnd.
      + clear - Hnd. induction (finishedl s) as [|y f IH]; cbn in *; [constructor|].
        inversion Hnd; subst. constructor; auto. intros Hin. apply H1, in_or_app; auto.
      + inversion Hnd; auto.
    - intros p Hin. assert (In p (seq 0 m)).
      { eapply Permutation_in; [apply Permutation_sym, Hp|]. apply in_or_app; right. apply in_or_app; auto. }
      apply in_seq in H0. apply in_seq. lia.
  Qed.

  Lemma held_done ts : (forall t, In t ts -> t = TDone) -> heldl ts = [].
  Proof.
    unfold heldl. induction ts as [|t ts IH]; cbn; auto. intros H.
    rewrite (H t) by auto. cbn. apply IH. auto.
  Qed.

  Lemma tstep_threads i b s s' : tstep i b s = Some s' -> length (threads s') = length (threads s).
  Proof.
    unfold ParLoopModel.tstep. destruct (nth_error (threads s) i) as [t|] eqn:Et; [|discriminate].
    assert (Hl : forall x, length (updt (threads s) i x) = length (threads s)).
    { intros x. destruct (nth_split_updt _ _ _ x Et) as (a & b0 & -> & ->). rewrite !app_length. reflexivity. }
    destruct t; try (unfold fetch); intros E;
      repeat match goal with H : (if ?c then _ else _) = _ |- _ => destruct c end;
      inversion E; subst; cbn; auto.
    unfold commit. destruct (nth_error elems p); cbn; auto.
  Qed.
  Lemma prun_threads ls : forall s s', prun ls s = Some s' -> length (threads s') = length (threads s).
  Proof.
    induction ls as [|[i b] ls IH]; cbn; intros s s' H.
    - inversion H; auto.
    - destruct (tstep i b s) as [s1|] eqn:E; [|discriminate]. rewrite (IH _ _ H). eapply tstep_threads; eauto.
  Qed.

  Lemma all_processed T ls s : T <> 0 -> prun ls (pinit R T r0 j0) = Some s ->
    all_done s -> threw s = false -> Permutation (finishedl s) (seq 0 n).
  Proof.
    intros HT H Hd Ht. pose proof (PInv_run _ _ _ (PInv_init T) H) as HI.
    destruct (pi_main _ HI) as (m & lost & Hh & Hm & Hp & Hl & Hi).
    pose proof (prun_threads _ _ _ H) as Hlen. cbn in Hlen. rewrite repeat_length in Hlen.
    assert (lost = []).
    { destruct Hl as [|[|Hc]]; auto; [congruence|]. specialize (Hd _ Hc). discriminate. }
    subst lost. rewrite (held_done _ Hd) in Hp. cbn in Hp. rewrite app_nil_r in Hp.
    destruct (threads s) as [|t ts] eqn:Ets; [cbn in Hlen; lia|].
    assert (it s = n).
    { assert (Hin : In t (threads s)) by (rewrite Ets; left; auto).
      apply (pi_end _ HI t Hin). rewrite (Hd t Hin). exact I. }
    rewrite Ht in Hi. rewrite <- H0, Hi. apply Permutation_sym; auto.
  Qed.

  Lemma flat_map_perm {B} (f : nat -> list B) a b : Permutation a b -> Permutation (flat_map f a) (flat_map f b).
  Proof.
    induction 1; cbn; auto.
    - apply Permutation_app_head; auto.
    - rewrite !app_assoc. apply Permutation_app_tail, Permutation_app_comm.
    - etransitivity; eauto.
  Qed.
  Lemma filter_perm {A} (f : A -> bool) a b : Permutation a b -> Permutation (filter f a) (filter f b).
  Proof.
    induction 1; cbn; auto.
    - destruct (f x); auto.
    - destruct (f x), (f y); auto. constructor.
    - etransitivity; eauto.
  Qed.

  Lemma skipped_participates p e : nth_error elems p = Some e -> negb (skipped p) = participates R nonlocal e.
  Proof.
    intros H. unfold ParLoopModel.skipped, participates. rewrite H. destruct nonlocal, (interior e); auto.
  Qed.

  Lemma seq_values {B} (f : elem R -> list B) (fv : nat -> list B) :
    (forall p e, nth_error elems p = Some e -> fv p = f e) ->
    flat_map fv (filter (fun p => negb (skipped p)) (seq 0 n)) =
    flat_map f (filter (participates R nonlocal) elems).
  Proof.
    intros Hf. unfold nelem.
    assert (G : forall l k, (forall p e, nth_error l p = Some e -> nth_error elems (k + p) = Some e) ->
      flat_map fv (filter (fun p => negb (skipped p)) (seq k (length l))) =
      flat_map f (filter (participates R nonlocal) l)).
    { induction l as [|e l IH]; cbn; intros k Hk; auto.
      assert (He : nth_error elems k = Some e) by (specialize (Hk 0 e eq_refl); rewrite Nat.add_0_r in Hk; auto).
      rewrite (skipped_participates _ _ He). 
      assert (Hn : forall p e0, nth_error l p = Some e0 -> nth_error elems (S k + p) = Some e0).
      { intros p e0 Hp. specialize (Hk (S p) e0 Hp). rewrite Nat.add_succ_r in Hk. auto. }
      destruct (participates R nonlocal e); cbn; rewrite (IH _ Hn); auto.
      rewrite (Hf _ _ He). auto. }
    apply G. auto.
  Qed.

  Lemma assembled T ls s : T <> 0 -> prun ls (pinit R T r0 j0) = Some s ->
    all_done s -> threw s = false ->
    (forall i, res s i = add (r0 i) (rsum (row_values R nonlocal elems i))) /\
    (forall i j, jac s i j = add (j0 i j) (rsum (block_values R nonlocal elems i j))).
  Proof.
    intros HT H Hd Ht. pose proof (all_processed T ls s HT H Hd Ht) as Hp.
    pose proof (PInv_run _ _ _ (PInv_init T) H) as HI. split.
    - intros i. rewrite (pi_res _ HI). f_equal. unfold row_values.
      rewrite <- (seq_values _ (rvals i)).
      + apply rsum_perm, flat_map_perm, filter_perm, Hp.
      + intros p e He. unfold rvals. rewrite He. auto.
    - intros i j. rewrite (pi_jac _ HI). f_equal. unfold block_values.
      rewrite <- (seq_values _ (jvals i j)).
      + apply rsum_perm, flat_map_perm, filter_perm, Hp.
      + intros p e He. unfold jvals. rewrite He. auto.
  Qed.

  (** Once an exception was recorded nothing new is handed out. *)
  Lemma stop_stays i b s s' : PInv s -> threw s = true -> tstep i b s = Some s' ->
    handed s' = handed s /\ threw s' = true.
  Proof.
    intros HI Ht E. destruct (pi_main _ HI) as (m & lost & _ & _ & _ & _ & Hi). rewrite Ht in Hi.
    unfold ParLoopModel.tstep, fetch in E. rewrite Hi, Nat.eqb_refl in E.
    destruct (nth_error (threads s) i) as [t|]; [|discriminate].
    destruct t; repeat match goal with H : (if ?c then _ else _) = _ |- _ => destruct c end;
      inversion E; subst; cbn; auto.
    unfold commit. destruct (nth_error elems p); cbn; auto.
  Qed.

  (** Progress and termination. *)
  Lemma par_progress s : ~ all_done s -> exists i s', tstep i false s = Some s'.
  Proof.
    intros Hn. assert (exists i t, nth_error (threads s) i = Some t /\ t <> TDone) as (i & t & Hi & Ht).
    { unfold all_done in Hn. induction (threads s) as [|t ts IH].
      - exfalso; apply Hn. intros t [].
      - destruct t; try (eexists 0, _; split; [reflexivity|discriminate]).
        destruct IH as (i & t & ? & ?). { intros H; apply Hn. intros t [<-|Hin]; auto. }
        exists (S i), t. auto. }
    exists i. unfold ParLoopModel.tstep. rewrite Hi. destruct t; try congruence; cbn; eauto.
    - destruct (is_finished R elems p); eauto. destruct prefetching; eauto.
    - destruct (skipped p); eauto.
  Qed.

  Definition hpot (p : nat) : nat := if p =? n then 1 else 5.
  Definition tpot (t : tstate) : nat :=
    match t with
    | TStart | TNext => 2
    | THave p => hpot p
    | TWork _ None => 4
    | TWork _ (Some q) => 2 + hpot q
    | TAdd _ None => 3
    | TAdd _ (Some q) => 1 + hpot q
    | TCatch => 1
    | TDone => 0
    end.
  Definition spot (s : pst R) : nat := 4 * (n - it s) + list_sum (map tpot (threads s)).
  Arguments spot : simpl never.

  Lemma spot_step i b s s' : it s <= n -> tstep i b s = Some s' -> spot s' < spot s /\ it s' <= n.
  Proof.
    intros Hit. unfold ParLoopModel.tstep.
    destruct (nth_error (threads s) i) as [t|] eqn:Et; [|discriminate].
    assert (Hs : forall x, exists c, list_sum (map tpot (threads s)) = c + tpot t /\
                 list_sum (map tpot (updt (threads s) i x)) = c + tpot x).
    { intros x. destruct (nth_split_updt _ _ _ x Et) as (ta & tb & -> & ->).
      exists (list_sum (map tpot ta) + list_sum (map tpot tb)).
      rewrite !map_app, !list_sum_app. cbn. rewrite !list_sum_cons. lia. }
    intros E. destruct t as [ | p | p q | p q | | | ]; unfold fetch, is_finished in E; cbn in E.
    - inversion E; subst s'; clear E. unfold spot; cbn.
      destruct (Hs (THave (it s))) as (c & -> & ->). cbn. unfold hpot.
      destruct (Nat.eqb_spec (it s) n); lia.
    - destruct (Nat.eqb_spec p n) as [Ep|Ep].
      + inversion E; subst s'; clear E. unfold spot; cbn.
        destruct (Hs TDone) as (c & -> & ->). cbn. unfold hpot. destruct (Nat.eqb_spec p n); lia.
      + destruct prefetching; inversion E; subst s'; clear E; unfold spot; cbn.
        * destruct (Hs (TWork p (Some (it s)))) as (c & -> & ->). cbn. unfold hpot.
          destruct (Nat.eqb_spec (it s) n) as [|E1], (Nat.eqb_spec p n) as [|E2]; lia.
        * destruct (Hs (TWork p None)) as (c & -> & ->). cbn. unfold hpot. destruct (Nat.eqb_spec p n); lia.
    - destruct (skipped p); [|destruct b]; inversion E; subst s'; clear E; unfold spot; cbn.
      + destruct (Hs (continue_at q)) as (c & -> & ->). destruct q; cbn; lia.
      + destruct (Hs TCatch) as (c & -> & ->). destruct q; cbn; lia.
      + destruct (Hs (TAdd p q)) as (c & -> & ->). destruct q; cbn; lia.
    - inversion E; subst s'; clear E. 
      destruct (Hs (continue_at q)) as (c & E1 & E2).
      unfold spot, commit; destruct (nth_error elems p); cbn; rewrite E1, E2; destruct q; cbn; lia.
    - inversion E; subst s'; clear E. unfold spot; cbn.
      destruct (Hs (THave (it s))) as (c & -> & ->). cbn. unfold hpot.
      destruct (Nat.eqb_spec (it s) n); lia.
    - inversion E; subst s'; clear E. unfold spot; cbn.
      destruct (Hs TDone) as (c & -> & ->). cbn. lia.
    - discriminate.
  Qed.

  Lemma par_bounded T ls s : prun ls (pinit R T r0 j0) = Some s -> length ls <= 4 * n + 2 * T.
  Proof.
    assert (G : forall ls s s', it s <= n -> prun ls s = Some s' -> length ls + spot s' <= spot s).
    { clear ls s. induction ls as [|[i b] ls IH]; cbn; intros s s' Hi H.
      - inversion H; subst; lia.
      - destruct (tstep i b s) as [s1|] eqn:E; [|discriminate].
        destruct (spot_step _ _ _ _ Hi E) as [H1 H2]. specialize (IH _ _ H2 H).
        lia. }
    intros H. apply G in H; [|cbn; lia]. unfold spot at 2 in H. cbn in H.
    assert (E : list_sum (map tpot (repeat TStart T)) = 2 * T).
    { clear. induction T as [|T IH]; [reflexivity|]. cbn [repeat map]. rewrite list_sum_cons, IH. cbn. lia. }
    rewrite E in H. lia.
  Qed.
End P.
