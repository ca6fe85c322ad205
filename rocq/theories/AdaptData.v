(** * Proofs about the transfer of data and about sums over the leaves *)
From Coq Require Import QArith List Arith Bool Lia.
From Verif Require Import AdaptModel AdaptSpec AdaptProofs.
Import ListNotations.

Section D.
Variable numKids : nat.
Variable m : path -> mark.
Variable pos : (0 < numKids)%nat.
Variable V : Type.
Notation container := (container V).

Definition copies (src : path -> path) (ds : list path) (c : container) : container :=
  fold_left (fun c d => store V c d (c (src d))) ds c.
Lemma copies_app : forall src a b c, copies src (a ++ b) c = copies src b (copies src a c).
Proof. intros. unfold copies. apply fold_left_app. Qed.
Lemma store_same : forall (c : container) p v, store V c p v p = v.
Proof. intros. unfold store. destruct (list_eq_dec Nat.eq_dec p p); [reflexivity|contradiction]. Qed.
Lemma store_other : forall (c : container) p v q, q <> p -> store V c p v q = c q.
Proof. intros. unfold store. destruct (list_eq_dec Nat.eq_dec q p); [contradiction|reflexivity]. Qed.
Lemma copies_out : forall src ds c q, ~ In q ds -> copies src ds c q = c q.
Proof.
  intros src. induction ds as [|d ds IH]; intros c q N; [reflexivity|]. unfold copies in *. cbn [fold_left].
  rewrite IH; [|intros K; apply N; right; exact K]. apply store_other. intros ->. apply N. left. reflexivity.
Qed.
Lemma copies_in : forall src ds c q, (forall d, In d ds -> ~ In (src d) ds) -> In q ds -> copies src ds c q = c (src q).
Proof.
  intros src. intros ds.
  assert (G : forall a b c c0 q, (forall d, In d (a ++ b) -> ~ In (src d) (a ++ b)) ->
     (forall d, ~ In d (a ++ b) -> c d = c0 d) -> (forall d, In d a -> c d = c0 (src d)) -> In q (a ++ b) -> copies src b c q = c0 (src q)).
  { intros a b. revert a. induction b as [|d b IH]; intros a c c0 q A O I Q.
    - cbn. rewrite app_nil_r in Q. now apply I.
    - unfold copies in *. cbn [fold_left]. assert (R : a ++ d :: b = (a ++ [d]) ++ b) by now rewrite <- app_assoc.
      rewrite R in *. apply (IH (a ++ [d])).
      + exact A.
      + intros x X. rewrite store_other; [now apply O|]. intros ->. apply X. apply in_or_app. left. apply in_or_app. right. left. reflexivity.
      + intros x X. apply in_app_or in X.
        assert (D : In d ((a ++ [d]) ++ b)) by (apply in_or_app; left; apply in_or_app; right; left; reflexivity).
        destruct (list_eq_dec Nat.eq_dec x d) as [->|NE].
        * rewrite store_same. apply O. now apply A.
        * rewrite store_other by exact NE. destruct X as [X|[X|[]]]; [now apply I|congruence].
      + exact Q. }
  intros c q A Q. apply (G [] ds c c q); [exact A|reflexivity|intros d []|exact Q].
Qed.

(** ** Restriction *)
Fixpoint rlist (p : path) (t : tree) : list path :=
  match t with
  | T [] => []
  | T ks => (fix go (i : nat) (ks : list tree) : list path :=
               match ks with [] => [] | t :: ks => rlist (i :: p) t ++ go (S i) ks end) 0%nat ks
            ++ (if allVanish m p 0 ks then [p] else [])
  end.
Fixpoint rkids (p : path) (i : nat) (ks : list tree) : list path :=
  match ks with [] => [] | t :: ks => rlist (i :: p) t ++ rkids p (S i) ks end.
Lemma rlist_T : forall p k ks, rlist p (T (k :: ks)) = rkids p 0 (k :: ks) ++ (if allVanish m p 0 (k :: ks) then [p] else []).
Proof.
  intros p k ks. cbn [rlist]. f_equal. cbn [rkids]. f_equal. generalize 1%nat as i.
  induction ks as [|t ks IH]; intros i; [reflexivity|]. cbn [rkids]. f_equal. apply IH.
Qed.
Fixpoint restrictSons (p : path) (i : nat) (ks : list tree) (c : container) : container :=
  match ks with [] => c | t :: ks => restrictSons p (S i) ks (restrictTree m V (i :: p) t c) end.
Lemma restrictTree_T : forall p k ks c, restrictTree m V p (T (k :: ks)) c =
  let c := restrictSons p 0 (k :: ks) c in if allVanish m p 0 (k :: ks) then restrictKids V p 0 (k :: ks) true c else c.
Proof.
  intros p k ks c. cbn [restrictTree]. cbv zeta.
  assert (G : forall ks i c, (fix go (i : nat) (ks : list tree) (c : container) : container :=
     match ks with [] => c | t :: ks => go (S i) ks (restrictTree m V (i :: p) t c) end) i ks c = restrictSons p i ks c).
  { induction ks0 as [|t ks0 IH]; intros i c0; [reflexivity|]. cbn [restrictSons]. apply IH. }
  rewrite G. reflexivity.
Qed.
Lemma restrictKids_false : forall p ks i c, restrictKids V p i ks false c = c.
Proof. intros p. induction ks as [|k ks IH]; intros i c; [reflexivity|]. cbn [restrictKids restrictLocal]. apply IH. Qed.
Notation firstSon := (fun d : path => 0%nat :: d).
Lemma restrictTree_copies : forall t p c, restrictTree m V p t c = copies firstSon (rlist p t) c.
Proof.
  apply (tree_rec' (fun t => forall p c, restrictTree m V p t c = copies firstSon (rlist p t) c)).
  intros ks F p c. destruct ks as [|k ks]; [reflexivity|].
  rewrite restrictTree_T, rlist_T, copies_app.
  assert (G : forall l i c, Forall (fun t => forall p c, restrictTree m V p t c = copies firstSon (rlist p t) c) l ->
     restrictSons p i l c = copies firstSon (rkids p i l) c).
  { induction l as [|x l IH]; intros i c0 FF; [reflexivity|]. inversion FF as [|? ? A B]; subst. cbn [restrictSons rkids].
    rewrite copies_app, <- A. now apply IH. }
  rewrite (G _ 0%nat c F). cbv zeta. destruct (allVanish m p 0 (k :: ks)); [|reflexivity].
  cbn [restrictKids restrictLocal]. rewrite restrictKids_false. reflexivity.
Qed.
Lemma restrictForest_copies : forall ts i c, restrictForest m V i ts c = copies firstSon (rkids [] i ts) c.
Proof.
  induction ts as [|t ts IH]; intros i c; [reflexivity|]. cbn [restrictForest rkids]. rewrite copies_app, <- restrictTree_copies. apply IH.
Qed.
Definition vanishes (s : tree) (q : path) : Prop := exists k ks, s = T (k :: ks) /\ allVanish m q 0 (k :: ks) = true.
Lemma rlist_in : forall t p q, In q (rlist p t) <-> exists d s, q = d ++ p /\ subT t d = Some s /\ vanishes s q.
Proof.
  apply (tree_rec' (fun t => forall p q, In q (rlist p t) <-> exists d s, q = d ++ p /\ subT t d = Some s /\ vanishes s q)).
  intros ks F p q.
  assert (G : forall l i, Forall (fun t => forall p q, In q (rlist p t) <-> exists d s, q = d ++ p /\ subT t d = Some s /\ vanishes s q) l ->
     (In q (rkids p i l) <-> exists j t d s, nth_error l j = Some t /\ q = d ++ ((i + j)%nat :: p) /\ subT t d = Some s /\ vanishes s q)).
  { induction l as [|x l IH]; intros i FF.
    - split; [intros []|]. intros (j & t & d & s & N & _). destruct j; discriminate.
    - inversion FF as [|? ? A B]; subst. cbn [rkids]. rewrite in_app_iff, A, (IH (S i) B). split.
      + intros [(d & s & E & S & W)|(j & t & d & s & N & E & S & W)].
        * exists 0%nat, x, d, s. rewrite Nat.add_0_r. split; [reflexivity|]. split; [exact E|]. split; [exact S|exact W].
        * exists (Datatypes.S j), t, d, s. rewrite <- Nat.add_succ_comm. split; [exact N|]. split; [exact E|]. split; [exact S|exact W].
      + intros (j & t & d & s & N & E & S & W). destruct j as [|j].
        * left. injection N as ->. exists d, s. rewrite Nat.add_0_r in E. split; [exact E|]. split; [exact S|exact W].
        * right. exists j, t, d, s. rewrite <- Nat.add_succ_comm in E. split; [exact N|]. split; [exact E|]. split; [exact S|exact W]. }
  destruct ks as [|k ks].
  - split; [intros []|]. intros (d & s & -> & S & (k' & ks' & -> & _)). exfalso.
    destruct (rev d) as [|j r] eqn:R.
    + assert (d = []) by (rewrite <- (rev_involutive d), R; reflexivity). subst d. discriminate.
    + assert (D : d = rev r ++ [j]) by (rewrite <- (rev_involutive d), R; reflexivity). rewrite D, subT_last in S. cbn [kidsOf] in S.
      destruct j; discriminate.
  - rewrite rlist_T, in_app_iff, (G (k :: ks) 0%nat F). split.
    + intros [(j & t & d & s & N & E & S & W)|K].
      * exists (d ++ [j]), s. split; [rewrite <- app_assoc; exact E|]. rewrite subT_last. cbn [kidsOf]. rewrite N. split; [exact S|exact W].
      * destruct (allVanish m p 0 (k :: ks)) eqn:A; [|destruct K]. destruct K as [<-|[]].
        exists [], (T (k :: ks)). split; [reflexivity|]. split; [reflexivity|]. exists k, ks. split; [reflexivity|exact A].
    + intros (d & s & E & S & W). destruct (rev d) as [|j r] eqn:R.
      * assert (d = []) by (rewrite <- (rev_involutive d), R; reflexivity). subst d. right. cbn [subT app] in *. injection S as <-. subst q.
        destruct W as (k' & ks' & W1 & W2). injection W1 as <- <-. rewrite W2. left. reflexivity.
      * assert (D : d = rev r ++ [j]) by (rewrite <- (rev_involutive d), R; reflexivity). rewrite D, subT_last in S.
        destruct (nth_error (kidsOf (T (k :: ks))) j) as [t|] eqn:N; [|discriminate]. left.
        exists j, t, (rev r), s. cbn [kidsOf] in N. split; [exact N|]. split; [rewrite E, D, <- app_assoc; reflexivity|]. split; [exact S|exact W].
Qed.
Lemma rforest_in : forall ts q, In q (rkids [] 0 ts) <-> q <> [] /\ exists s, subT (T ts) q = Some s /\ vanishes s q.
Proof.
  intros ts q.
  assert (G : forall l i, In q (rkids [] i l) <-> exists j t, nth_error l j = Some t /\ In q (rlist [(i + j)%nat] t)).
  { induction l as [|x l IH]; intros i.
    - split; [intros []|]. intros (j & t & N & _). destruct j; discriminate.
    - cbn [rkids]. rewrite in_app_iff, IH. split.
      + intros [A|(j & t & N & A)]; [exists 0%nat, x; rewrite Nat.add_0_r; split; [reflexivity|exact A]|].
        exists (S j), t. rewrite <- Nat.add_succ_comm. split; [exact N|exact A].
      + intros (j & t & N & A). destruct j as [|j]; [left; injection N as ->; rewrite Nat.add_0_r in A; exact A|].
        right. exists j, t. rewrite <- Nat.add_succ_comm in A. split; [exact N|exact A]. }
  rewrite G. split.
  - intros (j & t & N & A). apply rlist_in in A. destruct A as (d & s & -> & S & W). split; [destruct d; discriminate|].
    exists s. cbn [Nat.add] in *. rewrite subT_last. cbn [kidsOf]. rewrite N. split; [exact S|exact W].
  - intros (NE & s & S & W). destruct (rev q) as [|j r] eqn:R.
    + exfalso. apply NE. rewrite <- (rev_involutive q), R. reflexivity.
    + assert (D : q = rev r ++ [j]) by (rewrite <- (rev_involutive q), R; reflexivity). rewrite D, subT_last in S. cbn [kidsOf] in S.
      destruct (nth_error ts j) as [t|] eqn:N; [|discriminate]. exists j, t. split; [exact N|]. apply rlist_in.
      exists (rev r), s. split; [exact D|]. split; [exact S|exact W].
Qed.

(** ** Prolongation *)
Fixpoint newSons (p : path) (i n : nat) : list path := match n with O => [] | S n => (i :: p) :: newSons p (S i) n end.
Fixpoint plist (p : path) (t : tree) : list path :=
  match t with
  | T [] => if isRefine (m p) then newSons p 0 numKids else []
  | T ks => if allVanish m p 0 ks then [] else
            (fix go (i : nat) (ks : list tree) : list path :=
               match ks with [] => [] | t :: ks => plist (i :: p) t ++ go (S i) ks end) 0%nat ks
  end.
Fixpoint pkids (p : path) (i : nat) (ks : list tree) : list path :=
  match ks with [] => [] | t :: ks => plist (i :: p) t ++ pkids p (S i) ks end.
Lemma plist_T : forall p k ks, plist p (T (k :: ks)) = if allVanish m p 0 (k :: ks) then [] else pkids p 0 (k :: ks).
Proof.
  intros p k ks. cbn [plist]. destruct (allVanish m p 0 (k :: ks)); [reflexivity|]. cbn [pkids]. f_equal. generalize 1%nat as i.
  induction ks as [|t ks IH]; intros i; [reflexivity|]. cbn [pkids]. f_equal. apply IH.
Qed.
Fixpoint prolongSons (p : path) (i : nat) (ks : list tree) (c : container) : container :=
  match ks with [] => c | t :: ks => prolongSons p (S i) ks (prolongTree numKids m V (i :: p) t c) end.
Lemma prolongTree_T : forall p k ks c, prolongTree numKids m V p (T (k :: ks)) c =
  if allVanish m p 0 (k :: ks) then c else prolongSons p 0 (k :: ks) c.
Proof.
  intros p k ks c. cbn [prolongTree].
  assert (G : forall ks i c, (fix go (i : nat) (ks : list tree) (c : container) : container :=
     match ks with [] => c | t :: ks => go (S i) ks (prolongTree numKids m V (i :: p) t c) end) i ks c = prolongSons p i ks c).
  { induction ks0 as [|t ks0 IH]; intros i c0; [reflexivity|]. cbn [prolongSons]. apply IH. }
  rewrite G. reflexivity.
Qed.
Notation fatherOf := (fun d : path => tl d).
Lemma prolongKids_copies : forall p n i c, prolongKids V p i n c = copies fatherOf (newSons p i n) c.
Proof. intros p. induction n as [|n IH]; intros i c; [reflexivity|]. cbn [prolongKids newSons]. rewrite IH. reflexivity. Qed.
Lemma prolongTree_copies : forall t p c, prolongTree numKids m V p t c = copies fatherOf (plist p t) c.
Proof.
  apply (tree_rec' (fun t => forall p c, prolongTree numKids m V p t c = copies fatherOf (plist p t) c)).
  intros ks F p c. destruct ks as [|k ks].
  - cbn [prolongTree plist]. destruct (isRefine (m p)); [apply prolongKids_copies|reflexivity].
  - rewrite prolongTree_T, plist_T. destruct (allVanish m p 0 (k :: ks)); [reflexivity|].
    assert (G : forall l i c, Forall (fun t => forall p c, prolongTree numKids m V p t c = copies fatherOf (plist p t) c) l ->
       prolongSons p i l c = copies fatherOf (pkids p i l) c).
    { induction l as [|x l IH]; intros i c0 FF; [reflexivity|]. inversion FF as [|? ? A B]; subst. cbn [prolongSons pkids].
      rewrite copies_app, <- A. now apply IH. }
    now apply G.
Qed.
Lemma prolongForest_copies : forall ts i c, prolongForest numKids m V i ts c = copies fatherOf (pkids [] i ts) c.
Proof.
  induction ts as [|t ts IH]; intros i c; [reflexivity|]. cbn [prolongForest pkids]. rewrite copies_app, <- prolongTree_copies. apply IH.
Qed.
Lemma newSons_in : forall p n i q, In q (newSons p i n) <-> exists j, q = (i + j)%nat :: p /\ (j < n)%nat.
Proof.
  intros p. induction n as [|n IH]; intros i q; cbn [newSons In].
  - split; [intros []|]. intros (j & _ & L). lia.
  - rewrite IH. split.
    + intros [<-|(j & -> & L)]; [exists 0%nat; rewrite Nat.add_0_r; split; [reflexivity|lia]|].
      exists (S j). rewrite <- Nat.add_succ_comm. split; [reflexivity|lia].
    + intros (j & -> & L). destruct j as [|j]; [left; now rewrite Nat.add_0_r|]. right. exists j. rewrite Nat.add_succ_comm. split; [reflexivity|lia].
Qed.
(** The new elements: children of refined leaves whose father does not vanish (it cannot). *)
Lemma plist_in : forall t p q, m p <> Coarsen \/ True -> In q (plist p t) <->
  exists d i, q = i :: d ++ p /\ subT t d = Some (T []) /\ m (d ++ p) = Refine /\ (i < numKids)%nat.
Proof.
  apply (tree_rec' (fun t => forall p q, m p <> Coarsen \/ True -> In q (plist p t) <->
    exists d i, q = i :: d ++ p /\ subT t d = Some (T []) /\ m (d ++ p) = Refine /\ (i < numKids)%nat)).
  intros ks F p q _. destruct ks as [|k ks].
  - cbn [plist]. split.
    + intros H. destruct (m p) eqn:M; cbn [isRefine] in H; [|destruct H|destruct H]. apply newSons_in in H. destruct H as (j & -> & L).
      exists [], j. split; [reflexivity|]. split; [reflexivity|]. split; [exact M|exact L].
    + intros (d & i & -> & S & M & L). destruct (rev d) as [|j r] eqn:R.
      * assert (d = []) by (rewrite <- (rev_involutive d), R; reflexivity). subst d. cbn [app] in *. rewrite M. cbn [isRefine].
        apply newSons_in. exists i. split; [reflexivity|exact L].
      * exfalso. assert (D : d = rev r ++ [j]) by (rewrite <- (rev_involutive d), R; reflexivity). rewrite D, subT_last in S. destruct j; discriminate.
  - assert (G : forall l i, Forall (fun t => forall p q, m p <> Coarsen \/ True -> In q (plist p t) <->
        exists d i, q = i :: d ++ p /\ subT t d = Some (T []) /\ m (d ++ p) = Refine /\ (i < numKids)%nat) l ->
      (In q (pkids p i l) <-> exists j t d k, nth_error l j = Some t /\ q = k :: d ++ ((i + j)%nat :: p) /\ subT t d = Some (T []) /\
         m (d ++ ((i + j)%nat :: p)) = Refine /\ (k < numKids)%nat)).
    { induction l as [|x l IH]; intros i FF.
      - split; [intros []|]. intros (j & t & d & s & N & _). destruct j; discriminate.
      - inversion FF as [|? ? A B]; subst. cbn [pkids]. rewrite in_app_iff, (A (i :: p) q (or_intror I)), (IH (S i) B). split.
        + intros [(d & n & E & S & W)|(j & t & d & n & N & E & S & W)].
          * exists 0%nat, x, d, n. rewrite Nat.add_0_r. split; [reflexivity|]. split; [exact E|]. split; [exact S|exact W].
          * exists (Datatypes.S j), t, d, n. rewrite <- Nat.add_succ_comm. split; [exact N|]. split; [exact E|]. split; [exact S|exact W].
        + intros (j & t & d & n & N & E & S & W). destruct j as [|j].
          * left. injection N as ->. exists d, n. rewrite Nat.add_0_r in *. split; [exact E|]. split; [exact S|exact W].
          * right. exists j, t, d, n. rewrite <- Nat.add_succ_comm in *. split; [exact N|]. split; [exact E|]. split; [exact S|exact W]. }
    rewrite plist_T. destruct (allVanish m p 0 (k :: ks)) eqn:A.
    + split; [intros []|]. intros (d & i & -> & S & M & L). destruct (rev d) as [|j r] eqn:R.
      * assert (d = []) by (rewrite <- (rev_involutive d), R; reflexivity). subst d. discriminate.
      * assert (D : d = rev r ++ [j]) by (rewrite <- (rev_involutive d), R; reflexivity). rewrite D, subT_last in S. cbn [kidsOf] in S.
        destruct (nth_error (k :: ks) j) as [t|] eqn:N; [|discriminate]. destruct (allVanish_kid m p _ 0 j t A N) as [-> C].
        destruct (rev r) as [|x r'] eqn:R'.
        -- rewrite D in M. cbn [app Nat.add] in *. congruence.
        -- exfalso. destruct (rev (x :: r')) as [|y z] eqn:Z; [cbn [rev] in Z; destruct (rev r'); discriminate|].
           assert (Y : x :: r' = rev z ++ [y]) by (rewrite <- (rev_involutive (x :: r')), Z; reflexivity). rewrite Y, subT_last in S. destruct y; discriminate.
    + rewrite (G (k :: ks) 0%nat F). split.
      * intros (j & t & d & n & N & E & S & W). exists (d ++ [j]), n. rewrite <- app_assoc. split; [exact E|]. rewrite subT_last. cbn [kidsOf]. rewrite N.
        split; [exact S|exact W].
      * intros (d & i & E & S & M & L). destruct (rev d) as [|j r] eqn:R.
        -- assert (d = []) by (rewrite <- (rev_involutive d), R; reflexivity). subst d. discriminate.
        -- assert (D : d = rev r ++ [j]) by (rewrite <- (rev_involutive d), R; reflexivity). rewrite D, subT_last in S. cbn [kidsOf] in S.
           destruct (nth_error (k :: ks) j) as [t|] eqn:N; [|discriminate]. exists j, t, (rev r), i. rewrite D, <- app_assoc in E, M.
           split; [exact N|]. split; [exact E|]. split; [exact S|]. split; [exact M|exact L].
Qed.
Lemma pforest_in : forall ts q, In q (pkids [] 0 ts) <->
  exists i r, q = i :: r /\ r <> [] /\ subT (T ts) r = Some (T []) /\ m r = Refine /\ (i < numKids)%nat.
Proof.
  intros ts q.
  assert (G : forall l i, In q (pkids [] i l) <-> exists j t, nth_error l j = Some t /\ In q (plist [(i + j)%nat] t)).
  { induction l as [|x l IH]; intros i.
    - split; [intros []|]. intros (j & t & N & _). destruct j; discriminate.
    - cbn [pkids]. rewrite in_app_iff, IH. split.
      + intros [A|(j & t & N & A)]; [exists 0%nat, x; rewrite Nat.add_0_r; split; [reflexivity|exact A]|].
        exists (S j), t. rewrite <- Nat.add_succ_comm. split; [exact N|exact A].
      + intros (j & t & N & A). destruct j as [|j]; [left; injection N as ->; rewrite Nat.add_0_r in A; exact A|].
        right. exists j, t. rewrite <- Nat.add_succ_comm in A. split; [exact N|exact A]. }
  rewrite G. split.
  - intros (j & t & N & A). apply plist_in in A; [|right; exact I]. destruct A as (d & i & -> & S & M & L). exists i, (d ++ [j]).
    split; [reflexivity|]. split; [destruct d; discriminate|]. rewrite subT_last. cbn [kidsOf]. rewrite N. split; [exact S|]. split; [exact M|exact L].
  - intros (i & r & -> & NE & S & M & L). destruct (rev r) as [|j r'] eqn:R.
    + exfalso. apply NE. rewrite <- (rev_involutive r), R. reflexivity.
    + assert (D : r = rev r' ++ [j]) by (rewrite <- (rev_involutive r), R; reflexivity). rewrite D, subT_last in S. cbn [kidsOf] in S.
      destruct (nth_error ts j) as [t|] eqn:N; [|discriminate]. exists j, t. split; [exact N|]. apply plist_in; [right; exact I|].
      exists (rev r'), i. rewrite D in *. split; [reflexivity|]. split; [exact S|]. split; [exact M|exact L].
Qed.

(** ** Both *)
Lemma restrict_at : forall ts c q s, q <> [] -> subT (T ts) q = Some s -> vanishes s q ->
  restrictForest m V 0 ts c q = c (0%nat :: q).
Proof.
  intros ts c q s N S W. rewrite restrictForest_copies. apply (copies_in firstSon).
  - intros d D K. apply rforest_in in D, K. destruct D as (Nd & u & U & (k & ks & -> & A)). destruct K as (_ & v & K & (k' & ks' & -> & _)).
    cbn [subT] in K. rewrite U in K. cbn [kidsOf nth_error] in K. injection K as ->.
    destruct (allVanish_kid m d _ 0 0%nat _ A eq_refl) as [Y _]. discriminate.
  - apply rforest_in. split; [exact N|]. exists s. split; [exact S|exact W].
Qed.
Lemma restrict_not : forall ts c q, (q <> [] -> forall s, subT (T ts) q = Some s -> vanishes s q -> False) ->
  restrictForest m V 0 ts c q = c q.
Proof.
  intros ts c q H. rewrite restrictForest_copies. apply copies_out. intros K. apply rforest_in in K. destruct K as (N & s & S & W). now apply (H N s).
Qed.
Lemma prolong_at : forall ts c i q, q <> [] -> subT (T ts) q = Some (T []) -> m q = Refine -> (i < numKids)%nat ->
  prolongForest numKids m V 0 ts c (i :: q) = c q.
Proof.
  intros ts c i q N S M L. rewrite prolongForest_copies.
  rewrite (copies_in fatherOf).
  - reflexivity.
  - intros d D K. apply pforest_in in D, K. destruct D as (j & r & -> & Nr & Sr & _). destruct K as (j' & r' & K & _ & Sr' & _). cbn [tl] in K. subst r.
    cbn [subT] in Sr. rewrite Sr' in Sr. destruct j'; discriminate.
  - apply pforest_in. exists i, q. split; [reflexivity|]. split; [exact N|]. split; [exact S|]. split; [exact M|exact L].
Qed.
Lemma prolong_not : forall ts c q, (forall i r, q = i :: r -> r <> [] -> subT (T ts) r = Some (T []) -> m r = Refine -> False) ->
  prolongForest numKids m V 0 ts c q = c q.
Proof.
  intros ts c q H. rewrite prolongForest_copies. apply copies_out. intros K. apply pforest_in in K. destruct K as (i & r & E & N & S & M & _). now apply (H i r).
Qed.

Theorem data_unchanged : forall ts c p, p <> [] -> subT (T ts) p = Some (T []) -> adaptData numKids m V ts c p = c p.
Proof.
  intros ts c p N S. unfold adaptData. rewrite prolong_not.
  - apply restrict_not. intros _ s S' (k & ks & -> & _). congruence.
  - intros i r -> _ R _. cbn [subT] in S. rewrite R in S. destruct i; discriminate.
Qed.
Theorem data_refined : forall ts c p i, p <> [] -> subT (T ts) p = Some (T []) -> m p = Refine -> (i < numKids)%nat ->
  adaptData numKids m V ts c (i :: p) = c p.
Proof.
  intros ts c p i N S M L. unfold adaptData. rewrite (prolong_at ts _ i p N S M L). apply restrict_not. intros _ s S' (k & ks & -> & _). congruence.
Qed.
Theorem data_coarsened : forall ts c p k ks, p <> [] -> subT (T ts) p = Some (T (k :: ks)) -> allVanish m p 0 (k :: ks) = true ->
  adaptData numKids m V ts c p = c (0%nat :: p).
Proof.
  intros ts c p k ks N S A. unfold adaptData. rewrite prolong_not.
  - apply (restrict_at ts c p (T (k :: ks)) N S). exists k, ks. split; [reflexivity|exact A].
  - intros i r -> _ R _. cbn [subT] in S. rewrite R in S. destruct i; discriminate.
Qed.
End D.
