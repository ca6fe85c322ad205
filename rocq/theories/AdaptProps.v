(** * C98-C100: adaptation of the grid *)
From Coq Require Import QArith List Arith Bool Lia Lqa.
From Verif Require Import AdaptModel AdaptSpec AdaptProofs AdaptData AdaptTree.
Import ListNotations.
Open Scope Q_scope.

(** ** C98: which elements are marked *)
Lemma phase_exact : forall lev l hi lo, sane l -> largest l hi -> smallest l lo ->
  (markPhase lev l = Refine <-> asksRefine lev hi lo) /\ (markPhase lev l = Coarsen <-> asksCoarsen lev hi lo).
Proof.
  intros lev l hi lo S A B. pose proof (indicator_variation l hi lo S A B) as E. unfold markPhase, asksCoarsen, asksRefine.
  destruct (Qlt_bool (2 # 10) (indicator l)) eqn:C1; destruct (Nat.ltb_spec lev 2) as [L|L]; cbn [andb];
    destruct (Qlt_bool (indicator l) (25 # 1000)) eqn:C2; try rewrite Qlt_bool_iff in C1; try rewrite Qlt_bool_iff in C2;
    rewrite ?E in C1; rewrite ?E in C2;
    try (assert (D1 : ~ 2 # 10 < variation hi lo) by (rewrite <- E, <- Qlt_bool_iff, C1; discriminate));
    try (assert (D2 : ~ variation hi lo < 25 # 1000) by (rewrite <- E, <- Qlt_bool_iff, C2; discriminate));
    (split; (split; [intros K; first [discriminate K|idtac]|intros K]));
    try reflexivity; try tauto; try (exfalso; lra); try (exfalso; destruct K as [K1 K2]; first [lia|tauto|lra]).
  all: try (split; [intros [_ Y]; lia|exact C2]).
  all: try (split; [intros [Y _]; tauto|exact C2]).
Qed.
(** The mark of an element is what its last phase asks for: refinement if the saturation varies by more than a fifth of
    its mean and the level is below two, coarsening if it varies by less than a fortieth. *)
Theorem C98_mark_exact : forall es i e before l hi lo, nth_error es i = Some e -> e_sats e = before ++ [l] ->
  sane l -> largest l hi -> smallest l lo -> exists x, nth_error (fst (markElements es)) i = Some x /\
  (x = Refine <-> asksRefine (e_level e) hi lo) /\ (x = Coarsen <-> asksCoarsen (e_level e) hi lo).
Proof.
  intros es i e before l hi lo N E S A B. exists (markPhase (e_level e) l). split; [|now apply phase_exact].
  rewrite markElements_eq. cbn [fst]. rewrite nth_error_map, N. cbn [option_map]. f_equal. unfold lastMark. rewrite E, map_app. cbn [map].
  now rewrite last_last.
Qed.
Print Assumptions C98_mark_exact.
(** If the other phase fills the rest and the last phase is the scarcer one, no wish for refinement is lost. *)
Theorem C98_refined_partial : forall es i e l hi lo, nth_error es i = Some e -> e_sats e = [map (fun x => 1 - x) l; l] ->
  sane l -> largest l hi -> smallest l lo -> hi + lo <= 1 ->
  asksRefine (e_level e) hi lo \/ asksRefine (e_level e) (1 - lo) (1 - hi) -> nth_error (fst (markElements es)) i = Some Refine.
Proof.
  intros es i e l hi lo N E S A B L H.
  destruct (C98_mark_exact es i e [map (fun x => 1 - x) l] l hi lo N E S A B) as (x & X & R & _). rewrite X. f_equal. apply R.
  destruct H as [H|[H Lv]]; [exact H|]. split; [|exact Lv]. eapply Qlt_le_trans; [exact H|]. unfold variation.
  assert (D : lo <= hi) by (destruct A as [(y & Y & <-) _]; now apply B).
  destruct (Qle_bool (1 - lo + (1 - hi)) (1 # 100)) eqn:C1; [apply Qle_bool_iff in C1; lra|].
  set (u := if Qle_bool (hi + lo) (1 # 100) then 1 # 100 else hi + lo).
  assert (U : 0 < u /\ u <= 1).
  { unfold u. destruct (Qle_bool (hi + lo) (1 # 100)) eqn:C2; [split; [reflexivity|discriminate]|]. apply Qle_bool_f in C2. lra. }
  clearbody u. apply Qle_shift_div_l; [apply Qlt_shift_div_l; lra|].
  setoid_replace ((1 - lo - (1 - hi)) / ((1 - lo + (1 - hi)) / 2) * (u / 2)) with ((hi - lo) * (u / (2 - (hi + lo)))) by (field; lra).
  setoid_replace (hi - lo) with ((hi - lo) * 1) at 2 by ring. rewrite !(Qmult_comm (hi - lo)). apply Qmult_le_compat_r; [|lra].
  apply Qle_shift_div_r; lra.
Qed.
Print Assumptions C98_refined_partial.
(** In general it is lost: the first phase asks for refinement, and the element is coarsened. *)
Theorem C98_every_phase_refuted : exists e l1 l2 hi lo, e_sats e = [l1; l2] /\ (forall k, nth k l2 0 == 1 - nth k l1 1) /\
  sane l1 /\ largest l1 hi /\ smallest l1 lo /\ asksRefine (e_level e) hi lo /\ fst (markElements [e]) = [Coarsen].
Proof.
  exists (mkElem 0 [[0; 1 # 100]; [1; 99 # 100]]), [0; 1 # 100], [1; 99 # 100], (1 # 100), 0.
  split; [reflexivity|]. split.
  { intros [|[|[|k]]]; reflexivity. }
  split. { split; [discriminate|]. intros x [<-|[<-|[]]]; split; discriminate. }
  split. { split; [exists (1 # 100); split; [right; left; reflexivity|reflexivity]|]. intros x [<-|[<-|[]]]; discriminate. }
  split. { split; [exists 0; split; [left; reflexivity|reflexivity]|]. intros x [<-|[<-|[]]]; discriminate. }
  split; [split; [reflexivity|cbn; lia]|]. vm_compute. reflexivity.
Qed.
Print Assumptions C98_every_phase_refuted.
(** What all processes get to know is at least the number of marked elements and at most the phases of all elements; it is
    that number if there is one phase. *)
Theorem C98_number_partial : forall ps k, (forall e, In e (concat ps) -> length (e_sats e) = k) ->
  (list_sum (map (fun es => marked (fst (markElements es))) ps) <= markForGridAdaptation ps <= k * length (concat ps))%nat /\
  (k = 1%nat -> markForGridAdaptation ps = list_sum (map (fun es => marked (fst (markElements es))) ps)).
Proof.
  intros ps k H. rewrite markForGridAdaptation_eq.
  assert (E : list_sum (map (fun es => marked (fst (markElements es))) ps) = list_sum (map (fun e => counts (lastMark e)) (concat ps))).
  { clear H. induction ps as [|es ps IH]; [reflexivity|]. cbn [map concat]. rewrite map_app, list_sum_app, <- IH.
    change (list_sum (?x :: ?l)) with (x + list_sum l)%nat. f_equal. rewrite markElements_eq. cbn [fst]. unfold marked.
    induction es as [|e es IHe]; [reflexivity|]. cbn [map filter]. change (list_sum (?x :: ?l)) with (x + list_sum l)%nat.
    destruct (lastMark e); cbn [length counts]; lia. }
  rewrite E. clear E. induction (concat ps) as [|e es IH].
  - cbn. split; [lia|]. reflexivity.
  - destruct IH as [I1 I2]; [intros x X; apply H; right; exact X|]. cbn [map length].
    change (list_sum (?x :: ?l)) with (x + list_sum l)%nat.
    assert (A : (counts (lastMark e) <= phaseCount e)%nat).
    { destruct (phaseCount e) eqn:P; [rewrite (phaseCount_zero e P); cbn; lia|]. destruct (lastMark e); cbn [counts]; lia. }
    pose proof (phaseCount_le e) as B. rewrite (H e (or_introl eq_refl)) in B. split; [rewrite Nat.mul_succ_r; lia|].
    intros ->. specialize (I2 eq_refl). rewrite I2. f_equal. unfold phaseCount, lastMark. pose proof (H e (or_introl eq_refl)) as C.
    destruct (e_sats e) as [|l [|l' ls]]; try discriminate. cbn. lia.
Qed.
Print Assumptions C98_number_partial.
(** An adaptation is started although no element is marked; and one element counts twice. *)
Theorem C98_number_refuted : exists e e', fst (markElements [e]) = [Keep] /\ markForGridAdaptation [[e]] = 1%nat /\
  markForGridAdaptation [[e']] = 2%nat.
Proof.
  exists (mkElem 0 [[1 # 10; 15 # 100]; [9 # 10; 85 # 100]]), (mkElem 0 [[1 # 10; 1 # 10]; [9 # 10; 9 # 10]]).
  split; [|split]; vm_compute; reflexivity.
Qed.
Print Assumptions C98_number_refuted.

(** ** C99: the data of the elements *)
Lemma leaf_sub : forall ts p, leaf ts p <-> p <> [] /\ subT (T ts) p = Some (T []).
Proof.
  intros ts p. unfold leaf. split.
  - intros H. assert (N : p <> []) by (intros ->; discriminate). rewrite (treeAt_subT ts p N) in H. split; [exact N|exact H].
  - intros [N H]. now rewrite (treeAt_subT ts p N).
Qed.
Lemma inner_sub : forall ts p, inner ts p <-> p <> [] /\ exists k ks, subT (T ts) p = Some (T (k :: ks)).
Proof.
  intros ts p. unfold inner. split.
  - intros (k & ks & H). assert (N : p <> []) by (intros ->; discriminate). rewrite (treeAt_subT ts p N) in H. split; [exact N|]. exists k, ks. exact H.
  - intros [N (k & ks & H)]. exists k, ks. now rewrite (treeAt_subT ts p N).
Qed.
(** A leaf of the new grid is a leaf of the old grid with its value, or a child of a refined leaf with the value of that
    leaf, or an element all children of which were removed, with the value of the first of them. *)
Theorem C99_values : forall numKids m (V : Type) ts (c : container V) p, (0 < numKids)%nat ->
  leaf (adaptForest numKids m 0 ts) p ->
  (leaf ts p /\ m p <> Refine /\ adaptData numKids m V ts c p = c p) \/
  (exists i q, p = i :: q /\ leaf ts q /\ m q = Refine /\ adaptData numKids m V ts c p = c q) \/
  (inner ts p /\ leaf ts (0%nat :: p) /\ (forall j s, treeAt ts (j :: p) = Some s -> leaf ts (j :: p) /\ m (j :: p) = Coarsen) /\
   adaptData numKids m V ts c p = c (0%nat :: p)).
Proof.
  intros numKids m V ts c p pos H. apply leaf_sub in H. destruct H as [N H].
  destruct (adapt_inv numKids m ts p (T []) N H) as [(s & S & E)|(i & q & -> & Nq & S & M & L & _)].
  - destruct s as [[|k ks]].
    + rewrite adaptTree_nil in E. left. split; [apply leaf_sub; split; [exact N|exact S]|]. split.
      * intros M. rewrite M in E. cbn [isRefine] in E. destruct numKids; [lia|discriminate].
      * now apply data_unchanged.
    + rewrite adaptTree_T in E. destruct (allVanish m p 0 (k :: ks)) eqn:A; [|cbn [adaptKids] in E; discriminate]. right. right.
      split; [apply inner_sub; split; [exact N|]; exists k, ks; exact S|]. split.
      * apply leaf_sub. split; [discriminate|]. cbn [subT]. rewrite S. cbn [kidsOf nth_error]. f_equal.
        now destruct (allVanish_kid m p _ 0 0%nat k A eq_refl).
      * split.
        -- intros j s J. rewrite treeAt_subT in J by discriminate. cbn [subT] in J. rewrite S in J. cbn [kidsOf] in J.
           destruct (allVanish_kid m p _ 0 j s A J) as [-> C]. split; [|exact C]. apply leaf_sub. split; [discriminate|]. cbn [subT]. rewrite S. exact J.
        -- now apply (data_coarsened numKids m pos V ts c p k ks).
  - right. left. exists i, q. split; [reflexivity|]. split; [apply leaf_sub; split; [exact Nq|exact S]|]. split; [exact M|].
    now apply data_refined.
Qed.
Print Assumptions C99_values.
(** No value is invented: bounds of the data stay valid. *)
Theorem C99_only_old_values : forall numKids m (V : Type) ts (c : container V) p, (0 < numKids)%nat ->
  leaf (adaptForest numKids m 0 ts) p -> exists q, leaf ts q /\ adaptData numKids m V ts c p = c q.
Proof.
  intros numKids m V ts c p pos H. destruct (C99_values numKids m V ts c p pos H) as [(A & _ & B)|[(i & q & _ & A & _ & B)|(_ & A & _ & B)]].
  - exists p. split; [exact A|exact B].
  - exists q. split; [exact A|exact B].
  - exists (0%nat :: p). split; [exact A|exact B].
Qed.
Print Assumptions C99_only_old_values.
(** Refined leaves are replaced by all their children, other leaves stay or are removed with all their siblings. *)
Theorem C99_leaves : forall numKids m ts p, (0 < numKids)%nat -> leaf ts p ->
  (m p = Refine -> forall i, leaf (adaptForest numKids m 0 ts) (i :: p) <-> (i < numKids)%nat) /\
  (m p = Keep -> leaf (adaptForest numKids m 0 ts) p) /\
  (m p = Coarsen -> leaf (adaptForest numKids m 0 ts) p \/ exists i q, p = i :: q /\ leaf (adaptForest numKids m 0 ts) q).
Proof.
  intros numKids m ts p pos H. apply leaf_sub in H. destruct H as [N H].
  assert (K : m p <> Coarsen -> subT (T (adaptForest numKids m 0 ts)) p = Some (adaptTree numKids m p (T []))).
  { intros C. apply adapt_keeps; [exact N|exact H|]. intros i q ks -> Nq S. destruct (allVanish m q 0 ks) eqn:A; [|reflexivity]. exfalso.
    cbn [subT] in H. rewrite S in H. cbn [kidsOf] in H. destruct (allVanish_kid m q ks 0 i _ A H) as [_ M]. cbn [Nat.add] in M. contradiction. }
  split; [|split].
  - intros M i. specialize (K ltac:(congruence)). rewrite adaptTree_nil, M in K. cbn [isRefine] in K. rewrite leaf_sub.
    cbn [subT]. rewrite K. cbn [kidsOf]. split.
    + intros [_ J]. now apply repeat_kid in J.
    + intros L. split; [discriminate|]. destruct (nth_error (repeat (T []) numKids) i) as [t|] eqn:J.
      * f_equal. now apply repeat_kid in J.
      * apply nth_error_None in J. rewrite repeat_length in J. lia.
  - intros M. specialize (K ltac:(congruence)). rewrite adaptTree_nil, M in K. apply leaf_sub. split; [exact N|exact K].
  - intros M. destruct p as [|i q]; [contradiction|]. destruct q as [|j q].
    + left. apply leaf_sub. split; [exact N|].
      rewrite (adapt_keeps numKids m ts [i] (T []) N H); [rewrite adaptTree_nil, M; reflexivity|]. intros i' q' ks Q Nq. injection Q as <- <-. contradiction.
    + pose proof H as H'. cbn [subT] in H'. destruct (subT (T ts) (j :: q)) as [s|] eqn:S; [|cbn [subT] in S; rewrite S in H'; discriminate].
      cbn [subT] in S. rewrite S in H'. destruct s as [ks]. cbn [kidsOf] in H'. destruct (allVanish m (j :: q) 0 ks) eqn:A.
      * right. exists i, (j :: q). split; [reflexivity|]. apply leaf_sub. split; [discriminate|]. destruct ks as [|k ks]; [destruct i; discriminate|].
        rewrite (adapt_keeps numKids m ts (j :: q) (T (k :: ks)) ltac:(discriminate) S); [rewrite adaptTree_T, A; reflexivity|].
        intros i' q' ks' Q Nq S'. injection Q as <- <-. destruct (allVanish m q 0 ks') eqn:A'; [|reflexivity]. exfalso.
        rewrite S' in S. cbn [kidsOf] in S. destruct (allVanish_kid m q ks' 0 j _ A' S) as [Y _]. discriminate.
      * left. apply leaf_sub. split; [discriminate|]. rewrite (adapt_keeps numKids m ts (i :: j :: q) (T []) ltac:(discriminate) H); [rewrite adaptTree_nil, M; reflexivity|].
        intros i' q' ks' Q Nq S'. injection Q as <- <-. cbn [subT] in S'. rewrite S in S'. congruence.
Qed.
Print Assumptions C99_leaves.
(** Refinement keeps every integral of the data over the grid; coarsening does if the removed siblings hold the same value. *)
Theorem C99_integrals_partial : forall numKids m ts (c : container Q) vol, (0 < numKids)%nat -> additive numKids vol ->
  (forall t, In t ts -> regular numKids t) ->
  (forall p i j, leaf ts (i :: p) -> m (i :: p) = Coarsen -> leaf ts (j :: p) -> m (j :: p) = Coarsen -> c (i :: p) == c (j :: p)) ->
  overLeaves (fun p => vol p * adaptData numKids m Q ts c p) (adaptForest numKids m 0 ts) == overLeaves (fun p => vol p * c p) ts.
Proof.
  intros numKids m ts c vol pos add R EQ. unfold overLeaves. rewrite !sumFrom_kids, adaptForest_kids.
  assert (U : forall p, p <> [] -> subT (T ts) p = Some (T []) -> adaptData numKids m Q ts c p == c p)
    by (intros p N S; now rewrite data_unchanged).
  assert (W : forall p i, p <> [] -> subT (T ts) p = Some (T []) -> m p = Refine -> (i < numKids)%nat -> adaptData numKids m Q ts c (i :: p) == c p)
    by (intros p i N S M L; now rewrite data_refined).
  assert (X : forall p k ks, p <> [] -> subT (T ts) p = Some (T (k :: ks)) -> allVanish m p 0 (k :: ks) = true ->
     adaptData numKids m Q ts c p == c (0%nat :: p) /\ forall j, (j < length (k :: ks))%nat -> c (j :: p) == c (0%nat :: p)).
  { intros p k ks N S A. split; [now rewrite (data_coarsened numKids m pos Q ts c p k ks)|]. intros j J.
    assert (K : forall i, (i < length (k :: ks))%nat -> leaf ts (i :: p) /\ m (i :: p) = Coarsen).
    { intros i I. destruct (nth_error (k :: ks) i) as [s|] eqn:E; [|apply nth_error_None in E; lia].
      destruct (allVanish_kid m p _ 0 i s A E) as [-> C]. split; [|exact C]. apply leaf_sub. split; [discriminate|]. cbn [subT]. rewrite S. exact E. }
    destruct (K j J) as [L1 C1]. destruct (K 0%nat ltac:(cbn; lia)) as [L2 C2]. now apply EQ. }
  generalize dependent (adaptData numKids m Q ts c). intros c' U W X.
  assert (G : forall l i, (forall j t, nth_error l j = Some t -> nth_error ts (i + j) = Some t) ->
    sumKids (fun p => vol p * c' p) [] i (adaptKids numKids m [] i l) == sumKids (fun p => vol p * c p) [] i l).
  { induction l as [|t l IH]; intros i H; [reflexivity|]. cbn [adaptKids sumKids]. rewrite (IH (S i)).
    - pose proof (H 0%nat t eq_refl) as T0. rewrite Nat.add_0_r in T0.
      rewrite (transfer_sum numKids pos vol add m c c' t [i]); [reflexivity| | | |].
      + apply R. now apply nth_error_In in T0.
      + intros d S. apply U; [destruct d; discriminate|]. rewrite subT_last. cbn [kidsOf]. now rewrite T0.
      + intros d n S. apply W; [destruct d; discriminate|]. rewrite subT_last. cbn [kidsOf]. now rewrite T0.
      + intros d k ks S. apply X; [destruct d; discriminate|]. rewrite subT_last. cbn [kidsOf]. now rewrite T0.
    - intros j s J. specialize (H (S j) s J). now rewrite <- Nat.add_succ_comm in H. }
  apply G. intros j t J. exact J.
Qed.
Print Assumptions C99_integrals_partial.
(** Otherwise it does not: the value of the first child is taken, whatever the others are. *)
Theorem C99_coarsening_refuted : exists numKids m ts (c : container Q) vol, (0 < numKids)%nat /\ additive numKids vol /\
  (forall t, In t ts -> regular numKids t) /\
  ~ overLeaves (fun p => vol p * adaptData numKids m Q ts c p) (adaptForest numKids m 0 ts) == overLeaves (fun p => vol p * c p) ts.
Proof.
  exists 2%nat, (fun _ => Coarsen), [T [T []; T []]], (fun p => match p with 0%nat :: _ => 1 | _ => 0 end), (fun p => fold_right (fun _ x => (1 # 2) * x) 1 p).
  split; [lia|]. split.
  - intros p. cbn [volumesOf fold_right]. ring.
  - split; [intros t [<-|[]]; apply regNode; [reflexivity|]; repeat constructor|]. vm_compute. discriminate.
Qed.
Print Assumptions C99_coarsening_refuted.
(** Refining some elements and coarsening the new ones again restores the grid and all data. *)
Theorem C99_refine_then_coarsen : forall numKids m m' (V : Type) ts (c : container V), (0 < numKids)%nat -> (forall p, m p <> Coarsen) ->
  (forall p t, treeAt ts p = Some t -> m' p = Keep) -> (forall p i, leaf ts p -> m p = Refine -> m' (i :: p) = Coarsen) ->
  let ts' := adaptForest numKids m 0 ts in
  adaptForest numKids m' 0 ts' = ts /\
  forall p, leaf ts p -> adaptData numKids m' V ts' (adaptData numKids m V ts c) p = c p.
Proof.
  intros numKids m m' V ts c pos NC H1 H2 ts'.
  assert (E : adaptForest numKids m' 0 ts' = ts).
  { unfold ts'. rewrite !adaptForest_kids.
    assert (G : forall l i, (forall j t, nth_error l j = Some t -> nth_error ts (i + j) = Some t) ->
       adaptKids numKids m' [] i (adaptKids numKids m [] i l) = l).
    { induction l as [|t l IH]; intros i H; [reflexivity|]. cbn [adaptKids]. pose proof (H 0%nat t eq_refl) as T0. rewrite Nat.add_0_r in T0. f_equal.
      - apply (undo numKids pos m m' t [i] NC).
        + intros d s S. apply (H1 _ s). rewrite treeAt_subT by (destruct d; discriminate). rewrite subT_last. cbn [kidsOf]. now rewrite T0.
        + intros d n S M. apply H2; [|exact M]. apply leaf_sub. split; [destruct d; discriminate|]. rewrite subT_last. cbn [kidsOf]. now rewrite T0.
      - apply IH. intros j s J. specialize (H (S j) s J). now rewrite <- Nat.add_succ_comm in H. }
    apply G. intros j t J. exact J. }
  split; [exact E|]. intros p L. pose proof L as L0. apply leaf_sub in L. destruct L as [N S].
  assert (L' : leaf (adaptForest numKids m' 0 ts') p) by now rewrite E.
  destruct (C99_values numKids m' V ts' (adaptData numKids m V ts c) p pos L') as [(A & _ & B)|[(i & q & -> & A & M & B)|(A & A0 & _ & B)]]; rewrite B.
  - now apply data_unchanged.
  - (* the father of an old leaf is no leaf *)
    exfalso. apply leaf_sub in A. destruct A as [Nq A]. cbn [subT] in S. destruct (subT (T ts) q) as [[ks]|] eqn:Sq; [|discriminate]. cbn [kidsOf] in S.
    rewrite (H1 q (T ks)) in M by (now rewrite treeAt_subT). discriminate.
  - apply leaf_sub in A0. destruct A0 as [_ A0]. unfold ts' in A0.
    destruct (adapt_inv numKids m ts (0%nat :: p) (T []) ltac:(discriminate) A0) as [(s & X & _)|(i & q & Q & Nq & Sq & M & Li & _)].
    + cbn [subT] in X. rewrite S in X. discriminate.
    + injection Q as <- <-. now apply data_refined.
Qed.
Print Assumptions C99_refine_then_coarsen.

(** ** C100: runs *)
(** No element gets finer than the initial grid and level two. *)
Theorem C100_levels : forall numKids calls ts bound p t, (2 <= bound)%nat ->
  (forall q s, treeAt ts q = Some s -> (length q - 1 <= bound)%nat) -> treeAt (adaptRun numKids calls ts) p = Some t -> (length p - 1 <= bound)%nat.
Proof.
  intros numKids calls. induction calls as [|a calls IH]; intros ts bound p t B H K; [now apply (H p t)|].
  unfold adaptRun in K. cbn [fold_left] in K. apply (IH (adaptGrid numKids a ts) bound p t B); [|exact K].
  intros q s S. unfold adaptGrid in S. destruct (markForGridAdaptation [elemsOf a]) eqn:Z; [now apply (H q s)|].
  assert (N : q <> []) by (intros ->; discriminate). rewrite (treeAt_subT _ q N) in S.
  destruct (adapt_inv numKids (marksOf a) ts q s N S) as [(r & R & _)|(i & r & -> & Nr & R & M & _)].
  - apply (H q r). now rewrite treeAt_subT.
  - assert (D : marksOf a r <> Keep) by congruence. destruct (marksOf_elem a r D) as [_ E]. rewrite M in E. symmetry in E.
    apply lastMark_refine in E. cbn [e_level] in E. unfold level in *. cbn [length]. destruct r; [contradiction|]. cbn [length] in *. lia.
Qed.
Print Assumptions C100_levels.
(** The elements of level zero stay; the volume of the leaves stays that of the domain. *)
Theorem C100_domain : forall numKids calls ts vol, (0 < numKids)%nat -> additive numKids vol ->
  (forall t, In t ts -> regular numKids t) ->
  length (adaptRun numKids calls ts) = length ts /\ overLeaves vol (adaptRun numKids calls ts) == overLeaves vol ts.
Proof.
  intros numKids calls ts vol pos add. revert ts. induction calls as [|a calls IH]; intros ts R; [split; reflexivity|].
  unfold adaptRun in *. cbn [fold_left].
  assert (G : (forall t, In t (adaptGrid numKids a ts) -> regular numKids t) /\ length (adaptGrid numKids a ts) = length ts /\
      overLeaves vol (adaptGrid numKids a ts) == overLeaves vol ts).
  { unfold adaptGrid. destruct (markForGridAdaptation [elemsOf a]); [split; [exact R|split; reflexivity]|].
    unfold overLeaves. rewrite !sumFrom_kids, adaptForest_kids, adaptKids_length. clear IH. generalize 0%nat as i. revert R. induction ts as [|t ts IHt]; intros R i.
    - cbn. split; [intros t []|split; reflexivity].
    - destruct (IHt (fun x X => R x (or_intror X)) (S i)) as (A & _ & C). cbn [adaptKids sumKids length]. split; [|split; [reflexivity|]].
      + intros x [<-|X]; [|now apply A]. apply (adapt_regular numKids pos vol add). apply R. left. reflexivity.
      + rewrite C, (adapt_volume numKids pos vol add); [reflexivity|]. apply R. left. reflexivity. }
  destruct G as (A & B & C). destruct (IH _ A) as [D E]. split; [congruence|]. now rewrite E.
Qed.
Print Assumptions C100_domain.
(** If no process marks anything, adapting would not change the grid: nothing is missed by not doing it. *)
Theorem C100_unmarked : forall numKids a ts, markForGridAdaptation [elemsOf a] = 0%nat ->
  adaptForest numKids (marksOf a) 0 ts = ts /\ adaptGrid numKids a ts = ts.
Proof.
  intros numKids a ts H. split; [|unfold adaptGrid; now rewrite H]. rewrite adaptForest_kids. generalize 0%nat as i.
  induction ts as [|t ts IH]; intros i; [reflexivity|]. cbn [adaptKids]. rewrite IH, keep_id; [reflexivity|]. now apply no_marks.
Qed.
Print Assumptions C100_unmarked.
(** The calls do adapt: a leaf is refined exactly if it was marked so, an element is coarsened exactly if all its children
    are leaves marked so. *)
Theorem C100_adapts : forall numKids calls a ts0 p, (0 < numKids)%nat ->
  let ts := adaptRun numKids calls ts0 in let ts' := adaptRun numKids (calls ++ [a]) ts0 in
  (forall q, In q (c_order a) <-> leaf ts q) ->
  (leaf ts p -> inner ts' p <-> last (map (markPhase (length p - 1)) (c_sats a p)) Keep = Refine) /\
  (inner ts p -> leaf ts' p <->
     forall j s, treeAt ts (j :: p) = Some s -> leaf ts (j :: p) /\ last (map (markPhase (length p)) (c_sats a (j :: p))) Keep = Coarsen).
Proof.
  intros numKids calls a ts0 p pos ts ts' O.
  assert (E0 : ts' = adaptGrid numKids a ts) by (unfold ts', ts, adaptRun; now rewrite fold_left_app).
  rewrite E0. clear E0 ts'. clearbody ts. clear calls ts0.
  assert (E : adaptGrid numKids a ts = adaptForest numKids (marksOf a) 0 ts).
  { destruct (markForGridAdaptation [elemsOf a]) eqn:Z.
    - destruct (C100_unmarked numKids a ts Z) as [A B]. congruence.
    - unfold adaptGrid. now rewrite Z. }
  rewrite E. set (m := marksOf a).
  assert (M : forall q, leaf ts q -> m q = last (map (markPhase (length q - 1)) (c_sats a q)) Keep).
  { intros q Q. unfold m. rewrite marksOf_in by (now apply O). reflexivity. }
  split.
  - intros L. rewrite <- (M p L). split.
    + intros I. destruct (C99_leaves numKids m ts p pos L) as (_ & K & C). destruct (m p) eqn:Mp; [reflexivity| |]; exfalso.
      * specialize (K eq_refl). apply leaf_sub in K. apply inner_sub in I. destruct I as (_ & k & ks & I), K as (_ & K). congruence.
      * apply inner_sub in I. destruct I as (N & k & ks & I). apply leaf_sub in L. destruct L as [_ L].
        destruct (adapt_inv numKids m ts p _ N I) as [(s & S & X)|(i & q & -> & Nq & Sq & _)].
        -- rewrite L in S. injection S as <-. rewrite adaptTree_nil, Mp in X. discriminate.
        -- cbn [subT] in L. rewrite Sq in L. destruct i; discriminate.
    + intros Mp. destruct (C99_leaves numKids m ts p pos L) as (R & _). specialize (R Mp 0%nat). apply proj2 in R. specialize (R pos).
      apply leaf_sub in R. destruct R as [_ R]. cbn [subT] in R. apply inner_sub. apply leaf_sub in L. destruct L as [N _]. split; [exact N|].
      destruct (subT (T (adaptForest numKids m 0 ts)) p) as [[[|k ks]]|]; [discriminate| |discriminate]. exists k, ks. reflexivity.
  - intros I. split.
    + intros L j s J. destruct (C99_values numKids m nat ts (fun _ => 0%nat) p pos L) as [(A & _)|[(i & q & -> & A & _)|(_ & _ & A & _)]].
      * exfalso. apply leaf_sub in A. apply inner_sub in I. destruct A as [_ A], I as (_ & k & ks & I). congruence.
      * exfalso. apply leaf_sub in A. apply inner_sub in I. destruct A as [_ A], I as (_ & k & ks & I). cbn [subT] in I. rewrite A in I. destruct i; discriminate.
      * destruct (A j s J) as [B C]. split; [exact B|]. rewrite <- C, (M _ B). cbn [length]. now rewrite Nat.sub_succ, Nat.sub_0_r.
    + intros H. apply inner_sub in I. destruct I as (N & k & ks & I).
      assert (A : allVanish m p 0 (k :: ks) = true).
      { assert (G : forall l i, (forall j s, nth_error l j = Some s -> s = T [] /\ m ((i + j)%nat :: p) = Coarsen) -> allVanish m p i l = true).
        { induction l as [|x l IH]; intros i K; [reflexivity|]. cbn [allVanish]. destruct (K 0%nat x eq_refl) as [-> C]. rewrite Nat.add_0_r in C.
          unfold mightVanish. rewrite C. cbn [isLeafTree kidsOf isCoarsen andb]. apply IH. intros j s J. specialize (K (S j) s J). now rewrite <- Nat.add_succ_comm in K. }
        apply G. intros j s J. assert (TA : treeAt ts (j :: p) = Some s) by (rewrite treeAt_subT by discriminate; cbn [subT]; rewrite I; exact J).
        destruct (H j s TA) as [L C]. cbn [Nat.add]. rewrite (M _ L). cbn [length]. rewrite Nat.sub_succ, Nat.sub_0_r. split; [|exact C]. unfold leaf in L. congruence. }
      apply leaf_sub. split; [exact N|]. rewrite (adapt_keeps numKids m ts p (T (k :: ks)) N I); [rewrite adaptTree_T, A; reflexivity|].
      intros i q ks' -> Nq S. destruct (allVanish m q 0 ks') eqn:A'; [|reflexivity]. exfalso.
      cbn [subT] in I. rewrite S in I. cbn [kidsOf] in I. destruct (allVanish_kid m q ks' 0 i _ A' I) as [Y _]. discriminate.
Qed.
Print Assumptions C100_adapts.

(** ** Examples *)
(** A front in the first of two cells: it is refined, and coarsened when the front has gone. *)
Definition front : call := mkCall [[0%nat]; [1%nat]]
  (fun p => match p with [0%nat] => [[9 # 10; 1 # 10]; [1 # 10; 9 # 10]] | _ => [[5 # 10; 51 # 100]; [5 # 10; 49 # 100]] end).
Definition gone : call := mkCall [[0%nat; 0%nat]; [1%nat; 0%nat]; [1%nat]] (fun _ => [[5 # 10; 5 # 10]; [5 # 10; 5 # 10]]).
Example run_front : adaptRun 2 [front] [T []; T []] = [T [T []; T []]; T []].
Proof. vm_compute. reflexivity. Qed.
Example run_gone : adaptRun 2 [front; gone] [T []; T []] = [T []; T []].
Proof. vm_compute. reflexivity. Qed.
Example front_order : forall q, In q (c_order front) <-> leaf [T []; T []] q.
Proof.
  intros q. cbn [c_order front In]. rewrite leaf_sub. split.
  - intros [<-|[<-|[]]]; split; try discriminate; reflexivity.
  - intros [N H]. destruct (rev q) as [|j r] eqn:R.
    + exfalso. apply N. rewrite <- (rev_involutive q), R. reflexivity.
    + assert (D : q = rev r ++ [j]) by (rewrite <- (rev_involutive q), R; reflexivity). rewrite D, subT_last in H. cbn [kidsOf] in H.
      destruct j as [|[|j]]; cbn [nth_error] in H.
      * apply subT_nil in H. destruct H as [H _]. rewrite D, H. left. reflexivity.
      * apply subT_nil in H. destruct H as [H _]. rewrite D, H. right. left. reflexivity.
      * destruct j; discriminate.
Qed.
Example front_regular : forall t, In t [T []; T []] -> regular 2 t.
Proof. intros t [<-|[<-|[]]]; constructor. Qed.
Example front_levels : forall q s, treeAt [T []; T []] q = Some s -> (length q - 1 <= 2)%nat.
Proof.
  intros q s H. assert (N : q <> []) by (intros ->; discriminate). rewrite treeAt_subT in H by exact N. destruct (rev q) as [|j r] eqn:R.
  - exfalso. apply N. rewrite <- (rev_involutive q), R. reflexivity.
  - assert (D : q = rev r ++ [j]) by (rewrite <- (rev_involutive q), R; reflexivity). rewrite D, subT_last in H. cbn [kidsOf] in H.
    destruct j as [|[|j]]; cbn [nth_error] in H; [| |destruct j; discriminate]; apply subT_nil in H; destruct H as [H _]; rewrite D, H; cbn; lia.
Qed.
Example front_sane : sane [9 # 10; 1 # 10] /\ largest [9 # 10; 1 # 10] (9 # 10) /\ smallest [9 # 10; 1 # 10] (1 # 10) /\ asksRefine 0 (9 # 10) (1 # 10).
Proof.
  split; [split; [discriminate|]; intros x [<-|[<-|[]]]; split; discriminate|].
  split; [split; [exists (9 # 10); split; [left; reflexivity|reflexivity]|intros x [<-|[<-|[]]]; discriminate]|].
  split; [split; [exists (1 # 10); split; [right; left; reflexivity|reflexivity]|intros x [<-|[<-|[]]]; discriminate]|].
  split; [reflexivity|lia].
Qed.
(** The hypotheses of the theorem about refining and coarsening. *)
Example undo_case : let m := fun p => match p with [0%nat] => Refine | _ => Keep end in
  let m' := fun p => match p with [_; 0%nat] => Coarsen | _ => Keep end in
  (forall p, m p <> Coarsen) /\ (forall p t, treeAt [T []; T []] p = Some t -> m' p = Keep) /\
  (forall p i, leaf [T []; T []] p -> m p = Refine -> m' (i :: p) = Coarsen) /\ m [0%nat] = Refine.
Proof.
  cbv zeta. split; [intros [|[|n] [|n' q]]; discriminate|]. split; [|split; [|reflexivity]].
  - intros q s H. pose proof H as H'. assert (N : q <> []) by (intros ->; discriminate). rewrite treeAt_subT in H by exact N.
    destruct (rev q) as [|j r] eqn:R; [exfalso; apply N; rewrite <- (rev_involutive q), R; reflexivity|].
    assert (D : q = rev r ++ [j]) by (rewrite <- (rev_involutive q), R; reflexivity). rewrite D, subT_last in H. cbn [kidsOf] in H.
    destruct j as [|[|j]]; cbn [nth_error] in H; [| |destruct j; discriminate]; apply subT_nil in H; destruct H as [H _]; rewrite D, H; reflexivity.
  - intros [|[|n] [|n' q]] i _ M; try discriminate M. reflexivity.
Qed.
