(** Proofs about the convergence criteria. *)
From Coq Require Import Permutation.
From Verif Require Import Num BiCGModel BiCGSpec BiCGProofs.
Open Scope Q_scope.

Lemma nltb_leb' : forall a b, nltb a b = false -> a <> NaN -> b <> NaN -> nleb b a = true.
Proof. intros a b E A B. rewrite nlt_or_ge in E by auto. apply negb_false_iff. exact E. Qed.

Lemma nmax_le : forall a x t, a <> NaN -> nleb (nmax a x) t = true <-> nleb a t = true /\ (x <> NaN -> nleb x t = true).
Proof.
  intros a x t A. unfold nmax. destruct (nltb a x) eqn:E.
  - assert (X : x <> NaN) by (intros ->; destruct a; discriminate). split.
    + intro B. split; [|auto]. eapply nleb_trans; [apply nltb_leb; exact E|exact B].
    + intros [_ B]. auto.
  - split; [|tauto]. intro B. split; [exact B|]. intro X. eapply nleb_trans; [|exact B]. apply nltb_leb'; auto.
Qed.
Lemma nmax_nan : forall a x, a <> NaN -> nmax a x <> NaN.
Proof. intros a x A. unfold nmax. destruct (nltb a x) eqn:E; [|exact A]. intros ->. destruct a; discriminate. Qed.
Lemma nmax_which : forall a x, nmax a x = a \/ nmax a x = x.
Proof. intros. unfold nmax. destruct (nltb a x); auto. Qed.

Lemma fold_max : forall l a t, a <> NaN ->
  nleb (fold_left nmax l a) t = true <-> nleb a t = true /\ (forall x, In x l -> x <> NaN -> nleb x t = true).
Proof.
  induction l as [|x l IH]; intros a t A; cbn.
  - split; [intro E; split; [exact E|intros x []]|tauto].
  - rewrite IH by (apply nmax_nan; exact A). rewrite nmax_le by exact A. split.
    + intros [[B C] D]. split; [exact B|]. intros y [<-|I]; auto.
    + intros [B C]. auto 6.
Qed.
Lemma fold_nan : forall l a, a <> NaN -> fold_left nmax l a <> NaN.
Proof. induction l; intros b A; cbn; [exact A|]. apply IHl, nmax_nan, A. Qed.
Lemma fold_which : forall l a, fold_left nmax l a = a \/ In (fold_left nmax l a) l.
Proof.
  induction l as [|x l IH]; intro a; cbn; [auto|]. destruct (IH (nmax a x)) as [E|E]; [|auto].
  rewrite E. destruct (nmax_which a x) as [->| ->]; auto.
Qed.

Lemma maxOver_le : forall l t, nleb (maxOver l) t = true <->
  nleb (Fin 0) t = true /\ (forall p x, In p l -> In x p -> x <> NaN -> nleb x t = true).
Proof.
  intros l t. unfold maxOver. rewrite fold_max by discriminate. split.
  - intros [Z H]. split; [exact Z|]. intros p x Ip Ix Nx.
    assert (B : nleb (fold_left nmax p (Fin 0)) t = true).
    { apply H; [|apply fold_nan; discriminate]. apply in_map_iff. eauto. }
    apply fold_max in B; [|discriminate]. apply B; auto.
  - intros [Z H]. split; [exact Z|]. intros y Iy _. apply in_map_iff in Iy. destruct Iy as (p & <- & Ip).
    apply fold_max; [discriminate|]. split; [exact Z|]. intros x Ix Nx. eapply H; eauto.
Qed.
Lemma maxOver_nan : forall l, maxOver l <> NaN.
Proof. intro. apply fold_nan. discriminate. Qed.
Lemma maxOver_which : forall l, maxOver l = Fin 0 \/ exists p, In p l /\ In (maxOver l) p.
Proof.
  intro l. unfold maxOver. set (F := fun p => fold_left nmax p (Fin 0)).
  destruct (fold_which (map F l) (Fin 0)) as [E|E]; [auto|].
  apply in_map_iff in E. destruct E as (p & <- & Ip). unfold F. destruct (fold_which p (Fin 0)) as [->|I]; eauto.
Qed.
Lemma nleb_zero_abs : forall x, x <> NaN -> nleb (Fin 0) (nabs x) = true.
Proof. destruct x; intro N; try reflexivity; [congruence|]. apply Qle_bool_iff, Qabs_nonneg. Qed.
Lemma maxOver_nonneg : forall l, nleb (Fin 0) (maxOver l) = true.
Proof.
  intro l. destruct (nleb (maxOver l) (maxOver l)) eqn:E.
  - apply maxOver_le in E. apply E.
  - exfalso. destruct (maxOver l) eqn:M; try discriminate E.
    + exact (maxOver_nan l M).
    + cbn in E. apply Qleb_gt in E. lra.
Qed.

(** The order of the entries and who holds them does not matter. *)
Lemma fold_concat : forall l a, fold_left nmax (concat l) a = fold_left (fun a p => fold_left nmax p a) l a.
Proof. induction l as [|p l IH]; intro a; cbn; [reflexivity|]. rewrite fold_left_app. apply IH. Qed.

Lemma nabs_nan : forall x, nabs x = NaN <-> x = NaN.
Proof. destruct x; cbn; split; congruence. Qed.

Lemma maxOver_abs : forall l t, nleb (Fin 0) t = true ->
  nleb (maxOver (map (map nabs) l)) t = true <-> (forall p x, In p l -> In x p -> x <> NaN -> nleb (nabs x) t = true).
Proof.
  intros l t Z. rewrite maxOver_le. split.
  - intros [_ H] p x Ip Ix Nx. apply (H (map nabs p)); [apply in_map; exact Ip|apply in_map; exact Ix|]. rewrite nabs_nan. exact Nx.
  - intros H. split; [exact Z|]. intros q y Iq Iy Ny. apply in_map_iff in Iq. destruct Iq as (p & <- & Ip).
    apply in_map_iff in Iy. destruct Iy as (x & <- & Ix). eapply H; eauto. rewrite <- nabs_nan. exact Ny.
Qed.

(** ** Division by the initial residual. *)
Lemma div_le : forall e m rt, nleb (Fin 0) e = true -> 0 < m -> 
  nleb (ndiv e (Fin m)) (Fin rt) = nleb e (Fin (rt * m)).
Proof.
  intros e m rt E M. assert (Nz : Qeq_bool m 0 = false) by (destruct (Qeq_bool m 0) eqn:Q; [apply Qeq_bool_iff in Q; lra|reflexivity]).
  destruct e; try discriminate E; cbn [ndiv].
  - replace (Qle_bool 0 m) with true by (symmetry; apply Qle_bool_iff; lra). reflexivity.
  - rewrite Nz. cbn. destruct (Qle_bool q (rt * m)) eqn:B.
    + apply Qle_bool_iff in B. apply Qle_bool_iff. apply Qle_shift_div_r; auto.
    + apply Qleb_gt in B. apply Qleb_gt. apply Qlt_shift_div_l; auto.
Qed.

Definition floor20 (i : Q) : Q := if Qltb (1 # 10^20) i then i else 1 # 10^20.
Lemma floor20_max : forall i, nmax (Fin (1 # 10^20)) (Fin i) = Fin (floor20 i).
Proof. intro. unfold nmax, floor20. cbn [nltb]. destruct (Qltb _ i); reflexivity. Qed.
Lemma floor20_pos : forall i, 0 < floor20 i.
Proof.
  intro. unfold floor20. destruct (Qltb _ i) eqn:E; [apply Qltb_lt in E|reflexivity].
  eapply Qlt_trans; [|exact E]. reflexivity.
Qed.

Lemma cc_exact : forall c rt at_ i change resid,
  cc_reduction c = Fin rt -> cc_abs c = Fin at_ -> cc_initial c = Fin i -> 0 <= rt -> 0 <= at_ ->
  cc_converged (cc_updateErrors c change resid) = true <->
  (forall p x, In p resid -> In x p -> x <> NaN -> nleb (nabs x) (Fin (rt * floor20 i)) = true) \/
  (forall p x, In p resid -> In x p -> x <> NaN -> nleb (nabs x) (Fin at_) = true).
Proof.
  intros c rt at_ i change resid Er Ea Ei R A. unfold cc_converged, cc_updateErrors. cbn [cc_error cc_initial cc_reduction cc_abs].
  rewrite Er, Ea, Ei. rewrite floor20_max, div_le by (try apply maxOver_nonneg; apply floor20_pos).
  rewrite orb_true_iff. rewrite !maxOver_abs; [tauto| |].
  - apply Qle_bool_iff. exact A.
  - apply Qle_bool_iff. apply Qmult_le_0_compat; [exact R|]. apply Qlt_le_weak, floor20_pos.
Qed.

Lemma noNaN_bounded : forall t l, noNaN l ->
  ((forall p x, In p l -> In x p -> x <> NaN -> nleb (nabs x) t = true) <-> boundedBy t l).
Proof. intros t l N. split; intros H p x Ip Ix; [|intro]; eapply H; eauto. Qed.

Lemma tiny_small : tiny < 1 # 10^20.
Proof. vm_compute. reflexivity. Qed.
Lemma tiny_pos : 0 < tiny.
Proof. reflexivity. Qed.
Lemma tiny_floor : Qltb (1 # 10^20) tiny = false.
Proof. apply Qltb_ge. apply Qlt_le_weak, tiny_small. Qed.
Opaque tiny.

(** What the initial residual is. *)
Lemma cc_initial_fin : forall c sol resid, (forall p x, In p resid -> In x p -> is_fin x = true) ->
  exists i, cc_initial (cc_setInitial c sol resid) = Fin i /\
    (floor20 i = (1 # 10^20) \/ exists p q, In p resid /\ In (Fin q) p /\ floor20 i = Qabs q) /\
    cc_error (cc_setInitial c sol resid) = Fin i /\
    (forall p q, In p resid -> In (Fin q) p -> Qabs q <= i).
Proof.
  intros c sol resid F. cbn [cc_setInitial cc_initial cc_error cc_updateErrors].
  set (M := maxOver (map (map nabs) resid)).
  assert (Up : forall p q, In p resid -> In (Fin q) p -> nleb (Fin (Qabs q)) M = true).
  { intros p q Ip Iq. assert (B : nleb M M = true).
    { destruct M eqn:E; try reflexivity; [exact (False_ind _ (maxOver_nan _ E))|]. apply Qle_bool_iff, Qle_refl. }
    exact (proj1 (maxOver_abs resid M (maxOver_nonneg _)) B p (Fin q) Ip Iq ltac:(discriminate)). }
  assert (W : M = Fin 0 \/ exists p q, In p resid /\ In (Fin q) p /\ M = Fin (Qabs q)).
  { destruct (maxOver_which (map (map nabs) resid)) as [E|(p' & Ip' & Iq)]; [auto|]. right.
    apply in_map_iff in Ip'. destruct Ip' as (p & <- & Ip). apply in_map_iff in Iq. destruct Iq as (x & E & Ix).
    specialize (F p x Ip Ix). destruct x; try discriminate F. exists p, q. auto. }
  assert (T : exists m, M = Fin m) by (destruct W as [E|(p & q & _ & _ & E)]; eauto). destruct T as (m & Em).
  rewrite Em in *. clear M Em. unfold nmax. cbn [nltb]. destruct (Qltb m tiny) eqn:E.
  - exists tiny. split; [reflexivity|]. split; [left; unfold floor20; rewrite tiny_floor; reflexivity|]. split; [reflexivity|].
    intros p q Ip Iq. specialize (Up p q Ip Iq). cbn in Up. apply Qle_bool_iff in Up. apply Qltb_lt in E. lra.
  - exists m. split; [reflexivity|]. split; [|split; [reflexivity|]].
    + unfold floor20. destruct (Qltb _ m) eqn:B; [|auto]. right. destruct W as [W|(p & q & Ip & Iq & W)].
      * injection W as ->. discriminate B.
      * exists p, q. injection W as ->. auto.
    + intros p q Ip Iq. specialize (Up p q Ip Iq). apply Qle_bool_iff in Up. exact Up.
Qed.

Lemma div_mono : forall p q m t, p <= q -> 0 < m -> nleb (ndiv (Fin q) (Fin m)) t = true -> nleb (ndiv (Fin p) (Fin m)) t = true.
Proof.
  intros p q m t L M. assert (Nz : Qeq_bool m 0 = false) by (destruct (Qeq_bool m 0) eqn:Q; [apply Qeq_bool_iff in Q; lra|reflexivity]).
  cbn [ndiv]. rewrite Nz. destruct t; cbn [nleb]; auto. intro H. apply Qle_bool_iff in H. apply Qle_bool_iff.
  eapply Qle_trans; [|exact H]. unfold Qdiv. apply Qmult_le_compat_r; [exact L|]. apply Qlt_le_weak, Qinv_lt_0_compat, M.
Qed.

Lemma cc_initial_pos : forall c sol resid, nleb (Fin tiny) (cc_initial (cc_setInitial c sol resid)) = true /\ (cc_converged (cc_setInitial c sol resid) = true -> cc_converged (cc_updateErrors (cc_setInitial c sol resid) sol resid) = true).
Proof.
  intros c sol resid. unfold cc_converged, cc_setInitial, cc_updateErrors. cbn [cc_initial cc_error cc_reduction cc_abs cc_max].
  set (M := maxOver (map (map nabs) resid)). split.
  - unfold nmax. destruct (nltb M (Fin tiny)) eqn:E; [apply Qle_bool_iff, Qle_refl|]. apply nltb_leb'; [exact E|apply maxOver_nan|discriminate].
  - rewrite !orb_true_iff.
    assert (Up : forall t, nleb (nmax M (Fin tiny)) t = true -> nleb M t = true).
    { intros t H. apply nmax_le in H; [apply H|apply maxOver_nan]. }
    intros [H|H]; [left|right; auto].
    destruct M eqn:EM; try exact H; [pose proof (maxOver_nonneg (map (map nabs) resid)) as Z; fold M in Z; rewrite EM in Z; discriminate Z|].
    assert (X : nmax (Fin q) (Fin tiny) = if Qltb q tiny then Fin tiny else Fin q) by reflexivity.
    rewrite X in H |- *. destruct (Qltb q tiny) eqn:B; [|exact H].
    rewrite floor20_max in H |- *. apply div_mono with tiny; [apply Qltb_lt in B; lra|apply floor20_pos|exact H].
Qed.

Lemma cc_never_both : forall c, cc_converged c = true -> cc_failed c = false.
Proof. intros c H. unfold cc_failed. rewrite H. reflexivity. Qed.

(** ** Sums swallow no NaN. *)
Lemma nadd_nan_r : forall a, nadd a NaN = NaN.
Proof. destruct a; reflexivity. Qed.
Lemma sum_nan : forall f (l : list Num.num), fold_left (fun s x => nadd s (f x)) l NaN = NaN.
Proof. intro f. induction l; cbn; auto. Qed.
Lemma sum_hasnan : forall (f : Num.num -> Num.num) (l : list Num.num) a, (exists x, In x l /\ f x = NaN) -> fold_left (fun s x => nadd s (f x)) l a = NaN.
Proof.
  intro f. induction l as [|y l IH]; intros a (x & I & E); cbn in *; [contradiction|]. destruct I as [->|I].
  - rewrite E, nadd_nan_r. apply sum_nan.
  - apply IH. eauto.
Qed.
Lemma sumSquares_nan : forall l, hasNaN l -> sumSquares l = NaN.
Proof.
  intros l (p & Ip & In_). unfold sumSquares.
  apply (sum_hasnan (fun x => x) (map (fun p => fold_left (fun s x => nadd s (nmul x x)) p (Fin 0)) l) (Fin 0)).
  exists NaN. split; [|reflexivity]. apply in_map_iff. exists p. split; [|exact Ip].
  apply (sum_hasnan (fun x => nmul x x)). exists NaN. auto.
Qed.

(** ** Entries by position. *)
Lemma nth_zipWith : forall {X Y Z} (f : X -> Y -> Z) l m k,
  nth_error (zipWith f l m) k = match nth_error l k, nth_error m k with Some x, Some y => Some (f x y) | _, _ => None end.
Proof.
  intros X Y Z f. unfold zipWith. induction l as [|x l IH]; intros [|y m] [|k]; cbn; try reflexivity.
  - destruct (nth_error l k); reflexivity.
  - apply IH.
Qed.
Lemma in_zipWith2 : forall (f : Num.num -> Num.num -> Num.num) w r y,
  (exists p, In p (zipWith (zipWith f) w r) /\ In y p) <->
  exists i j wp rp a b, nth_error w i = Some wp /\ nth_error r i = Some rp /\ nth_error wp j = Some a /\ nth_error rp j = Some b /\ y = f a b.
Proof.
  intros f w r y. split.
  - intros (p & Ip & Iy). apply In_nth_error in Ip. destruct Ip as (i & Ei). rewrite nth_zipWith in Ei.
    destruct (nth_error w i) as [wp|] eqn:Ew; [|discriminate]. destruct (nth_error r i) as [rp|] eqn:Er; [|discriminate].
    injection Ei as <-. apply In_nth_error in Iy. destruct Iy as (j & Ej). rewrite nth_zipWith in Ej.
    destruct (nth_error wp j) as [a|] eqn:Ea; [|discriminate]. destruct (nth_error rp j) as [b|] eqn:Eb; [|discriminate].
    injection Ej as <-. exists i, j, wp, rp, a, b. auto 6.
  - intros (i & j & wp & rp & a & b & Ew & Er & Ea & Eb & ->). exists (zipWith f wp rp). split.
    + apply nth_error_In with i. rewrite nth_zipWith, Ew, Er. reflexivity.
    + apply nth_error_In with j. rewrite nth_zipWith, Ea, Eb. reflexivity.
Qed.

Lemma nle_lt_trans : forall a b c, nleb a b = true -> nltb b c = true -> nltb a c = true.
Proof.
  intros [| | |a] [| | |b] [| | |c]; cbn [nleb nltb]; try congruence.
  rewrite Qle_bool_iff, !Qltb_lt. apply Qle_lt_trans.
Qed.
Lemma nleb_refl : forall a, a <> NaN -> nleb a a = true.
Proof. destruct a; intro N; try reflexivity; [congruence|]. apply Qle_bool_iff, Qle_refl. Qed.
Lemma maxOver_lt : forall l t, nltb (maxOver l) t = true <->
  nltb (Fin 0) t = true /\ (forall p x, In p l -> In x p -> x <> NaN -> nltb x t = true).
Proof.
  intros l t. pose proof (nleb_refl _ (maxOver_nan l)) as R. apply maxOver_le in R. destruct R as [R0 R]. split.
  - intro H. split; [eapply nle_lt_trans; eauto|]. intros p x Ip Ix Nx. eapply nle_lt_trans; eauto.
  - intros [Z H]. destruct (maxOver_which l) as [->|(p & Ip & Ix)]; [exact Z|]. eapply H; eauto. apply maxOver_nan.
Qed.

(** ** The sequential solver with the combined criterion. *)
Definition cc_f (n : nat) (c0 : combined) (b r : vec) : bool :=
  cc_converged (cc_updateErrors (cc_setInitial c0 (entries n vzero) (entries n b)) [] (entries n r)).

Lemma cc_update_conv : forall c1 c2 ch1 ch2 r, cc_reduction c1 = cc_reduction c2 -> cc_abs c1 = cc_abs c2 -> cc_initial c1 = cc_initial c2 ->
  cc_converged (cc_updateErrors c1 ch1 r) = cc_converged (cc_updateErrors c2 ch2 r).
Proof.
  intros c1 c2 ch1 ch2 r A B C. unfold cc_converged, cc_updateErrors. cbn [cc_error cc_initial cc_reduction cc_abs].
  rewrite A, B, C. reflexivity.
Qed.
Lemma cc_initial_indep : forall c s1 s2 r, cc_initial (cc_setInitial c s1 r) = cc_initial (cc_setInitial c s2 r).
Proof. reflexivity. Qed.

Lemma combined_depends : forall n c0, dependsOnResidual (combinedCriterion n) c0 (cc_f n c0).
Proof.
  intros n c0.
  exists (fun c b => cc_reduction c = cc_reduction c0 /\ cc_abs c = cc_abs c0 /\
    cc_initial c = cc_initial (cc_setInitial c0 (entries n vzero) (entries n b))).
  split.
  - intros x b. cbn [combinedCriterion setInitial converged]. split; [repeat split|].
    intro H. apply cc_initial_pos in H. unfold cc_f. rewrite <- H. apply cc_update_conv; reflexivity.
  - intros c b x d r (A & B & C). cbn [combinedCriterion updateCrit converged]. split; [auto|].
    unfold cc_f. apply cc_update_conv; auto.
Qed.

Lemma in_entries : forall n v p x, In p (entries n v) -> In x p -> exists i, (i < n)%nat /\ x = Fin (v i).
Proof.
  intros n v p x [<-|[]] I. apply in_map_iff in I. destruct I as (i & <- & Is). exists i. split; [|reflexivity].
  apply in_seq in Is. lia.
Qed.
Lemma entries_in : forall n v i, (i < n)%nat -> In (map (fun i => Fin (v i)) (seq 0 n)) (entries n v) /\ In (Fin (v i)) (map (fun i => Fin (v i)) (seq 0 n)).
Proof. intros n v i L. split; [left; reflexivity|]. apply in_map_iff. exists i. split; [reflexivity|]. apply in_seq. lia. Qed.

Lemma cc_f_exact : forall n c0 rt at_ b, cc_reduction c0 = Fin rt -> cc_abs c0 = Fin at_ -> 0 <= rt -> 0 <= at_ ->
  exists m, (m = (1 # 10^20) \/ exists j, (j < n)%nat /\ m = Qabs (b j)) /\ forall r,
  cc_f n c0 b r = true <-> (forall i, (i < n)%nat -> Qabs (r i) <= rt * m) \/ (forall i, (i < n)%nat -> Qabs (r i) <= at_).
Proof.
  intros n c0 rt at_ b Er Ea R A.
  destruct (cc_initial_fin c0 (entries n vzero) (entries n b)) as (i & Ei & W & _ & _).
  { intros p x Ip Ix. destruct (in_entries _ _ _ _ Ip Ix) as (j & _ & ->). reflexivity. }
  exists (floor20 i). split.
  - destruct W as [W|(p & q & Ip & Iq & W)]; [auto|]. right. destruct (in_entries _ _ _ _ Ip Iq) as (j & Lj & E).
    injection E as ->. eauto.
  - intro r. unfold cc_f. rewrite (cc_exact _ rt at_ i); auto.
    assert (Q : forall t, (forall p x, In p (entries n r) -> In x p -> x <> NaN -> nleb (nabs x) (Fin t) = true) <-> (forall i, (i < n)%nat -> Qabs (r i) <= t)).
    { intro t. split; intro H.
      - intros j Lj. destruct (entries_in n r j Lj) as [Ip Ix]. specialize (H _ _ Ip Ix ltac:(discriminate)). apply Qle_bool_iff in H. exact H.
      - intros p x Ip Ix _. destruct (in_entries _ _ _ _ Ip Ix) as (j & Lj & ->). apply Qle_bool_iff. auto. }
    rewrite !Q. reflexivity.
Qed.
