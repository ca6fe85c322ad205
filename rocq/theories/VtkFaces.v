From Verif Require Export VtkOutProofs.
From Coq Require Import Lqa.
Local Open Scope Q_scope.

(** ** Sums over faces *)

Lemma vadd_length : forall a b, length a = length b -> length (vadd a b) = length a.
Proof. intros a b H. unfold vadd. rewrite map_length, combine_length, H, Nat.min_id. reflexivity. Qed.

Lemma vscale_length : forall a s, length (vscale a s) = length a.
Proof. intros. unfold vscale. apply map_length. Qed.

Lemma vadd_nth : forall a b k, length a = length b -> nth k (vadd a b) 0 == nth k a 0 + nth k b 0.
Proof.
  induction a as [|x a IH]; intros [|y b] k H; try discriminate H.
  - destruct k; simpl; ring.
  - destruct k as [|k]; simpl; [ring|]. apply IH. simpl in H. lia.
Qed.

Lemma vscale_nth : forall a s k, nth k (vscale a s) 0 == s * nth k a 0.
Proof.
  induction a as [|x a IH]; intros s k; destruct k as [|k]; simpl; try ring. apply IH.
Qed.

Definition adds (d : nat) (add : averages -> face -> averages) (cnt : face -> nat -> Q) (w : face -> Q) (vec : face -> list Q) : Prop :=
  forall a f, (forall I, length (aVec a I) = d) -> length (vec f) = d ->
    (forall I, length (aVec (add a f) I) = d) /\
    (forall I, aWeight (add a f) I == aWeight a I + cnt f I * w f) /\
    (forall I k, nth k (aVec (add a f) I) 0 == nth k (aVec a I) 0 + cnt f I * (w f * nth k (vec f) 0)).

Lemma fold_adds : forall d add cnt w vec, adds d add cnt w vec ->
  forall fs a, (forall I, length (aVec a I) = d) -> (forall f, In f fs -> length (vec f) = d) ->
    (forall I, length (aVec (fold_left add fs a) I) = d) /\
    (forall I, aWeight (fold_left add fs a) I == aWeight a I + total (fun f => cnt f I * w f) fs) /\
    (forall I k, nth k (aVec (fold_left add fs a) I) 0 == nth k (aVec a I) 0 + total (fun f => cnt f I * (w f * nth k (vec f) 0)) fs).
Proof.
  intros d add cnt w vec A. induction fs as [|f t IH]; intros a L V; simpl.
  - split; [exact L|]. split; intros; ring.
  - destruct (A a f L) as [A1 [A2 A3]]; [apply V; left; reflexivity|].
    destruct (IH (add a f) A1) as [B1 [B2 B3]]; [intros f' F'; apply V; right; exact F'|].
    split; [exact B1|]. split; intros.
    + rewrite B2, A2. ring.
    + rewrite B3, A3. ring.
Qed.

Lemma addAt_facts : forall d a J x w, (forall I, length (aVec a I) = d) -> length x = d ->
  (forall I, length (aVec (addAt a J x w) I) = d) /\
  (forall I, aWeight (addAt a J x w) I == aWeight a I + (if (J =? I)%nat then 1 else 0) * w) /\
  (forall I k, nth k (aVec (addAt a J x w) I) 0 == nth k (aVec a I) 0 + (if (J =? I)%nat then 1 else 0) * nth k x 0).
Proof.
  intros d a J x w L X. unfold addAt. cbn [aVec aWeight]. split; [|split]; intros; rewrite ?(Nat.eqb_sym J I); destruct (I =? J)%nat.
  - rewrite vadd_length; [apply L|]. rewrite L, X. reflexivity.
  - apply L.
  - ring.
  - ring.
  - rewrite vadd_nth; [ring|]. rewrite L, X. reflexivity.
  - ring.
Qed.

Lemma two_sides : forall d a f x w, (forall I, length (aVec a I) = d) -> length x = d ->
  let b := addAt (addAt a (fI f) x w) (fJ f) x w in
  (forall I, length (aVec b I) = d) /\ (forall I, aWeight b I == aWeight a I + sides f I * w) /\
  (forall I k, nth k (aVec b I) 0 == nth k (aVec a I) 0 + sides f I * nth k x 0).
Proof.
  intros d a f x w L X b.
  destruct (addAt_facts d a (fI f) x w L X) as [A1 [A2 A3]].
  destruct (addAt_facts d (addAt a (fI f) x w) (fJ f) x w A1 X) as [B1 [B2 B3]].
  split; [exact B1|]. unfold sides. split; intros.
  - unfold b. rewrite B2, A2. ring.
  - unfold b. rewrite B3, A3. ring.
Qed.

Lemma adds_velocity : forall norm d p, adds d (addVelocity norm p) sides (velocityWeight norm p) (fun f => fVelocity f p).
Proof.
  intros norm d p a f L V. unfold addVelocity. cbv zeta.
  destruct (two_sides d a f (vscale (fVelocity f p) (velocityWeight norm p f)) (velocityWeight norm p f) L) as [A [B C]].
  { rewrite vscale_length. exact V. }
  split; [exact A|]. split; [exact B|]. intros I k. rewrite C, vscale_nth. reflexivity.
Qed.

Definition insideCount (f : face) (I : nat) : Q := if (fI f =? I)%nat then 1 else 0.

Lemma adds_gradient : forall d p, adds d (addGradient p) insideCount fExtrusion (fun f => fGradient f p).
Proof.
  intros d p a f L V. unfold addGradient.
  destruct (addAt_facts d a (fI f) (vscale (fGradient f p) (fExtrusion f)) (fExtrusion f) L) as [A [B C]].
  { rewrite vscale_length. exact V. }
  split; [exact A|]. split; [exact B|]. intros I k. rewrite C, vscale_nth. reflexivity.
Qed.

Definition edgeSides (edge : nat -> nat -> bool) (f : face) (I : nat) : Q := if edge (fI f) (fJ f) then sides f I else 0.

Lemma adds_fracture : forall edge d p, adds d (addFractureVelocity edge p) (edgeSides edge) (fractureWeight p) (fun f => fVelocity f p).
Proof.
  intros edge d p a f L V. unfold addFractureVelocity, edgeSides. destruct (edge (fI f) (fJ f)).
  - cbv zeta. destruct (two_sides d a f (vscale (fVelocity f p) (fractureWeight p f)) (fractureWeight p f) L) as [A [B C]].
    { rewrite vscale_length. exact V. }
    split; [exact A|]. split; [exact B|]. intros I k. rewrite C, vscale_nth. reflexivity.
  - split; [exact L|]. split; intros; ring.
Qed.

Lemma zero_facts : forall d, (forall I, length (aVec (zeroAverages d) I) = d) /\ (forall I, aWeight (zeroAverages d) I == 0) /\
  (forall I k, nth k (aVec (zeroAverages d) I) 0 == 0).
Proof.
  intro d. unfold zeroAverages. cbn [aVec aWeight]. split; [intro; apply repeat_length|]. split; [reflexivity|].
  intros _ k. rewrite nth_repeat. reflexivity.
Qed.

Lemma total_ext : forall h h' fs, (forall f, In f fs -> h f == h' f) -> total h fs == total h' fs.
Proof.
  intros h h' fs. induction fs as [|f t IH]; intro H; simpl; [reflexivity|].
  rewrite (H f (or_introl eq_refl)), IH; [reflexivity|]. intros f' F'. apply H. right. exact F'.
Qed.

Lemma total_nonneg : forall h fs, (forall f, In f fs -> 0 <= h f) -> 0 <= total h fs.
Proof.
  intros h fs. induction fs as [|f t IH]; intro H; simpl; [lra|].
  specialize (H f (or_introl eq_refl)) as H1. assert (0 <= total h t) by (apply IH; intros f' F'; apply H; right; exact F'). lra.
Qed.

Lemma total_pos : forall h fs f, (forall f, In f fs -> 0 <= h f) -> In f fs -> 0 < h f -> 0 < total h fs.
Proof.
  intros h fs. induction fs as [|g t IH]; intros f H F P; [destruct F|]. simpl.
  assert (N : 0 <= total h t) by (apply total_nonneg; intros f' F'; apply H; right; exact F').
  destruct F as [F|F].
  - subst g. lra.
  - assert (0 < total h t) by (apply (IH f); [intros f' F'; apply H; right; exact F'|exact F|exact P]).
    specialize (H g (or_introl eq_refl)). lra.
Qed.

Lemma total_zero : forall h fs, (forall f, In f fs -> h f == 0) -> total h fs == 0.
Proof.
  intros h fs. induction fs as [|f t IH]; intro H; simpl; [reflexivity|].
  rewrite (H f (or_introl eq_refl)), IH; [ring|]. intros f' F'. apply H. right. exact F'.
Qed.

Lemma total_le : forall h h' fs, (forall f, In f fs -> h f <= h' f) -> total h fs <= total h' fs.
Proof.
  intros h h' fs. induction fs as [|f t IH]; intro H; simpl; [lra|].
  specialize (H f (or_introl eq_refl)) as H1. assert (total h t <= total h' t) by (apply IH; intros f' F'; apply H; right; exact F'). lra.
Qed.

Lemma total_scale : forall c h fs, total (fun f => c * h f) fs == c * total h fs.
Proof. intros c h fs. induction fs as [|f t IH]; simpl; [ring|]. rewrite IH. ring. Qed.

Lemma total_perm : forall h fs fs', Permutation fs fs' -> total h fs == total h fs'.
Proof.
  intros h fs fs' P. induction P; simpl; [reflexivity|rewrite IHP; reflexivity|ring|].
  rewrite IHP1. exact IHP2.
Qed.

Lemma sides_nonneg : forall f I, 0 <= sides f I.
Proof. intros f I. unfold sides. destruct (fI f =? I)%nat, (fJ f =? I)%nat; lra. Qed.

Lemma sides_pos : forall f I, touches f I -> 0 < sides f I.
Proof.
  intros f I [H|H]; unfold sides; subst I; rewrite Nat.eqb_refl; [destruct (fJ f =? fI f)%nat|destruct (fI f =? fJ f)%nat]; lra.
Qed.

Lemma sides_zero : forall f I, ~ touches f I -> sides f I == 0.
Proof.
  intros f I H. unfold sides. destruct (fI f =? I)%nat eqn:A; [exfalso; apply H; left; apply Nat.eqb_eq; exact A|].
  destruct (fJ f =? I)%nat eqn:B; [exfalso; apply H; right; apply Nat.eqb_eq; exact B|]. ring.
Qed.

Lemma tiny_pos : forall x, 0 < Qmax (1 # 10000000000000000) (Qabs x).
Proof. intro x. apply Qlt_le_trans with (1 # 10000000000000000); [reflexivity|apply Q.le_max_l]. Qed.

Lemma velocityWeight_pos : forall norm p f, 0 < fExtrusion f -> 0 < velocityWeight norm p f.
Proof.
  intros norm p f H. unfold velocityWeight.
  assert (P : 0 < Qmax (1 # 10000000000000000) (Qabs (fFlux f p)) * fExtrusion f).
  { apply Qmult_lt_0_compat; [apply tiny_pos|exact H]. }
  destruct (Qle_bool (norm (fVelocity f p)) (1 # 100000000000000000000)) eqn:E; [exact P|].
  assert (N : 0 < norm (fVelocity f p)).
  { apply Qlt_trans with (1 # 100000000000000000000); [reflexivity|].
    destruct (Qlt_le_dec (1 # 100000000000000000000) (norm (fVelocity f p))) as [L|L]; [exact L|].
    apply Qle_bool_iff in L. congruence. }
  apply Qlt_shift_div_l; [exact N|]. rewrite Qmult_0_l. exact P.
Qed.

(** ** The mean of the values at the faces with counts [cnt] and weights [w]. *)

Section Means.
Variables (d : nat) (add : averages -> face -> averages) (cnt : face -> nat -> Q) (w : face -> Q) (vec : face -> list Q).
Variable A : adds d add cnt w vec.
Variable fs : list face.
Hypothesis V : forall f, In f fs -> length (vec f) = d.
Hypothesis W : forall f, In f fs -> 0 < w f.
Hypothesis C : forall f I, 0 <= cnt f I.

Let a := fold_left add fs (zeroAverages d).

Lemma mean_length : forall I, length (average a I) = d.
Proof.
  intro I. unfold average. rewrite map_length. apply (fold_adds d add cnt w vec A fs (zeroAverages d)); [apply zero_facts|exact V].
Qed.

Lemma mean_weight : forall I, aWeight a I == total (fun f => cnt f I * w f) fs.
Proof.
  intro I. destruct (fold_adds d add cnt w vec A fs (zeroAverages d)) as [_ [H _]]; [apply zero_facts|exact V|].
  unfold a. rewrite H. destruct (zero_facts d) as [_ [Z _]]. rewrite Z. ring.
Qed.

Lemma mean_vec : forall I k, nth k (aVec a I) 0 == total (fun f => cnt f I * (w f * nth k (vec f) 0)) fs.
Proof.
  intros I k. destruct (fold_adds d add cnt w vec A fs (zeroAverages d)) as [_ [_ H]]; [apply zero_facts|exact V|].
  unfold a. rewrite H. destruct (zero_facts d) as [_ [_ Z]]. rewrite Z. ring.
Qed.

Lemma mean_len : forall I, length (aVec a I) = d.
Proof. apply (fold_adds d add cnt w vec A fs (zeroAverages d)); [apply zero_facts|exact V]. Qed.

Lemma mean_weight_pos : forall I f, In f fs -> 0 < cnt f I -> 0 < aWeight a I.
Proof.
  intros I f F P. rewrite mean_weight. apply (total_pos (fun f => cnt f I * w f) fs f).
  - intros g G. apply Qmult_le_0_compat; [apply C|]. apply Qlt_le_weak. apply W. exact G.
  - exact F.
  - apply Qmult_lt_0_compat; [exact P|apply W; exact F].
Qed.

Lemma fdiv_pos : forall x y, 0 < y -> fdiv x y = Some (x / y).
Proof.
  intros x y H. unfold fdiv. destruct (Qeq_bool y 0) eqn:E; [|reflexivity]. apply Qeq_bool_iff in E. lra.
Qed.

Lemma fdiv_zero : forall x y, y == 0 -> fdiv x y = None.
Proof. intros x y H. unfold fdiv. apply Qeq_bool_iff in H. rewrite H. reflexivity. Qed.

Lemma nth_error_average : forall I k, (k < d)%nat -> nth_error (average a I) k = Some (fdiv (nth k (aVec a I) 0) (aWeight a I)).
Proof.
  intros I k K. unfold average. rewrite (map_nth_error _ k (aVec a I) (d := nth k (aVec a I) 0)); [reflexivity|].
  apply nth_error_nth'. rewrite mean_len. exact K.
Qed.

(** Defined where a face counts. *)
Lemma mean_defined : forall I k f, (k < d)%nat -> In f fs -> 0 < cnt f I ->
  exists q, nth_error (average a I) k = Some (Some q) /\
    q * total (fun f => cnt f I * w f) fs == total (fun f => cnt f I * w f * nth k (vec f) 0) fs.
Proof.
  intros I k f K F P. pose proof (mean_weight_pos I f F P) as WP.
  exists (nth k (aVec a I) 0 / aWeight a I). rewrite nth_error_average by exact K. rewrite fdiv_pos by exact WP.
  split; [reflexivity|]. rewrite <- mean_weight, mean_vec.
  rewrite (total_ext (fun f => cnt f I * w f * nth k (vec f) 0) (fun f => cnt f I * (w f * nth k (vec f) 0))); [|intros; ring].
  field. lra.
Qed.

Lemma mean_undefined : forall I k, (k < d)%nat -> (forall f, In f fs -> cnt f I == 0) -> nth_error (average a I) k = Some None.
Proof.
  intros I k K H. rewrite nth_error_average by exact K. rewrite fdiv_zero; [reflexivity|]. rewrite mean_weight.
  apply total_zero. intros f F. rewrite (H f F). ring.
Qed.

Lemma mean_bounds : forall I k f lo hi q, (k < d)%nat -> In f fs -> 0 < cnt f I ->
  (forall g, In g fs -> 0 < cnt g I -> lo <= nth k (vec g) 0 <= hi) ->
  nth_error (average a I) k = Some (Some q) -> lo <= q <= hi.
Proof.
  intros I k f lo hi q K F P B E. destruct (mean_defined I k f K F P) as [q' [E1 E2]]. rewrite E in E1. injection E1 as E1. subst q'.
  pose proof (mean_weight_pos I f F P) as WP. rewrite mean_weight in WP.
  set (T := total (fun f => cnt f I * w f) fs) in *.
  assert (Bd : forall g, In g fs -> lo * (cnt g I * w g) <= cnt g I * w g * nth k (vec g) 0 <= hi * (cnt g I * w g)).
  { intros g G. pose proof (W g G) as Wg. destruct (Qlt_le_dec 0 (cnt g I)) as [Z|Z].
    - destruct (B g G Z) as [B1 B2]. assert (0 < cnt g I * w g) by (apply Qmult_lt_0_compat; assumption).
      split.
      + setoid_replace (cnt g I * w g * nth k (vec g) 0) with (nth k (vec g) 0 * (cnt g I * w g)) by ring.
        apply Qmult_le_compat_r; [exact B1|lra].
      + setoid_replace (cnt g I * w g * nth k (vec g) 0) with (nth k (vec g) 0 * (cnt g I * w g)) by ring.
        apply Qmult_le_compat_r; [exact B2|lra].
    - assert (Z0 : cnt g I == 0) by (pose proof (C g I); lra). rewrite Z0. split; ring_simplify; lra. }
  assert (L : lo * T <= q * T).
  { rewrite E2. unfold T. rewrite <- total_scale. apply total_le. intros g G. apply Bd. exact G. }
  assert (R : q * T <= hi * T).
  { rewrite E2. unfold T. rewrite <- total_scale. apply total_le. intros g G. apply Bd. exact G. }
  split; [apply Qmult_le_r in L|apply Qmult_le_r in R]; assumption.
Qed.
End Means.

(** ** Threads *)
Local Open Scope nat_scope.

Definition stepLoc (s : step) : loc := match s with Read l => l | AddWrite l _ => l end.
Definition locsOf (ss : list step) (l : loc) : Prop := exists s, In s ss /\ stepLoc s = l.

Fixpoint execSteps (m : loc -> Q) (r : Q) (ss : list step) : loc -> Q :=
  match ss with [] => m | s :: t => execSteps (fst (runStep m r s)) (snd (runStep m r s)) t end.

Lemma loc_eqb_spec : forall a b, loc_eqb a b = true <-> a = b.
Proof.
  intros [i|i] [j|j]; simpl; split; intro H; try discriminate H; try (apply Nat.eqb_eq in H; subst; reflexivity);
    try (injection H as H; subst; apply Nat.eqb_refl).
Qed.

Lemma loc_dec : forall a b : loc, a = b \/ a <> b.
Proof. intros a b. destruct (loc_eqb a b) eqn:E; [left; apply loc_eqb_spec; exact E|right]. intro H. apply loc_eqb_spec in H. congruence. Qed.

Lemma runStep_other : forall m r s l, stepLoc s <> l -> fst (runStep m r s) l = m l.
Proof.
  intros m r [l'|l' x] l H; simpl in *; [reflexivity|]. destruct (loc_eqb l l') eqn:E; [|reflexivity].
  apply loc_eqb_spec in E. congruence.
Qed.

Lemma exec_agree : forall ss m m' r l, (forall k, locsOf ss k -> m k = m' k) -> m l = m' l ->
  execSteps m r ss l = execSteps m' r ss l.
Proof.
  induction ss as [|s t IH]; intros m m' r l H L; simpl; [exact L|].
  assert (E : snd (runStep m r s) = snd (runStep m' r s)).
  { destruct s as [k|k x]; simpl; [|reflexivity]. apply H. exists (Read k). split; [left; reflexivity|reflexivity]. }
  rewrite E. apply IH.
  - intros k [s' [K1 K2]]. destruct s as [l0|l0 x]; simpl.
    + apply H. exists s'. split; [right; exact K1|exact K2].
    + destruct (loc_eqb k l0); [reflexivity|]. apply H. exists s'. split; [right; exact K1|exact K2].
  - destruct s as [l0|l0 x]; simpl; [exact L|]. destruct (loc_eqb l l0); [reflexivity|exact L].
Qed.

Lemma exec_other : forall ss m r l, ~ locsOf ss l -> execSteps m r ss l = m l.
Proof.
  induction ss as [|s t IH]; intros m r l H; simpl; [reflexivity|]. rewrite IH.
  - apply runStep_other. intro E. apply H. exists s. split; [left; reflexivity|exact E].
  - intros [s' [K1 K2]]. apply H. exists s'. split; [right; exact K1|exact K2].
Qed.

(** Threads which touch different places do not disturb each other. *)
Lemma run_disjoint : forall a b, thread_run a b -> todo1 b = [] -> todo2 b = [] ->
  (forall l, locsOf (todo1 a) l -> ~ locsOf (todo2 a) l) ->
  forall l, (~ locsOf (todo2 a) l -> memory b l = execSteps (memory a) (reg1 a) (todo1 a) l) /\
            (~ locsOf (todo1 a) l -> memory b l = execSteps (memory a) (reg2 a) (todo2 a) l).
Proof.
  intros a b R. induction R as [c|a b c S R IH]; intros E1 E2 D l.
  - rewrite E1, E2. split; reflexivity.
  - destruct S as [m s t1 r1 t2 r2|m t1 r1 s t2 r2]; cbn [todo1 todo2 memory reg1 reg2] in *.
    + assert (D' : forall k, locsOf t1 k -> ~ locsOf t2 k).
      { intros k [s' [K1 K2]]. apply D. exists s'. split; [right; exact K1|exact K2]. }
      destruct (IH E1 E2 D' l) as [I1 I2]. split.
      * intro N. rewrite (I1 N). reflexivity.
      * intro N. rewrite I2.
        -- apply exec_agree.
           ++ intros k K. apply runStep_other. intro X. apply (D k); [exists s; split; [left; reflexivity|exact X]|exact K].
           ++ apply runStep_other. intro X. apply N. exists s. split; [left; reflexivity|exact X].
        -- intros [s' [K1 K2]]. apply N. exists s'. split; [right; exact K1|exact K2].
    + assert (D' : forall k, locsOf t1 k -> ~ locsOf t2 k).
      { intros k K1 [s' [K2 K3]]. apply (D k K1). exists s'. split; [right; exact K2|exact K3]. }
      destruct (IH E1 E2 D' l) as [I1 I2]. split.
      * intro N. rewrite I1.
        -- apply exec_agree.
           ++ intros k K. apply runStep_other. intro X. apply (D k K). exists s. split; [left; reflexivity|exact X].
           ++ apply runStep_other. intro X. apply N. exists s. split; [left; reflexivity|exact X].
        -- intros [s' [K1 K2]]. apply N. exists s'. split; [right; exact K1|exact K2].
      * intro N. rewrite (I2 N). reflexivity.
Qed.

Lemma exec_app : forall s1 m r s2, (exists l t, s2 = Read l :: t) \/ s2 = [] ->
  exists r', execSteps m r (s1 ++ s2) = execSteps (execSteps m r s1) r' s2.
Proof.
  induction s1 as [|s t IH]; intros m r s2 H; simpl; [exists r; reflexivity|]. apply IH. exact H.
Qed.

Lemma exec_plus : forall l x m r t, execSteps m r (plusAssign l x ++ t) =
  execSteps (fun l' => if loc_eqb l' l then (m l + x)%Q else m l') (m l) t.
Proof. intros. reflexivity. Qed.

Lemma exec_face : forall norm p comp f t m r, exists m' r',
  execSteps m r (faceSteps norm p comp f ++ t) = execSteps m' r' t /\
  (forall I, m' (SumOf I) == m (SumOf I) + sides f I * (velocityWeight norm p f * nth comp (fVelocity f p) 0))%Q /\
  (forall I, m' (WeightOf I) == m (WeightOf I) + sides f I * velocityWeight norm p f)%Q.
Proof.
  intros norm p comp f t m r. unfold faceSteps. cbv zeta. rewrite <- !app_assoc, !exec_plus.
  eexists. eexists. split; [reflexivity|]. split; intro I; cbn [loc_eqb]; unfold sides; rewrite !(Nat.eqb_sym I).
  - destruct (fI f =? I) eqn:E1; destruct (fJ f =? I) eqn:E2.
    + apply Nat.eqb_eq in E1. apply Nat.eqb_eq in E2. rewrite E2, E1, Nat.eqb_refl, vscale_nth. ring.
    + rewrite vscale_nth. apply Nat.eqb_eq in E1. rewrite E1. ring.
    + apply Nat.eqb_eq in E2. rewrite E2. rewrite (Nat.eqb_sym I), E1, vscale_nth. ring.
    + ring.
  - destruct (fI f =? I) eqn:E1; destruct (fJ f =? I) eqn:E2.
    + apply Nat.eqb_eq in E1. apply Nat.eqb_eq in E2. rewrite E2, E1, Nat.eqb_refl. ring.
    + apply Nat.eqb_eq in E1. rewrite E1. ring.
    + apply Nat.eqb_eq in E2. rewrite E2. rewrite (Nat.eqb_sym I), E1. ring.
    + ring.
Qed.

(** One thread computes the sums. *)
Lemma exec_faces : forall norm p comp fs m r I,
  (execSteps m r (flat_map (faceSteps norm p comp) fs) (SumOf I) ==
   m (SumOf I) + total (fun f => sides f I * (velocityWeight norm p f * nth comp (fVelocity f p) 0)) fs)%Q /\
  (execSteps m r (flat_map (faceSteps norm p comp) fs) (WeightOf I) ==
   m (WeightOf I) + total (fun f => sides f I * velocityWeight norm p f) fs)%Q.
Proof.
  intros norm p comp. induction fs as [|f t IH]; intros m r I.
  - simpl. split; ring.
  - cbn [flat_map]. destruct (exec_face norm p comp f (flat_map (faceSteps norm p comp) t) m r) as [m' [r' [E [A B]]]].
    rewrite E. destruct (IH m' r' I) as [C D]. rewrite C, D, A, B. cbn [total fold_right]. fold (total (fun f => sides f I * (velocityWeight norm p f * nth comp (fVelocity f p) 0))%Q t).
    fold (total (fun f => sides f I * velocityWeight norm p f)%Q t). split; ring.
Qed.

Lemma locs_faces : forall norm p comp fs l, locsOf (flat_map (faceSteps norm p comp) fs) l ->
  exists f I, In f fs /\ touches f I /\ (l = SumOf I \/ l = WeightOf I).
Proof.
  intros norm p comp fs l [s [S L]]. apply in_flat_map in S. destruct S as [f [F S]]. subst l. exists f.
  unfold faceSteps, plusAssign in S. simpl in S.
  destruct S as [S|[S|[S|[S|[S|[S|[S|[S|[]]]]]]]]]; subst s;
    [exists (fI f)|exists (fI f)|exists (fJ f)|exists (fJ f)|exists (fI f)|exists (fI f)|exists (fJ f)|exists (fJ f)];
    (split; [exact F|]; split; [unfold touches; tauto|]; cbn [stepLoc]; tauto).
Qed.

Lemma faces_locs : forall norm p comp fs f I, In f fs -> touches f I ->
  locsOf (flat_map (faceSteps norm p comp) fs) (SumOf I) /\ locsOf (flat_map (faceSteps norm p comp) fs) (WeightOf I).
Proof.
  intros norm p comp fs f I F T.
  assert (G : forall l, locsOf (faceSteps norm p comp f) l -> locsOf (flat_map (faceSteps norm p comp) fs) l).
  { intros l [s [S L]]. exists s. split; [apply in_flat_map; exists f; split; assumption|exact L]. }
  split; apply G; unfold locsOf, faceSteps, plusAssign; simpl; destruct T as [T|T]; subst I.
  - eexists. split; [left; reflexivity|reflexivity].
  - eexists. split; [right; right; left; reflexivity|reflexivity].
  - eexists. split; [right; right; right; right; left; reflexivity|reflexivity].
  - eexists. split; [right; right; right; right; right; right; left; reflexivity|reflexivity].
Qed.

(** A run with a given schedule: [true] for a step of the first thread. *)
Fixpoint schedule (bs : list bool) (c : threads) : option threads :=
  match bs with
  | [] => Some c
  | true :: t => match todo1 c with
                 | [] => None
                 | s :: r => schedule t (mkThreads (fst (runStep (memory c) (reg1 c) s)) r (snd (runStep (memory c) (reg1 c) s)) (todo2 c) (reg2 c))
                 end
  | false :: t => match todo2 c with
                  | [] => None
                  | s :: r => schedule t (mkThreads (fst (runStep (memory c) (reg2 c) s)) (todo1 c) (reg1 c) r (snd (runStep (memory c) (reg2 c) s)))
                  end
  end.

Lemma schedule_run : forall bs c c', schedule bs c = Some c' -> thread_run c c'.
Proof.
  induction bs as [|b t IH]; intros c c' H; simpl in H; [injection H as H; subst; constructor|].
  destruct c as [m t1 r1 t2 r2]. cbn [memory todo1 todo2 reg1 reg2] in H. destruct b.
  - destruct t1 as [|s t1]; [discriminate H|]. eapply RunMore; [apply FirstThread|apply IH; exact H].
  - destruct t2 as [|s t2]; [discriminate H|]. eapply RunMore; [apply SecondThread|apply IH; exact H].
Qed.

(** ** Volumes of fractures *)

Lemma fold_plus : forall n v x, (fold_left (fun s _ => s + v)%Q (seq 0 n) x == x + natQ n * v)%Q.
Proof.
  intros n v. induction n as [|n IH]; intro x; [simpl; unfold natQ; simpl; ring|].
  rewrite seq_S, fold_left_app. simpl. rewrite IH. unfold natQ. rewrite Nat2Z.inj_succ. unfold Z.succ. rewrite inject_Z_plus. ring.
Qed.

Lemma fracture_volumes : forall n g vol I l b, isFractureVertex g I = true ->
  (fold_left (addFractureVolume n g vol) l b I == b I + natQ n * volumesAt vol I l)%Q.
Proof.
  intros n g vol I. induction l as [|[[e i] J] t IH]; intros b H; simpl; [ring|]. rewrite IH by exact H.
  destruct (J =? I) eqn:E.
  - apply Nat.eqb_eq in E. subst J. rewrite H, Nat.eqb_refl, fold_plus. ring.
  - destruct (isFractureVertex g J); [rewrite (Nat.eqb_sym I), E|]; ring.
Qed.

Lemma fracture_none : forall n g vol I l b, isFractureVertex g I = false ->
  fold_left (addFractureVolume n g vol) l b I = b I.
Proof.
  intros n g vol I. induction l as [|[[e i] J] t IH]; intros b H; simpl; [reflexivity|]. rewrite IH by exact H.
  destruct (isFractureVertex g J) eqn:E; [|reflexivity]. destruct (I =? J) eqn:K; [|reflexivity].
  apply Nat.eqb_eq in K. subst J. congruence.
Qed.
