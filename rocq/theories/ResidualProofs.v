(** Proofs about residuals and balances. *)
From Coq Require Import Permutation Setoid Morphisms.
From Verif Require Import FluxModel ResidualModel FluxSpec FluxProofs.

Lemma sumOver_cons {A} (f : A -> Q) x l : sumOver f (x :: l) = f x + sumOver f l.
Proof. reflexivity. Qed.
Lemma sumOver_ext {A} (f g : A -> Q) l : (forall x, In x l -> f x == g x) -> sumOver f l == sumOver g l.
Proof.
  induction l as [|x l IH]; intros H; [reflexivity|]. rewrite !sumOver_cons, H, IH; [reflexivity| |left; auto].
  intros y Y. apply H. right. auto.
Qed.
Lemma sumOver_plus {A} (f g : A -> Q) l : sumOver (fun x => f x + g x) l == sumOver f l + sumOver g l.
Proof. induction l as [|x l IH]; [reflexivity|]. rewrite !sumOver_cons, IH. lra. Qed.
Lemma sumOver_minus {A} (f g : A -> Q) l : sumOver (fun x => f x - g x) l == sumOver f l - sumOver g l.
Proof. induction l as [|x l IH]; [reflexivity|]. rewrite !sumOver_cons, IH. lra. Qed.
Lemma sumOver_scale {A} (f : A -> Q) c l : sumOver (fun x => f x * c) l == sumOver f l * c.
Proof. induction l as [|x l IH]; [reflexivity|]. rewrite !sumOver_cons, IH. lra. Qed.
Lemma sumOver_zero {A} l : sumOver (fun _ : A => 0) l == 0.
Proof. induction l as [|x l IH]; [reflexivity|]. rewrite !sumOver_cons, IH. lra. Qed.
Lemma sumOver_app {A} (f : A -> Q) l m : sumOver f (l ++ m) == sumOver f l + sumOver f m.
Proof.
  induction l as [|x l IH]; cbn [app].
  - unfold sumOver at 2. cbn. lra.
  - rewrite !sumOver_cons, IH. lra.
Qed.
Lemma sumOver_map {A B} (h : A -> B) (f : B -> Q) l : sumOver f (map h l) = sumOver (fun x => f (h x)) l.
Proof. unfold sumOver. rewrite map_map. reflexivity. Qed.
Lemma sumOver_flat_map {A B} (h : A -> list B) (f : B -> Q) l :
  sumOver f (flat_map h l) == sumOver (fun x => sumOver f (h x)) l.
Proof. induction l as [|x l IH]; [reflexivity|]. cbn [flat_map]. rewrite sumOver_app, IH, sumOver_cons. reflexivity. Qed.
Lemma sumOver_perm {A} (f : A -> Q) l m : Permutation l m -> sumOver f l == sumOver f m.
Proof.
  induction 1.
  - reflexivity.
  - rewrite !sumOver_cons, IHPermutation. reflexivity.
  - rewrite !sumOver_cons. lra.
  - rewrite IHPermutation1. exact IHPermutation2.
Qed.
Lemma sumOver_seq_firstn (f : dof -> Q) l n : (n <= length l)%nat ->
  sumOver (fun k => f (nth k l noDof)) (seq 0 n) == sumOver f (firstn n l).
Proof.
  revert n. induction l as [|d l IH]; intros n H.
  - cbn in H. replace n with 0%nat by lia. reflexivity.
  - destruct n as [|n]; [reflexivity|]. cbn [seq firstn]. rewrite !sumOver_cons. cbn [nth].
    rewrite <- seq_shift, sumOver_map. cbn [nth]. rewrite IH by (cbn in H; lia). reflexivity.
Qed.

(** Adding to entries of a vector. *)
Lemma sum_pointwise (v : nat -> Q) q k n s :
  sumOver (fun l => if (l =? k)%nat then v l + q else v l) (seq s n)
  == sumOver v (seq s n) + (if (s <=? k)%nat && (k <? s + n)%nat then q else 0).
Proof.
  revert s. induction n as [|n IH]; intros s.
  - unfold sumOver. cbn [seq map qsum]. replace (s + 0)%nat with s by lia.
    destruct (s <=? k)%nat eqn:E; destruct (k <? s)%nat eqn:F; cbn [andb]; try lra.
    apply Nat.leb_le in E. apply Nat.ltb_lt in F. lia.
  - cbn [seq]. rewrite !sumOver_cons, IH.
    destruct (s =? k)%nat eqn:E.
    + apply Nat.eqb_eq in E. subst k.
      replace (S s <=? s)%nat with false by (symmetry; apply Nat.leb_gt; lia).
      replace (s <=? s)%nat with true by (symmetry; apply Nat.leb_le; lia).
      replace (s <? s + S n)%nat with true by (symmetry; apply Nat.ltb_lt; lia). cbn. lra.
    + apply Nat.eqb_neq in E. replace (S s + n)%nat with (s + S n)%nat by lia.
      destruct (S s <=? k)%nat eqn:F; destruct (s <=? k)%nat eqn:G; cbn; try lra.
      * apply Nat.leb_le in F. apply Nat.leb_gt in G. lia.
      * apply Nat.leb_gt in F. apply Nat.leb_le in G. lia.
Qed.
Lemma sum_addTo v k q n : sumOver (addTo v k q) (seq 0 n) == sumOver v (seq 0 n) + (if (k <? n)%nat then q else 0).
Proof. unfold addTo. rewrite sum_pointwise. reflexivity. Qed.
Lemma sum_addTo_in v k q n : (k < n)%nat -> sumOver (addTo v k q) (seq 0 n) == sumOver v (seq 0 n) + q.
Proof. intros H. rewrite sum_addTo. apply Nat.ltb_lt in H. rewrite H. reflexivity. Qed.
Lemma vectorSum_addTo n w v k q : (k < n)%nat -> vectorSum n w (addTo v k q) == vectorSum n w v + w k * q.
Proof.
  intros H. unfold vectorSum, addTo.
  rewrite (sumOver_ext _ (fun g => if (g =? k)%nat then w g * v g + w k * q else w g * v g)).
  - rewrite (sum_pointwise (fun g => w g * v g)). replace (0 + n)%nat with n by lia. apply Nat.ltb_lt in H. rewrite H. reflexivity.
  - intros g _. destruct (g =? k)%nat eqn:E; [|reflexivity]. apply Nat.eqb_eq in E. subst. lra.
Qed.

Lemma fold_addTo_sum {A} (k : A -> nat) (q : A -> Q) l v n : Forall (fun x => (k x < n)%nat) l ->
  sumOver (fold_left (fun r x => addTo r (k x) (q x)) l v) (seq 0 n) == sumOver v (seq 0 n) + sumOver q l.
Proof.
  revert v. induction l as [|x l IH]; intros v F; cbn [fold_left].
  - unfold sumOver at 3. cbn. lra.
  - inversion F; subst. rewrite IH, sum_addTo_in, sumOver_cons by auto. lra.
Qed.

(** ** The parts of the local residual *)
Definition facePart (e : element) (n : nat) (f : face) : Q :=
  (if (f_in f <? n)%nat then amount e f else 0) - (if (f_ex f <? n)%nat then amount e f else 0).
Lemma fluxes_sum e v n :
  sumOver (evalFluxes e v) (seq 0 n) == sumOver v (seq 0 n) + sumOver (facePart e n) (e_faces e).
Proof.
  unfold evalFluxes. generalize (e_faces e) as l. intros l. revert v.
  induction l as [|f l IH]; intros v; cbn [fold_left].
  - unfold sumOver at 3. cbn. lra.
  - rewrite IH, sumOver_cons. unfold facePart at 2. rewrite !sum_addTo.
    destruct (f_in f <? n)%nat, (f_ex f <? n)%nat; lra.
Qed.
Lemma volume_sum dt e v : ~ dt == 0 -> (e_primary e <= length (e_dofs e))%nat ->
  sumOver (evalVolumeTerms dt e v) (seq 0 (e_primary e))
  == sumOver v (seq 0 (e_primary e)) + ((stored e - storedBefore e) / dt - produced e).
Proof.
  intros D P. unfold evalVolumeTerms. set (n := e_primary e) in *.
  assert (H : forall l v, Forall (fun k => (k < n)%nat) l ->
    sumOver (fold_left (fun r k =>
      addTo (addTo r k ((d_storage (dofOf e k) - d_storage1 (dofOf e k)) * (d_vol (dofOf e k) * d_ext (dofOf e k) / dt)))
        k (- (d_source (dofOf e k) * (d_vol (dofOf e k) * d_ext (dofOf e k))))) l v) (seq 0 n)
    == sumOver v (seq 0 n) +
       ((sumOver (fun k => d_storage (dofOf e k) * (d_vol (dofOf e k) * d_ext (dofOf e k))) l
         - sumOver (fun k => d_storage1 (dofOf e k) * (d_vol (dofOf e k) * d_ext (dofOf e k))) l) / dt
        - sumOver (fun k => d_source (dofOf e k) * (d_vol (dofOf e k) * d_ext (dofOf e k))) l)).
  { induction l as [|k l IH]; intros u F; cbn [fold_left].
    - unfold sumOver at 3 4 5. cbn. field. auto.
    - inversion F; subst. rewrite IH, !sum_addTo_in, !sumOver_cons by auto. field. auto. }
  cbn zeta. rewrite H.
  - unfold stored, storedBefore, produced, primaries, dofOf.
    fold n.
    rewrite <- (sumOver_seq_firstn (fun d => d_storage d * (d_vol d * d_ext d)) _ _ P).
    rewrite <- (sumOver_seq_firstn (fun d => d_storage1 d * (d_vol d * d_ext d)) _ _ P).
    rewrite <- (sumOver_seq_firstn (fun d => d_source d * (d_vol d * d_ext d)) _ _ P). reflexivity.
  - apply Forall_forall. intros k K. apply in_seq in K. lia.
Qed.
Lemma boundary_sum e v : Forall (fun b => (b_dof b < e_primary e)%nat) (e_bfaces e) ->
  sumOver (evalBoundary e v) (seq 0 (e_primary e)) == sumOver v (seq 0 (e_primary e)) + boundaryLoss e.
Proof. intros F. unfold evalBoundary. rewrite fold_addTo_sum by exact F. reflexivity. Qed.

Definition elementBalance (dt : Q) (e : element) : Q := (stored e - storedBefore e) / dt - produced e + boundaryLoss e.
Lemma eval_sum dt e : ~ dt == 0 -> wellFormed e ->
  sumOver (eval false dt e) (seq 0 (e_primary e))
  == elementBalance dt e + sumOver (facePart e (e_primary e)) (e_faces e).
Proof.
  intros D (P & B & F). unfold eval. rewrite boundary_sum, volume_sum, fluxes_sum by auto.
  rewrite sumOver_zero. unfold elementBalance. lra.
Qed.

Lemma faces_cancel e n : Forall (fun f => (f_in f < n)%nat /\ (f_ex f < n)%nat) (e_faces e) ->
  sumOver (facePart e n) (e_faces e) == 0.
Proof.
  intros F. rewrite <- (sumOver_zero (e_faces e)). apply sumOver_ext. intros f I.
  rewrite Forall_forall in F. destruct (F f I) as [A B]. unfold facePart.
  apply Nat.ltb_lt in A, B. rewrite A, B. lra.
Qed.
Lemma faces_out e : cellCentred e -> sumOver (facePart e (e_primary e)) (e_faces e) == sumOver s_amount (sides e).
Proof.
  intros [P F]. unfold sides. rewrite sumOver_map, P. apply sumOver_ext. intros f I.
  rewrite Forall_forall in F. destruct (F f I) as [A B]. unfold facePart. rewrite A.
  replace (f_ex f <? 1)%nat with false by (symmetry; apply Nat.ltb_ge; lia).
  cbn. unfold amount, faceExtrusion, dofOf. rewrite A. lra.
Qed.
Lemma matched_sum l : faces_match l -> sumOver s_amount l == 0.
Proof.
  intros (pairs & P & F). rewrite (sumOver_perm _ _ _ P), sumOver_flat_map.
  rewrite <- (sumOver_zero pairs). apply sumOver_ext. intros p I.
  rewrite Forall_forall in F. destruct (F p I) as (_ & _ & E). unfold sumOver. cbn. rewrite E. lra.
Qed.

(** ** Assembly *)
Definition weighted (volumetric : bool) (w : nat -> Q) (e : element) : Prop :=
  Forall (fun d => if volumetric then w (d_global d) == d_total d /\ 0 < d_total d else w (d_global d) == 1) (primaries e).
Lemma eval_weighted vol dt e w k : weighted vol w e -> (k < e_primary e)%nat -> (e_primary e <= length (e_dofs e))%nat ->
  w (d_global (dofOf e k)) * eval vol dt e k == eval false dt e k.
Proof.
  intros W K P. unfold weighted, primaries in W. rewrite Forall_forall in W.
  assert (I : In (dofOf e k) (firstn (e_primary e) (e_dofs e))).
  { unfold dofOf. rewrite <- (firstn_skipn (e_primary e) (e_dofs e)) at 1.
    rewrite app_nth1 by (rewrite firstn_length; lia). apply nth_In. rewrite firstn_length. lia. }
  specialize (W _ I). unfold eval. destruct vol.
  - destruct W as [W1 W2]. cbn zeta. rewrite W1.
    replace (k <? length (e_dofs e))%nat with true by (symmetry; apply Nat.ltb_lt; lia).
    replace (Qltb 0 (d_total (dofOf e k))) with true by (symmetry; apply Qltb_lt; auto). cbn [andb]. field. lra.
  - rewrite W. lra.
Qed.

Lemma global_sum vol dt n w elems :
  Forall (fun e => (e_primary e <= length (e_dofs e))%nat /\ weighted vol w e /\ Forall (fun d => (d_global d < n)%nat) (primaries e)) elems ->
  vectorSum n w (globalResidual vol dt elems) ==
  sumOver (fun e => sumOver (eval false dt e) (seq 0 (e_primary e))) elems.
Proof.
  intros F. unfold globalResidual.
  assert (Z : vectorSum n w (fun _ => 0) == 0).
  { unfold vectorSum. rewrite <- (sumOver_zero (seq 0 n)). apply sumOver_ext. intros; lra. }
  assert (H : forall l v, Forall (fun e => (e_primary e <= length (e_dofs e))%nat /\ weighted vol w e /\ Forall (fun d => (d_global d < n)%nat) (primaries e)) l ->
    vectorSum n w (fold_left (fun dest e =>
      fold_left (fun dest k => addTo dest (d_global (dofOf e k)) (eval vol dt e k)) (seq 0 (e_primary e)) dest) l v)
    == vectorSum n w v + sumOver (fun e => sumOver (eval false dt e) (seq 0 (e_primary e))) l).
  { induction l as [|e l IH]; intros v G; cbn [fold_left].
    - unfold sumOver at 1. cbn. lra.
    - inversion G as [|? ? G1 G2]; subst. rewrite IH, sumOver_cons by auto. destruct G1 as (P & W & B).
      assert (K : forall ks v, Forall (fun k => (k < e_primary e)%nat) ks ->
        vectorSum n w (fold_left (fun dest k => addTo dest (d_global (dofOf e k)) (eval vol dt e k)) ks v)
        == vectorSum n w v + sumOver (eval false dt e) ks).
      { induction ks as [|k ks IHk]; intros u KS; cbn [fold_left].
        - unfold sumOver at 1. cbn. lra.
        - inversion KS; subst. rewrite IHk, sumOver_cons by auto. rewrite vectorSum_addTo.
          + rewrite (eval_weighted vol dt e w k) by auto. lra.
          + unfold primaries in B. rewrite Forall_forall in B. apply B. unfold dofOf.
            rewrite <- (firstn_skipn (e_primary e) (e_dofs e)) at 1.
            rewrite app_nth1 by (rewrite firstn_length; lia). apply nth_In. rewrite firstn_length. lia. }
      rewrite K; [lra|]. apply Forall_forall. intros k I. apply in_seq in I. lia. }
  rewrite H by auto. rewrite Z. lra.
Qed.

Lemma balance_sum dt elems : balance dt elems = sumOver (elementBalance dt) elems.
Proof. reflexivity. Qed.

Lemma vertex_balance vol dt n w elems : ~ dt == 0 ->
  Forall (fun e => wellFormed e /\ vertexCentred e /\ weighted vol w e /\ Forall (fun d => (d_global d < n)%nat) (primaries e)) elems ->
  vectorSum n w (globalResidual vol dt elems) == balance dt elems.
Proof.
  intros D F. rewrite global_sum.
  - rewrite balance_sum. apply sumOver_ext. intros e I. rewrite Forall_forall in F.
    destruct (F e I) as ((P & B & G) & V & _). rewrite eval_sum by (auto; repeat split; auto).
    rewrite faces_cancel; [lra|]. rewrite V. exact G.
  - eapply Forall_impl; [|exact F]. cbn. intros e ((P & _) & _ & W & G). auto.
Qed.
Lemma cell_balance vol dt n w elems : ~ dt == 0 ->
  Forall (fun e => wellFormed e /\ cellCentred e /\ weighted vol w e /\ Forall (fun d => (d_global d < n)%nat) (primaries e)) elems ->
  faces_match (flat_map sides elems) ->
  vectorSum n w (globalResidual vol dt elems) == balance dt elems.
Proof.
  intros D F M. rewrite global_sum.
  - assert (H : sumOver (fun e => sumOver (eval false dt e) (seq 0 (e_primary e))) elems
                == sumOver (fun e => elementBalance dt e + sumOver s_amount (sides e)) elems).
    { apply sumOver_ext. intros e I. rewrite Forall_forall in F. destruct (F e I) as (W & C & _).
      rewrite eval_sum, faces_out by auto. reflexivity. }
    rewrite H, sumOver_plus, <- sumOver_flat_map, matched_sum by auto. rewrite balance_sum. lra.
  - eapply Forall_impl; [|exact F]. cbn. intros e ((P & _) & _ & W & G). auto.
Qed.

(** ** The check *)
Lemma fold_sum {A} (q : A -> Q) l s : fold_left (fun s x => s + q x) l s == s + sumOver q l.
Proof.
  revert s. induction l as [|x l IH]; intros s; cbn [fold_left].
  - unfold sumOver. cbn. lra.
  - rewrite IH, sumOver_cons. lra.
Qed.
Lemma fold_sum2 {A} (step : Q -> A -> Q) (q : A -> Q) l s : (forall s x, In x l -> step s x == s + q x) ->
  Proper (Qeq ==> eq ==> Qeq) step -> fold_left step l s == s + sumOver q l.
Proof.
  intros H P. revert s. induction l as [|x l IH]; intros s; cbn [fold_left].
  - unfold sumOver. cbn. lra.
  - rewrite IH, sumOver_cons. 2: { intros; apply H; right; auto. } rewrite H by (left; auto). lra.
Qed.
Lemma storage_sum elems : Forall (fun e => (e_primary e <= length (e_dofs e))%nat) elems ->
  globalStorage elems == sumOver stored elems.
Proof.
  intros F. rewrite Forall_forall in F. unfold globalStorage. rewrite (fold_sum2 _ stored); [lra| |].
  - intros s e I. rewrite fold_sum. unfold stored, primaries, dofOf.
    rewrite <- (sumOver_seq_firstn (fun d => d_storage d * (d_vol d * d_ext d)) _ _ (F e I)). reflexivity.
  - intros s s' E e e' <-. rewrite !fold_sum, E. reflexivity.
Qed.
Lemma storage1_sum elems : Forall (fun e => (e_primary e <= length (e_dofs e))%nat) elems ->
  Forall (fun e => Forall (fun d => d_ext1 d == d_ext d) (primaries e)) elems ->
  globalStorage1 elems == sumOver storedBefore elems.
Proof.
  intros F G. rewrite Forall_forall in F, G. unfold globalStorage1. rewrite (fold_sum2 _ storedBefore); [lra| |].
  - intros s e I. rewrite fold_sum. unfold storedBefore, primaries, dofOf.
    rewrite <- (sumOver_ext (fun d => d_storage1 d * (d_vol d * d_ext1 d))).
    + rewrite <- (sumOver_seq_firstn (fun d => d_storage1 d * (d_vol d * d_ext1 d)) _ _ (F e I)). reflexivity.
    + intros d K. specialize (G e I). rewrite Forall_forall in G. rewrite (G d K). reflexivity.
  - intros s s' E e e' <-. rewrite !fold_sum, E. reflexivity.
Qed.
Lemma rate_sum elems : Forall (fun e => (e_primary e <= length (e_dofs e))%nat) elems ->
  totalRate elems == sumOver (fun e => boundaryLoss e - produced e) elems.
Proof.
  intros F. rewrite Forall_forall in F. unfold totalRate. rewrite (fold_sum2 _ (fun e => boundaryLoss e - produced e)); [lra| |].
  - intros s e I. cbn zeta. rewrite !fold_sum. unfold boundaryLoss, produced, primaries, dofOf.
    rewrite <- (sumOver_seq_firstn (fun d => d_source d * (d_vol d * d_ext d)) _ _ (F e I)).
    assert (H : forall l, sumOver (fun k => - (d_vol (nth k (e_dofs e) noDof) * d_ext (nth k (e_dofs e) noDof)) * d_source (nth k (e_dofs e) noDof)) l
       == - sumOver (fun k => d_source (nth k (e_dofs e) noDof) * (d_vol (nth k (e_dofs e) noDof) * d_ext (nth k (e_dofs e) noDof))) l).
    { intros l. apply sum_anti. intros; lra. }
    rewrite H. lra.
  - intros s s' E e e' <-. cbn zeta. rewrite !fold_sum, E. reflexivity.
Qed.

Lemma balance_rates dt elems : ~ dt == 0 -> Forall (fun e => (e_primary e <= length (e_dofs e))%nat) elems ->
  Forall (fun e => Forall (fun d => d_ext1 d == d_ext d) (primaries e)) elems ->
  (globalStorage1 elems - globalStorage elems) / dt - totalRate elems == - balance dt elems.
Proof.
  intros D F G. rewrite storage_sum, storage1_sum, rate_sum by auto. rewrite balance_sum. unfold elementBalance.
  rewrite sumOver_plus, !sumOver_minus.
  assert (H : sumOver (fun e => (stored e - storedBefore e) / dt) elems == (sumOver stored elems - sumOver storedBefore elems) / dt).
  { unfold Qdiv. rewrite sumOver_scale, sumOver_minus. reflexivity. }
  rewrite H. field. auto.
Qed.
Lemma conservative_exact tol dt elems : ~ dt == 0 -> Forall (fun e => (e_primary e <= length (e_dofs e))%nat) elems ->
  Forall (fun e => Forall (fun d => d_ext1 d == d_ext d) (primaries e)) elems ->
  (conservative tol dt elems = true <->
   qabs (balance dt elems) <= tol \/
   qabs (balance dt elems) <= (qabs ((globalStorage1 elems - globalStorage elems) / dt) + totalRate elems) * tol).
Proof.
  intros D F G. unfold conservative. cbn zeta.
  pose proof (balance_rates dt elems D F G) as B.
  set (r := (globalStorage1 elems - globalStorage elems) / dt) in *. set (t := totalRate elems) in *. clearbody r t.
  set (eps := (qabs r + t) * tol). clearbody eps.
  assert (A : qabs (r - t) == qabs (balance dt elems)) by (rewrite B; apply qabs_opp).
  rewrite Qle_bool_iff, A. destruct (Qltb tol eps) eqn:E.
  - apply Qltb_lt in E. split; [intros; right; lra|intros [H|H]; lra].
  - apply Qltb_ge in E. split; [intros; left; lra|intros [H|H]; lra].
Qed.
