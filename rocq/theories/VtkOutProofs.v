From Verif Require Export VtkOutSpec.
From Coq Require Import Lqa.
Local Open Scope nat_scope.

(** ** Buffers *)

Lemma key_eqb_spec : forall a b, key_eqb a b = true <-> a = b.
Proof.
  intros [[q p] c] [[q' p'] c']. unfold key_eqb. split.
  - intro H. apply andb_true_iff in H. destruct H as [H H3]. apply andb_true_iff in H. destruct H as [H1 H2].
    apply internal_qty_dec_bl in H1. apply Nat.eqb_eq in H2. apply Nat.eqb_eq in H3. subst. reflexivity.
  - intro H. injection H as H1 H2 H3. subst. rewrite (internal_qty_dec_lb q' q' eq_refl), !Nat.eqb_refl. reflexivity.
Qed.

Lemma key_eqb_refl : forall a, key_eqb a a = true.
Proof. intro a. apply key_eqb_spec. reflexivity. Qed.

Lemma key_eqb_neq : forall a b, a <> b -> key_eqb a b = false.
Proof. intros a b H. destruct (key_eqb a b) eqn:E; [|reflexivity]. apply key_eqb_spec in E. contradiction. Qed.

Lemma key_dec : forall a b : key, {a = b} + {a <> b}.
Proof. intros a b. destruct (key_eqb a b) eqn:E; [left; apply key_eqb_spec; exact E|right]. intro H. apply key_eqb_spec in H. congruence. Qed.

Lemma setNth_length : forall l n x, length (setNth l n x) = length l.
Proof. induction l as [|a t IH]; intros n x; simpl; [reflexivity|]. destruct n; simpl; [reflexivity|]. rewrite IH. reflexivity. Qed.

Lemma setNth_nth : forall l n x m, n < length l -> nth_error (setNth l n x) m = if m =? n then Some x else nth_error l m.
Proof.
  induction l as [|a t IH]; intros n x m H; simpl in H; [lia|].
  destruct n as [|n]; destruct m as [|m]; simpl; try reflexivity. apply IH. lia.
Qed.

Lemma apply_ok : forall ws b, (forall w, In w ws -> wIdx w < length (b (wKey w))) ->
  exists b', applyWrites b ws = Some b' /\ (forall k, length (b' k) = length (b k)) /\
    forall k i, (exists w, In w ws /\ wKey w = k /\ wIdx w = i /\ nth_error (b' k) i = Some (wVal w)) \/
                ((forall w, In w ws -> wKey w = k -> wIdx w = i -> False) /\ nth_error (b' k) i = nth_error (b k) i).
Proof.
  induction ws as [|w t IH]; intros b H; simpl.
  - exists b. split; [reflexivity|]. split; [reflexivity|]. intros k i. right. split; [intros w []|reflexivity].
  - assert (E : wIdx w <? length (b (wKey w)) = true) by (apply Nat.ltb_lt; apply H; left; reflexivity).
    unfold applyWrite. rewrite E.
    set (b1 := setBuffer b (wKey w) (setNth (b (wKey w)) (wIdx w) (wVal w))).
    assert (L : forall k, length (b1 k) = length (b k)).
    { intro k. unfold b1, setBuffer. destruct (key_eqb k (wKey w)) eqn:K; [|reflexivity].
      apply key_eqb_spec in K. subst k. apply setNth_length. }
    destruct (IH b1) as [b' [E1 [E2 E3]]].
    + intros w' Hw'. rewrite L. apply H. right. exact Hw'.
    + exists b'. split; [exact E1|]. split; [intro k; rewrite E2; apply L|].
      intros k i. destruct (E3 k i) as [[w' [A [B [C D]]]]|[A B]].
      * left. exists w'. split; [right; exact A|]. split; [exact B|]. split; [exact C|exact D].
      * destruct (key_dec (wKey w) k) as [K|K].
        -- subst k. destruct (Nat.eq_dec (wIdx w) i) as [J|J].
           ++ left. exists w. split; [left; reflexivity|]. split; [reflexivity|]. split; [exact J|].
              rewrite B. unfold b1, setBuffer. rewrite key_eqb_refl, setNth_nth; [|apply Nat.ltb_lt; exact E].
              subst i. rewrite Nat.eqb_refl. reflexivity.
           ++ right. split.
              ** intros w' [W|W] W1 W2; [subst w'; contradiction|exact (A w' W W1 W2)].
              ** rewrite B. unfold b1, setBuffer. rewrite key_eqb_refl, setNth_nth; [|apply Nat.ltb_lt; exact E].
                 destruct (i =? wIdx w) eqn:N; [apply Nat.eqb_eq in N; congruence|reflexivity].
        -- right. split.
           ++ intros w' [W|W] W1 W2; [subst w'; contradiction|exact (A w' W W1 W2)].
           ++ rewrite B. unfold b1, setBuffer. rewrite key_eqb_neq; [reflexivity|]. congruence.
Qed.

Lemma resizeFill_repeat : forall old n, resizeFill old n = repeat (Some 0%Q) n.
Proof.
  intros old n. unfold resizeFill.
  assert (L : length (firstn n old ++ repeat (Some 0%Q) (n - length old)) = n).
  { rewrite app_length, repeat_length, firstn_length. lia. }
  remember (firstn n old ++ repeat (Some 0%Q) (n - length old)) as l eqn:Hl. clear Hl.
  revert n L. induction l as [|a t IH]; intros n L; simpl in L; subst n; [reflexivity|].
  simpl. rewrite (IH (length t) eq_refl). reflexivity.
Qed.

Lemma alloc_subs : forall q n ss b k,
  let b' := fold_left (fun b' s => setBuffer b' (q, fst s, snd s) (resizeFill (b' (q, fst s, snd s)) n)) ss b in
  ((exists s, In s ss /\ k = (q, fst s, snd s)) -> b' k = repeat (Some 0%Q) n) /\
  ((forall s, In s ss -> k <> (q, fst s, snd s)) -> b' k = b k).
Proof.
  intros q n ss. induction ss as [|s t IH]; intros b k; simpl.
  - split; [intros [s [[] _]]|reflexivity].
  - set (b1 := setBuffer b (q, fst s, snd s) (resizeFill (b (q, fst s, snd s)) n)).
    destruct (IH b1 k) as [A B]. split.
    + intros [s' [[H|H] K]].
      * subst s'. destruct (in_dec (fun x y => match Nat.eq_dec (fst x) (fst y), Nat.eq_dec (snd x) (snd y) with
                                            | left a, left b => left (eq_trans (eq_trans (surjective_pairing x) (f_equal2 pair a b)) (eq_sym (surjective_pairing y)))
                                            | right a, _ => right (fun h => a (f_equal fst h))
                                            | _, right a => right (fun h => a (f_equal snd h)) end) s t) as [I|I].
        -- apply A. exists s. split; [exact I|exact K].
        -- rewrite B.
           ++ unfold b1, setBuffer. subst k. rewrite key_eqb_refl. apply resizeFill_repeat.
           ++ intros s' Hs' K'. apply I. rewrite K in K'. injection K' as K1 K2. destruct s, s'; simpl in *; subst; exact Hs'.
      * apply A. exists s'. split; [exact H|exact K].
    + intro H. rewrite B; [|intros s' Hs'; apply H; right; exact Hs'].
      unfold b1, setBuffer. rewrite key_eqb_neq; [reflexivity|]. apply H. left. reflexivity.
Qed.

Lemma alloc_other : forall cf g fs b q p c, (forall f, In f fs -> fQty f <> q) -> allocBuffers cf g fs b (q, p, c) = b (q, p, c).
Proof.
  intros cf g fs. induction fs as [|f t IH]; intros b q p c H; simpl; [reflexivity|].
  rewrite IH; [|intros f' Hf'; apply H; right; exact Hf'].
  unfold allocField. destruct (selected cf f); [|reflexivity].
  apply (proj2 (alloc_subs (fQty f) (getBufferSize g (fLoc f)) (subs cf (fShape f)) b (q, p, c))).
  intros s Hs K. injection K as K1 K2 K3. apply (H f); [left; reflexivity|congruence].
Qed.

Lemma alloc_own : forall cf g fs b f p c, NoDup (map fQty fs) -> In f fs -> selected cf f = true ->
  In (p, c) (subs cf (fShape f)) -> allocBuffers cf g fs b (fQty f, p, c) = repeat (Some 0%Q) (getBufferSize g (fLoc f)).
Proof.
  intros cf g fs. induction fs as [|a t IH]; intros b f p c N F S P; simpl; [destruct F|].
  inversion N as [|x l N1 N2 E]; subst x l. destruct F as [F|F].
  - subst a. rewrite alloc_other.
    + unfold allocField. rewrite S. apply (proj1 (alloc_subs (fQty f) (getBufferSize g (fLoc f)) (subs cf (fShape f)) b (fQty f, p, c))).
      exists (p, c). split; [exact P|reflexivity].
    + intros f' Hf' K. apply N1. rewrite <- K. apply in_map. exact Hf'.
  - apply IH; assumption.
Qed.

(** ** The writes *)

Lemma in_dofWrites : forall cf g v e f iI w, In w (dofWrites cf g v e f iI) <->
  exists p c, In (p, c) (subs cf (fShape f)) /\ passes cf g (fGuard f) p (snd iI) = true /\
    w = mkWrite (fQty f, p, c) (snd iI) (written cf v (fQty f) p c e (fst iI) (snd iI)).
Proof.
  intros cf g v e f iI w. unfold dofWrites. rewrite in_flat_map. split.
  - intros [[p c] [H1 H2]]. cbn [fst snd] in H2. destruct (passes cf g (fGuard f) p (snd iI)) eqn:E; [|destruct H2].
    destruct H2 as [H2|[]]. exists p, c. split; [exact H1|]. split; [exact E|]. symmetry. exact H2.
  - intros [p [c [H1 [H2 H3]]]]. exists (p, c). split; [exact H1|]. cbn [fst snd]. rewrite H2. left. symmetry. exact H3.
Qed.

(** The pairs of local and global index which a field is written for in an element. *)
Definition places (g : grid) (f : field) (e : nat) : list (nat * nat) :=
  match fLoc f with
  | ElementBuffer => [(0, e)]
  | _ => combine (seq 0 (length (primaryDofs g e))) (primaryDofs g e)
  end.

Lemma in_allWrites : forall cf g v fs w, In w (allWrites cf g v fs) <->
  exists e f i I p c, e < numElements g /\ isInterior g e = true /\ In f fs /\ selected cf f = true /\
    In (i, I) (places g f e) /\ In (p, c) (subs cf (fShape f)) /\ passes cf g (fGuard f) p I = true /\
    w = mkWrite (fQty f, p, c) I (written cf v (fQty f) p c e i I).
Proof.
  intros cf g v fs w. unfold allWrites. rewrite in_flat_map. split.
  - intros [e [H1 H2]]. apply in_seq in H1. destruct (isInterior g e) eqn:Ei; [|destruct H2].
    apply in_flat_map in H2. destruct H2 as [f [H3 H4]]. unfold fieldWrites in H4.
    destruct (selected cf f) eqn:Es; [|destruct H4].
    assert (H5 : exists iI, In iI (places g f e) /\ In w (dofWrites cf g v e f iI)).
    { unfold places. destruct (fLoc f); try (apply in_flat_map in H4; exact H4).
      exists (0, e). split; [left; reflexivity|exact H4]. }
    destruct H5 as [[i I] [H5 H6]]. apply in_dofWrites in H6. destruct H6 as [p [c [H6 [H7 H8]]]].
    cbn [fst snd] in *. exists e, f, i, I, p, c.
    split; [lia|]. split; [exact Ei|]. split; [exact H3|]. split; [exact Es|]. split; [exact H5|]. split; [exact H6|].
    split; [exact H7|exact H8].
  - intros [e [f [i [I [p [c [H1 [H2 [H3 [H4 [H5 [H6 [H7 H8]]]]]]]]]]]]].
    exists e. split; [apply in_seq; lia|]. rewrite H2. apply in_flat_map. exists f. split; [exact H3|].
    unfold fieldWrites. rewrite H4.
    assert (H9 : In w (dofWrites cf g v e f (i, I))).
    { apply in_dofWrites. exists p, c. cbn [fst snd]. split; [exact H6|]. split; [exact H7|exact H8]. }
    unfold places in H5. destruct (fLoc f).
    + apply in_flat_map. exists (i, I). split; [exact H5|exact H9].
    + apply in_flat_map. exists (i, I). split; [exact H5|exact H9].
    + destruct H5 as [H5|[]]. injection H5 as K1 K2. subst i I. exact H9.
Qed.

Lemma in_combine_seq : forall (l : list nat) (i I : nat), In (i, I) (combine (seq 0 (length l)) l) <-> nth_error l i = Some I.
Proof.
  intros l i I.
  assert (G : forall (l : list nat) s, In (i, I) (combine (seq s (length l)) l) <-> s <= i /\ nth_error l (i - s) = Some I).
  { induction l0 as [|a t IH]; intro s; simpl.
    - split; [intros []|]. intros [_ H]. destruct (i - s); discriminate H.
    - split.
      + intros [H|H].
        * injection H as H1 H2. subst. split; [lia|]. rewrite Nat.sub_diag. reflexivity.
        * apply IH in H. destruct H as [H1 H2]. split; [lia|]. replace (i - s) with (S (i - S s)) by lia. exact H2.
      + intros [H1 H2]. destruct (Nat.eq_dec i s) as [E|E].
        * subst s. rewrite Nat.sub_diag in H2. simpl in H2. injection H2 as H2. subst. left. reflexivity.
        * right. apply IH. split; [lia|]. replace (i - s) with (S (i - S s)) in H2 by lia. exact H2. }
  rewrite G, Nat.sub_0_r. split; [intros [_ H]; exact H|]. intro H. split; [lia|exact H].
Qed.

(** All writes to one place of a buffer store the same value. *)
Lemma written_agree : forall cf g v q p c e1 i1 e2 i2 I, oneValuePerDof g v ->
  nth_error (primaryDofs g e1) i1 = Some I -> nth_error (primaryDofs g e2) i2 = Some I ->
  written cf v q p c e1 i1 I = written cf v q p c e2 i2 I.
Proof.
  intros cf g v q p c e1 i1 e2 i2 I H A B.
  destruct (H e1 i1 e2 i2) as [HV HM]; [congruence|congruence|].
  assert (SE : forall n h1 h2, (forall a, h1 a = h2 a) -> sumTo n h1 = sumTo n h2).
  { intros n h1 h2 E. induction n as [|n IH]; simpl; [reflexivity|]. rewrite IH, E. reflexivity. }
  destruct q; simpl; try rewrite !HV; try reflexivity.
  - f_equal; apply SE; intro a; rewrite !HV; reflexivity.
  - f_equal; apply SE; intro a; rewrite !HV, !HM; reflexivity.
Qed.

Lemma qty_inj : forall fs f f', NoDup (map fQty fs) -> In f fs -> In f' fs -> fQty f = fQty f' -> f = f'.
Proof.
  induction fs as [|a t IH]; intros f f' N A B E; [destruct A|].
  inversion N as [|x l N1 N2 X]; subst x l. destruct A as [A|A]; destruct B as [B|B].
  - congruence.
  - subst a. exfalso. apply N1. rewrite E. apply in_map. exact B.
  - subst a. exfalso. apply N1. rewrite <- E. apply in_map. exact A.
  - apply IH; assumption.
Qed.

Definition noVertexBuffers (fs : list field) : Prop := forall f, In f fs -> fLoc f <> VertexBuffer.
Definition elementRank (fs : list field) : Prop := forall f, In f fs -> fLoc f = ElementBuffer -> fQty f = ProcessRank.

Lemma places_size : forall d g f e i I, gridOk d g -> e < numElements g -> fLoc f <> VertexBuffer ->
  In (i, I) (places g f e) -> I < getBufferSize g (fLoc f).
Proof.
  intros d g f e i I [G1 G2 G3] He Hv H. unfold places in H. unfold getBufferSize.
  destruct (fLoc f); [|contradiction|].
  - apply in_combine_seq in H. destruct d.
    + destruct G1 as [E1 E2]. rewrite E2 in H by exact He. destruct i as [|i]; simpl in H; [injection H as H; lia|].
      destruct i; discriminate H.
    + destruct G1 as [E1 E2]. rewrite E2 in H by exact He. apply nth_error_In in H. specialize (G2 e I He H). lia.
  - destruct H as [H|[]]. injection H as H1 H2. lia.
Qed.

(** The buffers at the end. *)
Lemma final_buffers : forall cf d g v fs old ws, NoDup (map fQty fs) -> noVertexBuffers fs -> elementRank fs ->
  gridOk d g -> oneValuePerDof g v -> Permutation ws (allWrites cf g v fs) ->
  exists b, applyWrites (allocBuffers cf g fs old) ws = Some b /\
    forall f p c, In f fs -> selected cf f = true -> In (p, c) (subs cf (fShape f)) ->
      (forall e i I, e < numElements g -> isInterior g e = true -> In (i, I) (places g f e) ->
         nth_error (b (fQty f, p, c)) I =
         Some (if passes cf g (fGuard f) p I then written cf v (fQty f) p c e i I else Some 0%Q)) /\
      (forall I, I < getBufferSize g (fLoc f) ->
         (forall e i, e < numElements g -> isInterior g e = true -> ~ In (i, I) (places g f e)) ->
         nth_error (b (fQty f, p, c)) I = Some (Some 0%Q)).
Proof.
  intros cf d g v fs old ws N NV ER G O P.
  assert (INW : forall w, In w ws <-> In w (allWrites cf g v fs)).
  { intro w. split; intro H; [apply (Permutation_in _ P H)|apply (Permutation_in _ (Permutation_sym P) H)]. }
  destruct (apply_ok ws (allocBuffers cf g fs old)) as [b [E1 [E2 E3]]].
  { intros w Hw. apply INW in Hw. apply in_allWrites in Hw.
    destruct Hw as [e [f [i [I [p [c [H1 [H2 [H3 [H4 [H5 [H6 [H7 H8]]]]]]]]]]]]]. subst w. cbn [wIdx wKey].
    rewrite (alloc_own cf g fs old f p c N H3 H4 H6), repeat_length.
    apply (places_size d g f e i I G H1 (NV f H3) H5). }
  exists b. split; [exact E1|]. intros f p c F S PC. split.
  - intros e i I He Hi HP. destruct (E3 (fQty f, p, c) I) as [[w [W1 [W2 [W3 W4]]]]|[W1 W2]].
    + rewrite W4. f_equal. apply INW in W1. apply in_allWrites in W1.
      destruct W1 as [e' [f' [i' [I' [p' [c' [H1 [H2 [H3 [H4 [H5 [H6 [H7 H8]]]]]]]]]]]]]. subst w.
      cbn [wIdx wKey wVal] in *. injection W2 as K1 K2 K3. subst I' p' c'.
      assert (f' = f) by (apply (qty_inj fs); assumption). subst f'. rewrite H7.
      unfold places in HP, H5. destruct (fLoc f) eqn:EL.
      * apply in_combine_seq in HP. apply in_combine_seq in H5. apply (written_agree cf g v); assumption.
      * exfalso. exact (NV f F EL).
      * rewrite (ER f F EL). reflexivity.
    + destruct (passes cf g (fGuard f) p I) eqn:EP.
      * exfalso. apply (W1 (mkWrite (fQty f, p, c) I (written cf v (fQty f) p c e i I))); [|reflexivity|reflexivity].
        apply INW. apply in_allWrites. exists e, f, i, I, p, c.
        split; [exact He|]. split; [exact Hi|]. split; [exact F|]. split; [exact S|]. split; [exact HP|]. split; [exact PC|].
        split; [exact EP|reflexivity].
      * rewrite W2, (alloc_own cf g fs old f p c N F S PC). rewrite nth_error_repeat; [reflexivity|].
        apply (places_size d g f e i I G He (NV f F) HP).
  - intros I HI HN. destruct (E3 (fQty f, p, c) I) as [[w [W1 [W2 [W3 W4]]]]|[W1 W2]].
    + exfalso. apply INW in W1. apply in_allWrites in W1.
      destruct W1 as [e' [f' [i' [I' [p' [c' [H1 [H2 [H3 [H4 [H5 [H6 [H7 H8]]]]]]]]]]]]]. subst w.
      cbn [wIdx wKey wVal] in *. injection W2 as K1 K2 K3. subst I' p' c'.
      assert (f' = f) by (apply (qty_inj fs); assumption). subst f'. exact (HN e' i' H1 H2 H5).
    + rewrite W2, (alloc_own cf g fs old f p c N F S PC). apply nth_error_repeat. exact HI.
Qed.

(** ** The corner next to a corner *)

Lemma inf_norm_nonneg : forall a b, (0 <= inf_norm a b)%Q.
Proof.
  intros a b. unfold inf_norm. induction (combine a b) as [|xy l IH]; simpl; [apply Qle_refl|].
  apply Qle_trans with (1 := IH). apply Q.le_max_r.
Qed.

Lemma inf_norm_le : forall a b B, (0 <= B)%Q -> (forall x y, In (x, y) (combine a b) -> Qabs (x - y) <= B)%Q -> (inf_norm a b <= B)%Q.
Proof.
  intros a b B HB. unfold inf_norm. induction (combine a b) as [|[x y] l IH]; intro H; simpl; [exact HB|].
  apply Q.max_lub; [apply H; left; reflexivity|]. apply IH. intros x' y' H'. apply H. right. exact H'.
Qed.

Lemma inf_norm_self : forall a, (inf_norm a a <= 0)%Q.
Proof.
  intro a. apply inf_norm_le; [apply Qle_refl|]. intros x y H.
  assert (E : x = y). { induction a as [|z t IH]; simpl in H; [destruct H|]. destruct H as [H|H]; [congruence|apply IH; exact H]. }
  subst y. setoid_replace (x - x)%Q with 0%Q by ring. apply Qle_refl.
Qed.

Lemma inf_norm_apart : forall a b d, length a = length b -> d < length a -> ~ (nth d a 0 == nth d b 0)%Q -> (0 < inf_norm a b)%Q.
Proof.
  induction a as [|x a IH]; intros b d L D H; simpl in D; [lia|]. destruct b as [|y b]; [discriminate L|].
  unfold inf_norm. cbn [combine fold_right fst snd]. fold (inf_norm a b). destruct d as [|d].
  - simpl in H. apply Qlt_le_trans with (Qabs (x - y)); [|apply Q.le_max_l].
    apply Qabs_case; intros; lra.
  - apply Qlt_le_trans with (inf_norm a b); [|apply Q.le_max_r].
    apply (IH b d); [simpl in L; lia|lia|exact H].
Qed.

Lemma nearestFrom_stuck : forall cs xi k best m, (best <= 0)%Q -> nearestFrom cs xi k best m = m.
Proof.
  induction cs as [|c t IH]; intros xi k best m H; simpl; [reflexivity|].
  assert (E : Qle_bool best (inf_norm c xi) = true).
  { apply Qle_bool_iff. apply Qle_trans with 0%Q; [exact H|apply inf_norm_nonneg]. }
  rewrite E. apply IH. exact H.
Qed.

Lemma nearestFrom_find : forall pre c post xi k best m, (0 < best)%Q -> (inf_norm c xi <= 0)%Q ->
  (forall a, In a pre -> 0 < inf_norm a xi)%Q -> nearestFrom (pre ++ c :: post) xi k best m = Some (k + length pre).
Proof.
  induction pre as [|a t IH]; intros c post xi k best m B C H; simpl.
  - destruct (Qle_bool best (inf_norm c xi)) eqn:E.
    + apply Qle_bool_iff in E. lra.
    + rewrite nearestFrom_stuck by exact C. f_equal. lia.
  - destruct (Qle_bool best (inf_norm a xi)) eqn:E.
    + rewrite IH; [f_equal; lia|exact B|exact C|]. intros a' Ha'. apply H. right. exact Ha'.
    + rewrite IH; [f_equal; lia| |exact C|]; [apply H; left; reflexivity|]. intros a' Ha'. apply H. right. exact Ha'.
Qed.

Lemma nearest_corner : forall cs k, cornersOk cs -> k < length cs -> nearest cs (nth k cs []) = Some k.
Proof.
  intros cs k [C1 [C2 C3]] K. unfold nearest.
  destruct (nth_split cs [] K) as [pre [post [E L]]].
  rewrite E at 1. rewrite nearestFrom_find.
  - rewrite L. reflexivity.
  - reflexivity.
  - apply inf_norm_self.
  - intros a Ha. destruct (In_nth pre a [] Ha) as [j [J1 J2]].
    assert (J3 : nth j cs [] = a) by (rewrite E, app_nth1 by exact J1; exact J2).
    assert (J4 : j < length cs) by lia.
    destruct (C2 j k J4 K) as [d [D1 D2]]; [lia|]. rewrite J3 in D1, D2.
    apply (inf_norm_apart a (nth k cs []) d); [|exact D1|exact D2].
    apply C1; [rewrite <- J3; apply nth_In; exact J4|apply nth_In; exact K].
Qed.

(** ** The entries of the file *)

Definition entryOf (cf : config) (d : disc) (f : field) (p c : nat) : entry :=
  mkEntry (fieldName cf f p c) (placeOf d (fLoc f))
          (match fShape f with TensorShape => map (fun row => (fQty f, row, c)) (seq 0 (dimWorld cf)) | _ => [(fQty f, p, c)] end).

Lemma in_pairs : forall n m p c, In (p, c) (pairs n m) <-> p < n /\ c < m.
Proof.
  intros n m p c. unfold pairs. rewrite in_flat_map. split.
  - intros [i [H1 H2]]. apply in_map_iff in H2. destruct H2 as [j [H2 H3]]. injection H2 as K1 K2. subst.
    apply in_seq in H1. apply in_seq in H3. lia.
  - intros [H1 H2]. exists p. split; [apply in_seq; lia|]. apply in_map_iff. exists c. split; [reflexivity|apply in_seq; lia].
Qed.

Lemma commit_in : forall cf d f p c, selected cf f = true -> In (p, c) (subs cf (fShape f)) -> In (entryOf cf d f p c) (commitField cf d f).
Proof.
  intros cf d f p c S H. unfold commitField, entryOf, fieldName. rewrite S.
  destruct (fShape f);
    try (apply in_map_iff; exists (p, c); split; [reflexivity|exact H]).
  - cbn [subs] in H. apply in_pairs in H. destruct H as [H1 H2].
    apply in_map_iff. exists c. split; [reflexivity|apply in_seq; lia].
Qed.

Lemma commit_out : forall cf d f en, In en (commitField cf d f) ->
  selected cf f = true /\ exists p c, In (p, c) (subs cf (fShape f)) /\ en = entryOf cf d f p c.
Proof.
  intros cf d f en H. unfold commitField in H. destruct (selected cf f) eqn:S; [|destruct H].
  split; [reflexivity|]. unfold entryOf, fieldName.
  destruct (fShape f);
    try (apply in_map_iff in H; destruct H as [[p c] [H1 H2]]; exists p, c; split; [exact H2|symmetry; exact H1]).
  - apply in_map_iff in H. destruct H as [c [H1 H2]]. apply in_seq in H2.
    exists c, c. split; [apply in_pairs; lia|symmetry; exact H1].
Qed.

Lemma entry_component : forall cf d f p c, In (p, c) (subs cf (fShape f)) ->
  nth_error (eComps (entryOf cf d f p c)) (fieldComp f p) = Some (fQty f, p, c).
Proof.
  intros cf d f p c H. unfold entryOf, fieldComp. cbn [eComps]. destruct (fShape f); try reflexivity.
  cbn [subs] in H. apply in_pairs in H. cbv iota.
  apply (map_nth_error (fun row : nat => ((fQty f, row, c) : key)) p (seq 0 (dimWorld cf))).
  rewrite (nth_error_nth' _ 0) by (rewrite seq_length; lia). rewrite seq_nth by lia. reflexivity.
Qed.

(** The place of the buffer which is read for a corner is the one which was written. *)
Lemma evaluate_place : forall cf d g b f p c e k, gridOk d g -> fLoc f <> VertexBuffer -> In (p, c) (subs cf (fShape f)) ->
  e < numElements g -> k < length (cornerVertices g e) ->
  evaluate g b (entryOf cf d f p c) (fieldComp f p) e (nth k (cornerPositions g e) []) =
    nth_error (b (fQty f, p, c)) (match fLoc f with ElementBuffer => e | _ => dofSeen d g e k end) /\
  In (match fLoc f with ElementBuffer => 0 | _ => localSeen d k end,
      match fLoc f with ElementBuffer => e | _ => dofSeen d g e k end) (places g f e).
Proof.
  intros cf d g b f p c e k [G1 G2 G3] NV PC He Hk. destruct (G3 e He) as [C1 C2].
  assert (NK : nth_error (cornerVertices g e) k = Some (nth k (cornerVertices g e) 0)) by (apply nth_error_nth'; exact Hk).
  split.
  - unfold evaluate. rewrite entry_component by exact PC. unfold entryOf. cbn [ePlace].
    destruct (fLoc f); [|contradiction|reflexivity]. unfold dofSeen. destruct d; [reflexivity|]. cbn [placeOf].
    rewrite nearest_corner; [|exact C2|lia]. rewrite NK. reflexivity.
  - unfold places. destruct (fLoc f); [|contradiction|left; reflexivity].
    apply in_combine_seq. unfold localSeen, dofSeen.
    destruct d; destruct G1 as [E1 E2]; rewrite E2 by exact He; [reflexivity|exact NK].
Qed.

(** ** The tables of fields *)

Fixpoint nodupb (l : list qty) : bool :=
  match l with [] => true | a :: t => negb (existsb (qty_beq a) t) && nodupb t end.

Lemma nodupb_ok : forall l, nodupb l = true -> NoDup l.
Proof.
  induction l as [|a t IH]; intro H; [constructor|]. simpl in H. apply andb_true_iff in H. destruct H as [H1 H2].
  constructor; [|apply IH; exact H2]. intro I. apply negb_true_iff in H1.
  assert (existsb (qty_beq a) t = true) by (apply existsb_exists; exists a; split; [exact I|apply internal_qty_dec_lb; reflexivity]).
  congruence.
Qed.

Definition forModels (P : list field -> bool) : bool :=
  forallb (fun m => forallb (fun a => forallb (fun b => forallb (fun c => forallb (fun d => forallb (fun e =>
    P (fieldsOf m (mkSwitches a b c d e))) [true; false]) [true; false]) [true; false]) [true; false]) [true; false])
    [Immiscible; Flash; PtFlash; Ncp; Pvs; Richards; DiscreteFracture; BlackOil].

Lemma forModels_ok : forall P, forModels P = true -> forall m w, P (fieldsOf m w) = true.
Proof.
  intros P H m [a b c d e]. unfold forModels in H.
  assert (B : forall x : bool, In x [true; false]) by (destruct x; simpl; auto).
  rewrite forallb_forall in H. assert (M : In m [Immiscible; Flash; PtFlash; Ncp; Pvs; Richards; DiscreteFracture; BlackOil]).
  { destruct m; simpl; tauto. }
  specialize (H m M). rewrite forallb_forall in H. specialize (H a (B a)).
  rewrite forallb_forall in H. specialize (H b (B b)). rewrite forallb_forall in H. specialize (H c (B c)).
  rewrite forallb_forall in H. specialize (H d (B d)). rewrite forallb_forall in H. exact (H e (B e)).
Qed.

Lemma fields_nodup : forall m w, NoDup (map fQty (fieldsOf m w)).
Proof. intros m w. apply nodupb_ok. apply (forModels_ok (fun fs => nodupb (map fQty fs))). vm_compute. reflexivity. Qed.

Definition isLoc (t : bufferType) (f : field) : bool :=
  match fLoc f, t with DofBuffer, DofBuffer | VertexBuffer, VertexBuffer | ElementBuffer, ElementBuffer => true | _, _ => false end.

Lemma fields_novertex : forall m w, noVertexBuffers (fieldsOf m w).
Proof.
  intros m w f F E.
  assert (H : forallb (fun f => negb (isLoc VertexBuffer f)) (fieldsOf m w) = true).
  { apply (forModels_ok (fun fs => forallb (fun f => negb (isLoc VertexBuffer f)) fs)). vm_compute. reflexivity. }
  rewrite forallb_forall in H. specialize (H f F). unfold isLoc in H. rewrite E in H. discriminate H.
Qed.

Lemma fields_rank : forall m w, elementRank (fieldsOf m w).
Proof.
  intros m w f F E.
  assert (H : forallb (fun f => implb (isLoc ElementBuffer f) (qty_beq (fQty f) ProcessRank)) (fieldsOf m w) = true).
  { apply (forModels_ok (fun fs => forallb (fun f => implb (isLoc ElementBuffer f) (qty_beq (fQty f) ProcessRank)) fs)).
    vm_compute. reflexivity. }
  rewrite forallb_forall in H. specialize (H f F). unfold isLoc in H. rewrite E in H. apply internal_qty_dec_bl. exact H.
Qed.

Lemma fields_expected : forall m w f, In f (fieldsOf m w) -> In (head (fPattern f), fQty f) expectedQty.
Proof.
  intros m w f F.
  set (chk := fun f : field => existsb (fun e : string * qty => String.eqb (head (fPattern f)) (fst e) && qty_beq (fQty f) (snd e)) expectedQty).
  assert (H : forallb chk (fieldsOf m w) = true).
  { apply (forModels_ok (fun fs => forallb chk fs)). vm_compute. reflexivity. }
  rewrite forallb_forall in H. specialize (H f F). unfold chk in H. apply existsb_exists in H.
  destruct H as [[s q] [H1 H2]]. cbn [fst snd] in H2. apply andb_true_iff in H2. destruct H2 as [H2 H3].
  apply String.eqb_eq in H2. apply internal_qty_dec_bl in H3. rewrite H2, H3. exact H1.
Qed.
