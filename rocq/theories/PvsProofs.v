From Verif Require Import PvsModel PvsSpec.

(** * Sums *)
Lemma fold_add : forall (f : nat -> Q) l a, fold_left (fun a i => a + f i) l a == a + fold_left (fun a i => a + f i) l 0.
Proof.
  intros f l. induction l as [|i l IH]; intros a; cbn [fold_left]; [ring|].
  rewrite IH, (IH (0 + f i)). ring.
Qed.
Lemma sum_nil f : sum [] f = 0. Proof. reflexivity. Qed.
Lemma sum_cons : forall i l f, sum (i :: l) f == f i + sum l f.
Proof. intros. unfold sum. cbn [fold_left]. rewrite fold_add. ring. Qed.
Lemma sum_app : forall l m f, sum (l ++ m) f == sum l f + sum m f.
Proof.
  intros l m f. induction l as [|i l IH]; cbn [app]; [rewrite sum_nil; ring|].
  rewrite !sum_cons, IH. ring.
Qed.
Lemma sum_total : forall n f, sum (seq 0 n) f == total n f.
Proof.
  induction n as [|n IH]; intros f; [reflexivity|].
  rewrite seq_S, sum_app, IH, sum_cons, sum_nil. cbn [total plus]. ring.
Qed.
Lemma sum_ext : forall l f g, (forall i, In i l -> f i == g i) -> sum l f == sum l g.
Proof.
  induction l as [|i l IH]; intros f g H; [reflexivity|].
  rewrite !sum_cons, (H i (or_introl eq_refl)), (IH f g); [reflexivity|]. intros j J. apply H. right. exact J.
Qed.
Lemma total_ext : forall n f g, (forall i, (i < n)%nat -> f i == g i) -> total n f == total n g.
Proof.
  induction n as [|n IH]; intros f g H; cbn [total]; [reflexivity|].
  rewrite (IH f g), (H n); [reflexivity|lia|]. intros i I. apply H. lia.
Qed.
Lemma total_one : forall n f k, (k < n)%nat -> total n f == f k + total n (fun i => if (i =? k)%nat then 0 else f i).
Proof.
  induction n as [|n IH]; intros f k K; [lia|]. cbn [total].
  destruct (Nat.eq_dec k n) as [->|N].
  - rewrite Nat.eqb_refl.
    rewrite (total_ext n f (fun i => if (i =? n)%nat then 0 else f i)); [ring|].
    intros i I. destruct (Nat.eqb_spec i n); [lia|reflexivity].
  - rewrite (IH f k) by lia. destruct (Nat.eqb_spec n k); [lia|]. ring.
Qed.
Lemma total_shift : forall n f, total (S n) f == f 0%nat + total n (fun i => f (S i)).
Proof.
  induction n as [|n IH]; intros f; [cbn; ring|].
  cbn [total] in *. rewrite (IH f). ring.
Qed.
Lemma total_nonneg : forall n f, (forall i, (i < n)%nat -> 0 <= f i) -> 0 <= total n f.
Proof.
  induction n as [|n IH]; intros f H; cbn [total]; [lra|].
  assert (0 <= total n f) by (apply IH; intros; apply H; lia). assert (0 <= f n) by (apply H; lia). lra.
Qed.

(** * Bits *)
Lemma shiftl_bit : forall i j, (0 <= j)%Z ->
  Z.testbit (Z.shiftl 1 (Z.of_nat i)) j = (j =? Z.of_nat i)%Z.
Proof.
  intros i j J. rewrite Z.shiftl_1_l. destruct (Z.eqb_spec j (Z.of_nat i)) as [->|N].
  - apply Z.pow2_bits_true. lia.
  - apply Z.pow2_bits_false. congruence.
Qed.

Lemma present_testbit : forall i p, phaseIsPresent i p = Z.testbit p (Z.of_nat i).
Proof.
  intros i p. unfold phaseIsPresent.
  destruct (Z.testbit p (Z.of_nat i)) eqn:E.
  - apply negb_true_iff, Z.eqb_neq. intros H.
    assert (X : Z.testbit (Z.land p (Z.shiftl 1 (Z.of_nat i))) (Z.of_nat i) = true).
    { rewrite Z.land_spec, E, shiftl_bit by lia. rewrite Z.eqb_refl. reflexivity. }
    rewrite H, Z.bits_0 in X. discriminate.
  - apply negb_false_iff, Z.eqb_eq. apply Z.bits_inj'. intros n N.
    rewrite Z.land_spec, shiftl_bit, Z.bits_0 by exact N.
    destruct (Z.eqb_spec n (Z.of_nat i)) as [->|]; [rewrite E|rewrite andb_false_r]; reflexivity.
Qed.

Lemma set_present : forall i b v j,
  phaseIsPresent j (presence (setPhasePresent i b v)) = if (j =? i)%nat then b else phaseIsPresent j (presence v).
Proof.
  intros i b v j. rewrite !present_testbit. cbn [presence setPhasePresent].
  destruct b.
  - rewrite Z.lor_spec, shiftl_bit by lia. destruct (Nat.eqb_spec j i) as [->|N].
    + rewrite Z.eqb_refl, orb_true_r. reflexivity.
    + destruct (Z.eqb_spec (Z.of_nat j) (Z.of_nat i)); [lia|]. rewrite orb_false_r. reflexivity.
  - rewrite Z.land_spec, Z.lnot_spec, shiftl_bit by lia. destruct (Nat.eqb_spec j i) as [->|N].
    + rewrite Z.eqb_refl, andb_false_r. reflexivity.
    + destruct (Z.eqb_spec (Z.of_nat j) (Z.of_nat i)); [lia|]. rewrite andb_true_r. reflexivity.
Qed.

Lemma find_seq : forall (f : nat -> bool) n a k, find f (seq a n) = Some k ->
  f k = true /\ (a <= k < a + n)%nat /\ forall j, (a <= j < k)%nat -> f j = false.
Proof.
  intros f. induction n as [|n IH]; intros a k H; cbn in H; [discriminate|].
  destruct (f a) eqn:E.
  - injection H as <-. split; [exact E|]. split; [lia|]. intros j J. lia.
  - destruct (IH (S a) k H) as [I1 [I2 I3]]. split; [exact I1|]. split; [lia|].
    intros j J. destruct (Nat.eq_dec j a) as [->|N]; [exact E|]. apply I3. lia.
Qed.

Lemma lowest_some : forall p k, lowest p = Some k ->
  phaseIsPresent k p = true /\ forall j, (j < k)%nat -> phaseIsPresent j p = false.
Proof.
  intros p k H. destruct (find_seq _ _ _ _ H) as [A [B D]]. split; [exact A|]. intros j J. apply D. lia.
Qed.

Lemma lowest_none : forall p j, lowest p = None -> (j < 15)%nat -> phaseIsPresent j p = false.
Proof. intros p j H J. apply (find_none _ _ H). apply in_seq. lia. Qed.

Lemma puts : forall (g : pvars -> nat -> Q) (pos : nat -> nat) l v,
  (forall i j, pos i = pos j -> i = j) -> NoDup l ->
  (forall w w' i, presence w = presence w' -> g w i = g w' i) ->
  let w := fold_left (fun v i => put (pos i) (g v i) v) l v in
  presence w = presence v /\
  (forall i, In i l -> pv w (pos i) = g v i) /\
  (forall k, (forall i, In i l -> k <> pos i) -> pv w k = pv v k).
Proof.
  intros g pos l. induction l as [|a l IH]; intros v INJ ND PR; cbn [fold_left]; cbv zeta.
  - split; [reflexivity|]. split; [intros i []|reflexivity].
  - apply NoDup_cons_iff in ND as [NA ND].
    destruct (IH (put (pos a) (g v a) v) INJ ND PR) as [I1 [I2 I3]]. cbv zeta in I1, I2, I3.
    split; [rewrite I1; reflexivity|]. split.
    + intros i [<-|I].
      * rewrite I3; [cbn; rewrite Nat.eqb_refl; reflexivity|].
        intros j J E. apply INJ in E. congruence.
      * rewrite (I2 i I). apply PR. reflexivity.
    + intros k K. rewrite I3 by (intros i I; apply K; right; exact I).
      cbn. destruct (Nat.eqb_spec k (pos a)) as [E|]; [|reflexivity].
      exfalso. apply (K a (or_introl eq_refl) E).
Qed.

Lemma filter_ext_length : forall (f g : nat -> bool) l, (forall i, In i l -> f i = g i) ->
  length (filter f l) = length (filter g l).
Proof.
  intros f g l. induction l as [|a l IH]; intros H; [reflexivity|]. cbn [filter].
  rewrite (H a (or_introl eq_refl)). destruct (g a); cbn [length]; rewrite IH; auto; intros; apply H; right; assumption.
Qed.

Lemma filter_length_le : forall (f : nat -> bool) l, (length (filter f l) <= length l)%nat.
Proof. intros f l. induction l as [|a l IH]; cbn; [lia|]. destruct (f a); cbn; lia. Qed.

Lemma all_missing : forall (f : nat -> bool) l, length (filter f l) = length l -> forall i, In i l -> f i = true.
Proof.
  intros f l. induction l as [|a l IH]; intros H i I; [destruct I|]. cbn [filter] in H.
  pose proof (filter_length_le f l) as B.
  destruct (f a) eqn:E; cbn [length] in H; [|lia].
  destruct I as [<-|I]; [exact E|]. apply IH; [lia|exact I].
Qed.

Lemma some_positive : forall n f, total n f == 1 -> exists i, (i < n)%nat /\ 0 < f i.
Proof.
  intros n f H. assert (G : 0 < total n f) by (rewrite H; reflexivity). clear H.
  induction n as [|n IH]; cbn [total] in G; [lra|].
  destruct (Qlt_le_dec 0 (f n)) as [A|A]; [exists n; split; [lia|exact A]|].
  destruct IH as [i [I F]]; [lra|]. exists i. split; [lia|exact F].
Qed.

Section Pvs.
Variable P : nat.
Variable C : nat.
Variable off : nat.

Lemma closure_total : forall fs i, closure C fs i == 1 - total C (fs_x fs i).
Proof.
  intros fs i. unfold closure. rewrite <- sum_total. unfold sum.
  assert (G : forall l a b, a == 1 - b ->
     fold_left (fun a c => a - fs_x fs i c) l a == 1 - fold_left (fun a c => a + fs_x fs i c) l b).
  { induction l as [|c l IH]; intros a b E; cbn [fold_left]; [exact E|]. apply IH. rewrite E. ring. }
  apply G. ring.
Qed.

(** The present phases are the ones the condition selects. *)
Lemma found_spec : forall fs i,
  phaseIsPresent i (found_presence P C fs) = (i <? P)%nat && Qltb (closure C fs i) (fs_sat fs i).
Proof.
  intros fs i. unfold found_presence.
  assert (G : forall l p, phaseIsPresent i (fold_left (fun p i => if Qltb (closure C fs i) (fs_sat fs i)
                        then Z.lor p (Z.shiftl 1 (Z.of_nat i)) else p) l p) =
                phaseIsPresent i p || (existsb (Nat.eqb i) l && Qltb (closure C fs i) (fs_sat fs i))).
  { induction l as [|k l IH]; intros p; cbn [fold_left existsb]; [rewrite andb_false_l, orb_false_r; reflexivity|].
    rewrite IH. destruct (Nat.eqb_spec i k) as [->|N]; cbn [orb andb].
    - destruct (Qltb (closure C fs k) (fs_sat fs k)).
      + rewrite (present_testbit k (Z.lor _ _)), Z.lor_spec, shiftl_bit, Z.eqb_refl by lia.
        rewrite !orb_true_r. reflexivity.
      + rewrite andb_false_r, !orb_false_r. reflexivity.
    - f_equal. destruct (Qltb (closure C fs k) (fs_sat fs k)); [|reflexivity].
      rewrite !present_testbit, Z.lor_spec, shiftl_bit by lia.
      destruct (Z.eqb_spec (Z.of_nat i) (Z.of_nat k)); [lia|]. apply orb_false_r. }
  rewrite G, present_testbit, Z.bits_0. cbn [orb]. f_equal.
  destruct (Nat.ltb_spec i P) as [I|I].
  - apply existsb_exists. exists i. split; [apply in_seq; lia|apply Nat.eqb_refl].
  - destruct (existsb (Nat.eqb i) (seq 0 P)) eqn:E; [|reflexivity].
    apply existsb_exists in E as [k [K E]]. apply in_seq in K. apply Nat.eqb_eq in E. lia.
Qed.



(** * The loops *)

Lemma assigned : forall fs v v', assignNaive P C off fs v = Some v' ->
  presence v' = found_presence P C fs /\
  pv v' (pressure0Idx off) = fs_p fs 0 /\
  exists low, lowest (presence v') = Some low /\ (low < P)%nat /\
   phaseIsPresent low (presence v') = true /\
   (forall s, (s < P - 1)%nat -> pv v' (switch0Idx off + s)%nat =
      if phaseIsPresent (switchPhase low s) (presence v')
      then fs_sat fs (switchPhase low s) else fs_x fs low (s + 1)) /\
   (forall c, (P - 1 <= c < C - 1)%nat -> pv v' (switch0Idx off + c)%nat = fs_x fs low (c + 1)).
Proof.
  intros fs v v' H. unfold assignNaive in H. cbn [presence] in H.
  destruct (lowest (found_presence P C fs)) as [low|] eqn:EL; [|discriminate].
  set (v0 := mkPvars (pv (put (pressure0Idx off) (fs_p fs 0) v)) (found_presence P C fs)) in *.
  set (g := fun v s => if phaseIsPresent (switchPhase low s) (presence v)
                    then fs_sat fs (switchPhase low s) else fs_x fs low (s + 1)) in *.
  destruct (puts g (fun s => switch0Idx off + s)%nat (seq 0 (P - 1)) v0) as [A1 [A2 A3]];
    [intros; lia|apply seq_NoDup|intros w w' i E; unfold g; rewrite E; reflexivity|]. cbv zeta in A1, A2, A3.
  change (fun v s => put (switch0Idx off + s) (if phaseIsPresent (switchPhase low s) (presence v)
                    then fs_sat fs (switchPhase low s) else fs_x fs low (s + 1)) v)
    with (fun v i => put (switch0Idx off + i) (g v i) v) in H.
  set (v1 := fold_left (fun v i => put (switch0Idx off + i) (g v i) v) (seq 0 (P - 1)) v0) in *. clearbody v1.
  destruct (puts (fun _ c => fs_x fs low (c + 1)) (fun s => switch0Idx off + s)%nat (seq (P - 1) (C - 1 - (P - 1))) v1)
    as [B1 [B2 B3]]; [intros; lia|apply seq_NoDup|reflexivity|]. cbv zeta in B1, B2, B3.
  injection H as E. rewrite E in B1, B2, B3. clear E.
  assert (PR : presence v' = found_presence P C fs) by (rewrite B1, A1; reflexivity).
  split; [exact PR|].
  split.
  { rewrite B3 by (intros i _; unfold pressure0Idx, switch0Idx; lia).
    rewrite A3 by (intros i _; unfold pressure0Idx, switch0Idx; lia).
    unfold v0. cbn [pv put]. rewrite Nat.eqb_refl. reflexivity. }
  exists low. rewrite PR. split; [exact EL|].
  destruct (lowest_some _ _ EL) as [L1 L2].
  split; [rewrite found_spec in L1; apply andb_true_iff in L1 as [L1 _]; apply Nat.ltb_lt, L1|].
  split; [exact L1|]. split.
  - intros s S. rewrite B3.
    + rewrite A2 by (apply in_seq; lia). unfold g. unfold v0. reflexivity.
    + intros i I. apply in_seq in I. lia.
  - intros c K. apply B2, in_seq. lia.
Qed.

(** * Reading back *)
Lemma explicit_assigned : forall fs v v', assignNaive P C off fs v = Some v' ->
  forall low, lowest (presence v') = Some low ->
  forall i, (i < P)%nat -> explicitSaturation off v' i =
    if phaseIsPresent i (presence v') && negb (i =? low)%nat then fs_sat fs i else 0.
Proof.
  intros fs v v' H low L i I.
  destruct (assigned _ _ _ H) as [_ [_ [low' [L' [LP [PL [S1 _]]]]]]].
  assert (low' = low) by congruence. subst low'.
  unfold explicitSaturation. rewrite L.
  destruct (phaseIsPresent i (presence v')) eqn:E; cbn [negb orb andb]; [|reflexivity].
  destruct (Nat.eqb_spec i low) as [->|N]; cbn [negb]; [reflexivity|].
  destruct (lowest_some _ _ L) as [_ LL].
  assert (G : (low < i)%nat).
  { destruct (Nat.lt_ge_cases low i); [assumption|]. rewrite LL in E by lia. discriminate. }
  replace (switch0Idx off + i - 1)%nat with (switch0Idx off + (i - 1))%nat by (unfold switch0Idx; lia).
  rewrite S1 by lia. unfold switchPhase.
  destruct (Nat.leb_spec low (i - 1)); [|lia]. replace (S (i - 1)) with i by lia. rewrite E. reflexivity.
Qed.

Lemma saturations_back : forall fs v v', assignNaive P C off fs v = Some v' ->
  balanced P fs ->
  (forall i, (i < P)%nat -> phaseIsPresent i (presence v') = false -> fs_sat fs i == 0) ->
  forall i, (i < P)%nat -> read_saturation P off v' i == fs_sat fs i.
Proof.
  intros fs v v' H B Z i I.
  destruct (assigned _ _ _ H) as [_ [_ [low [L [LP [PL _]]]]]].
  unfold read_saturation. rewrite L.
  destruct (Nat.eqb_spec i low) as [->|N].
  - rewrite sum_total.
    rewrite (total_ext P (explicitSaturation off v') (fun j => if (j =? low)%nat then 0 else fs_sat fs j)).
    + unfold balanced in B. rewrite (total_one P (fs_sat fs) low LP) in B. rewrite <- B. ring.
    + intros j J. rewrite (explicit_assigned _ _ _ H _ L j J).
      destruct (Nat.eqb_spec j low); cbn [negb]; rewrite ?andb_false_r; [reflexivity|].
      destruct (phaseIsPresent j (presence v')) eqn:E; cbn [andb]; [reflexivity|].
      symmetry. apply Z; assumption.
  - rewrite (explicit_assigned _ _ _ H _ L i I).
    destruct (Nat.eqb_spec i low); [contradiction|]. cbn [negb]. rewrite andb_true_r.
    destruct (phaseIsPresent i (presence v')) eqn:E; [reflexivity|]. symmetry. apply Z; assumption.
Qed.

(** How many phases are missing. *)

Lemma missing_switches : forall p low, lowest p = Some low -> (low < P)%nat ->
  length (filter (fun s => negb (phaseIsPresent (switchPhase low s) p)) (seq 0 (P - 1))) =
  length (filter (fun i => negb (phaseIsPresent i p)) (seq 0 P)).
Proof.
  intros p low L LP. destruct (lowest_some _ _ L) as [L1 L2].
  assert (E1 : seq 0 P = seq 0 low ++ low :: seq (S low) (P - 1 - low)).
  { replace P with (low + (1 + (P - 1 - low)))%nat at 1 by lia. rewrite seq_app. reflexivity. }
  assert (E2 : seq 0 (P - 1) = seq 0 low ++ seq low (P - 1 - low)).
  { replace (P - 1)%nat with (low + (P - 1 - low))%nat at 1 by lia. rewrite seq_app. reflexivity. }
  rewrite E1, E2, !filter_app, !app_length. cbn [filter]. rewrite L1. cbn [negb].
  f_equal.
  - apply filter_ext_length. intros i I. apply in_seq in I. unfold switchPhase.
    destruct (Nat.leb_spec low i); [lia|reflexivity].
  - rewrite <- seq_shift. generalize (P - 1 - low)%nat as n. intros n.
    assert (G : forall n a, (low <= a)%nat ->
      length (filter (fun s => negb (phaseIsPresent (switchPhase low s) p)) (seq a n)) =
      length (filter (fun i => negb (phaseIsPresent i p)) (map S (seq a n)))).
    { clear -p. induction n as [|n IH]; intros a A; [reflexivity|]. cbn [seq map filter].
      unfold switchPhase at 1. destruct (Nat.leb_spec low a); [|lia].
      destruct (negb (phaseIsPresent (S a) p)); cbn [length]; rewrite IH by lia; reflexivity. }
    apply G. lia.
Qed.


Lemma missing_bound : forall p low, phaseIsPresent low p = true -> (low < P)%nat ->
  (length (filter (fun i => negb (phaseIsPresent i p)) (seq 0 P)) <= P - 1)%nat.
Proof.
  intros p low L LP.
  assert (E1 : seq 0 P = seq 0 low ++ low :: seq (S low) (P - 1 - low)).
  { replace P with (low + (1 + (P - 1 - low)))%nat at 1 by lia. rewrite seq_app. reflexivity. }
  rewrite E1, filter_app, app_length. cbn [filter]. rewrite L. cbn [negb].
  pose proof (filter_length_le (fun i => negb (phaseIsPresent i p)) (seq 0 low)) as A.
  pose proof (filter_length_le (fun i => negb (phaseIsPresent i p)) (seq (S low) (P - 1 - low))) as B.
  rewrite seq_length in A, B. lia.
Qed.

(** If only one phase is left, all switching variables are mole fractions. *)

Lemma composition_back : forall fs v v', assignNaive P C off fs v = Some v' ->
  forall low, lowest (presence v') = Some low ->
  (P <= C)%nat ->
  (numNonPresent P v' = P - 1 -> total C (fs_x fs low) == 1)%nat ->
  (forall p c q, In (p, c, q) (read_composition P C off v' low) ->
     p = low /\ (c < C)%nat /\ q == fs_x fs p c) /\
  (numNonPresent P v' = P - 1 ->
     length (read_composition P C off v' low) = C)%nat /\
  (numNonPresent P v' <> P - 1 ->
     length (read_composition P C off v' low) = C - (P - numNonPresent P v'))%nat.
Proof.
  intros fs v v' H low L PC SUM.
  destruct (assigned _ _ _ H) as [_ [_ [low' [L' [LP [PL [S1 S2]]]]]]].
  assert (low' = low) by congruence. subst low'. clear L'.
  pose proof (missing_switches _ _ L LP) as MS. pose proof (missing_bound _ _ PL LP) as MB.
  fold (numNonPresent P v') in MS, MB.
  unfold read_composition.
  destruct (Nat.eqb_spec (numNonPresent P v') (P - 1)) as [E|E].
  - assert (ALL : forall s, (s < P - 1)%nat -> phaseIsPresent (switchPhase low s) (presence v') = false).
    { intros s S. apply negb_true_iff.
      apply (all_missing (fun s => negb (phaseIsPresent (switchPhase low s) (presence v'))) (seq 0 (P - 1))).
      - rewrite seq_length, MS. exact E.
      - apply in_seq. lia. }
    assert (V : forall c, (1 <= c < C)%nat -> pv v' (switch0Idx off + c - 1)%nat = fs_x fs low c).
    { intros c K. replace (switch0Idx off + c - 1)%nat with (switch0Idx off + (c - 1))%nat by (unfold switch0Idx; lia).
      replace c with (c - 1 + 1)%nat at 2 by lia.
      destruct (Nat.lt_ge_cases (c - 1) (P - 1)) as [S|S].
      - rewrite (S1 _ S), (ALL _ S). reflexivity.
      - apply S2. lia. }
    split; [|split].
    + intros p c q I. apply in_app_or in I as [I|[I|[]]].
      * apply in_map_iff in I as [k [K I]]. apply in_seq in I. injection K as <- <- <-.
        split; [reflexivity|]. split; [lia|]. rewrite V by lia. reflexivity.
      * injection I as <- <- <-. split; [reflexivity|]. split; [lia|].
        specialize (SUM E). destruct C as [|n] eqn:EC; [lia|].
        rewrite total_shift in SUM. replace (S n - 1)%nat with n by lia.
        rewrite <- seq_shift.
        assert (X : forall l f, sum (map S l) f == sum l (fun i => f (S i))).
        { induction l as [|a l IH]; intros f; [reflexivity|]. cbn [map]. rewrite !sum_cons, IH. reflexivity. }
        rewrite X, sum_total.
        rewrite (total_ext n _ (fun i => fs_x fs low (S i))); [rewrite <- SUM; ring|].
        intros i I. rewrite V by lia. reflexivity.
    + intros _. rewrite app_length, map_length, seq_length. cbn [length]. lia.
    + intros K. congruence.
  - rewrite map_length. rewrite MS. cbv zeta.
    set (n := numNonPresent P v') in *.
    split; [|split].
    + intros p c q I. apply in_app_or in I as [I|I].
      * apply in_map_iff in I as [s [K I]]. apply filter_In in I as [I F]. apply in_seq in I.
        injection K as <- <- <-. split; [reflexivity|]. split; [lia|].
        rewrite S1 by lia. apply negb_true_iff in F. rewrite F.
        replace (S s) with (s + 1)%nat by lia. reflexivity.
      * apply in_map_iff in I as [a [K I]]. apply in_seq in I.
        injection K as <- <- <-. split; [reflexivity|]. split; [lia|].
        rewrite S2 by lia. replace (P - 1 + (a - n) + 1)%nat with (P - n + a)%nat by lia. reflexivity.
    + congruence.
    + intros _. rewrite app_length, !map_length, seq_length, MS. lia.
Qed.

(** * Presence in equilibrium *)
Lemma presence_equilibrium : forall fs, equilibrium P C fs -> forall i, (i < P)%nat ->
  phaseIsPresent i (found_presence P C fs) = Qltb 0 (fs_sat fs i).
Proof.
  intros fs EQ i I. rewrite found_spec. destruct (Nat.ltb_spec i P) as [_|]; [|lia]. cbn [andb].
  destruct (EQ i I) as [E1 [E2 E3]]. pose proof (closure_total fs i) as CT.
  destruct (Qltb 0 (fs_sat fs i)) eqn:E.
  - apply Qltb_lt in E. apply Qltb_lt. rewrite CT, (E3 E). lra.
  - apply Qltb_ge in E. apply Qltb_ge. rewrite CT. lra.
Qed.


Hypothesis P15 : (P <= 15)%nat.

Lemma assign_total : forall fs v,
  (exists i, (i < P)%nat /\ 1 - total C (fs_x fs i) < fs_sat fs i) <-> assignNaive P C off fs v <> None.
Proof.
  intros fs v. unfold assignNaive. cbn [presence]. split.
  - intros [i [I H]]. destruct (lowest (found_presence P C fs)) eqn:E; [discriminate|].
    assert (F : phaseIsPresent i (found_presence P C fs) = false) by (apply lowest_none; [exact E|lia]).
    rewrite found_spec in F. destruct (Nat.ltb_spec i P); [|lia]. cbn [andb] in F.
    apply Qltb_ge in F. rewrite (closure_total fs i) in F. lra.
  - intros H. destruct (lowest (found_presence P C fs)) as [low|] eqn:E; [|congruence].
    destruct (lowest_some _ _ E) as [L _]. rewrite found_spec in L. apply andb_true_iff in L as [L1 L2].
    apply Nat.ltb_lt in L1. apply Qltb_lt in L2. exists low. split; [exact L1|].
    rewrite (closure_total fs low) in L2. lra.
Qed.
End Pvs.
