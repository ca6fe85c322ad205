From Verif Require Import PvsModel PvsSpec PvsProofs.

(** * Elementary functions *)
Lemma qabs_le : forall x m, qabs x <= m <-> - m <= x /\ x <= m.
Proof.
  intros x m. unfold qabs. destruct (Qltb x 0) eqn:E; [apply Qltb_lt in E|apply Qltb_ge in E]; split; intros; try split; lra.
Qed.
Lemma qmax_ub : forall a b, a <= qmax a b /\ b <= qmax a b.
Proof. intros a b. unfold qmax. destruct (Qltb a b) eqn:E; [apply Qltb_lt in E|apply Qltb_ge in E]; lra. Qed.
Lemma qmax_case : forall a b, (qmax a b = a /\ b <= a) \/ (qmax a b = b /\ a <= b).
Proof. intros a b. unfold qmax. destruct (Qltb a b) eqn:E; [apply Qltb_lt in E|apply Qltb_ge in E]; [right|left]; split; auto; lra. Qed.
Lemma qmin_case : forall a b, (qmin a b = a /\ a <= b) \/ (qmin a b = b /\ b <= a).
Proof. intros a b. unfold qmin. destruct (Qltb b a) eqn:E; [apply Qltb_lt in E|apply Qltb_ge in E]; [right|left]; split; auto; lra. Qed.

Lemma fold_max : forall (u : nat -> Q) l m0,
  m0 <= fold_left (fun m i => qmax (qabs (u i)) m) l m0 /\
  forall i, In i l -> qabs (u i) <= fold_left (fun m i => qmax (qabs (u i)) m) l m0.
Proof.
  intros u l. induction l as [|a l IH]; intros m0; cbn [fold_left].
  - split; [lra|intros i []].
  - destruct (IH (qmax (qabs (u a)) m0)) as [A B]. destruct (qmax_ub (qabs (u a)) m0) as [M1 M2].
    split; [lra|]. intros i [<-|I]; [lra|apply B, I].
Qed.

Lemma maxSat_bounds : forall l u,
  - maxSatDelta l u <= sum l u <= maxSatDelta l u /\
  forall i, In i l -> - maxSatDelta l u <= u i <= maxSatDelta l u.
Proof.
  intros l u. unfold maxSatDelta.
  destruct (fold_max u l 0) as [_ F].
  destruct (qmax_ub (qabs (- sum l u)) (fold_left (fun m i => qmax (qabs (u i)) m) l 0)) as [M1 M2].
  split.
  - apply qabs_le in M1. lra.
  - intros i I. apply qabs_le. specialize (F i I). lra.
Qed.

(** The factor by which all deltas are multiplied. *)
Definition factor (m : Q) : Q := if Qltb (1#5) m then (1#5) / m else 1.
Lemma factor_bound : forall m d, - m <= d -> d <= m -> - (1#5) <= factor m * d /\ factor m * d <= 1#5.
Proof.
  intros m d A B. unfold factor. destruct (Qltb (1#5) m) eqn:E; [apply Qltb_lt in E|apply Qltb_ge in E].
  - assert (M : 0 < m) by lra.
    assert (R : (1#5) / m * m == 1#5) by (field; lra).
    assert (S : 0 <= (1#5) / m).
    { apply Qle_shift_div_l; [exact M|]. lra. }
    set (s := (1#5) / m) in *. clearbody s. nra.
  - lra.
Qed.
Lemma factor_range : forall m, 0 <= factor m.
Proof.
  intros m. unfold factor. destruct (Qltb (1#5) m) eqn:E; [apply Qltb_lt in E|lra].
  apply Qle_shift_div_l; lra.
Qed.

Lemma clamp_pressure : forall val cur, within ((1#5) * qabs cur) (clampValue val (cur * (8#10)) (cur * (12#10))) cur.
Proof.
  intros val cur. unfold clampValue, within, qabs.
  destruct (Qltb cur 0) eqn:E; [apply Qltb_lt in E|apply Qltb_ge in E];
  destruct (qmin_case val (cur * (12#10))) as [[-> ?]|[-> ?]];
  match goal with |- context [qmax ?a ?b] => destruct (qmax_case a b) as [[-> ?]|[-> ?]] end; lra.
Qed.

Section Pvs.
Variable P : nat.
Variable off : nat.

Lemma limited_in : forall cur i, In i (limited_phases P cur) <-> (i < P - 1)%nat /\ phaseIsPresent i (presence cur) = true.
Proof. intros. unfold limited_phases. rewrite filter_In, in_seq. split; intros [A B]; split; auto; lia. Qed.

Lemma pvs_update_spec : forall cur upd,
  let w := pvs_update P off cur upd in
  let u i := upd (switch0Idx off + i)%nat in
  let s := factor (maxSatDelta (limited_phases P cur) u) in
  presence w = presence cur /\
  within ((1#5) * qabs (pv cur (pressure0Idx off))) (pv w (pressure0Idx off)) (pv cur (pressure0Idx off)) /\
  (forall i, In i (limited_phases P cur) -> pv w (switch0Idx off + i)%nat == pv cur (switch0Idx off + i)%nat - s * u i) /\
  (forall k, k <> pressure0Idx off -> (forall i, In i (limited_phases P cur) -> k <> switch0Idx off + i)%nat ->
     pv w k = pv cur k - upd k).
Proof.
  intros cur upd w u s.
  set (next0 := mkPvars (fun j => pv cur j - upd j) (presence cur)).
  set (m := maxSatDelta (limited_phases P cur) u) in *.
  set (next1 := if Qltb (1#5) m then
      fold_left (fun v i => put (switch0Idx off + i)
                              (pv cur (switch0Idx off + i) - (1#5) / m * u i) v)
        (limited_phases P cur) next0
    else next0).
  assert (W : w = put (pressure0Idx off) (clampValue (pv next1 (pressure0Idx off))
                      (pv cur (pressure0Idx off) * (8#10)) (pv cur (pressure0Idx off) * (12#10))) next1) by reflexivity.
  assert (N1 : presence next1 = presence cur /\
    (forall i, In i (limited_phases P cur) -> pv next1 (switch0Idx off + i)%nat == pv cur (switch0Idx off + i)%nat - s * u i) /\
    (forall k, (forall i, In i (limited_phases P cur) -> k <> switch0Idx off + i)%nat -> pv next1 k = pv cur k - upd k)).
  { unfold next1, s, factor. destruct (Qltb (1#5) m).
    - destruct (puts (fun _ i => pv cur (switch0Idx off + i) - (1#5) / m * u i) (fun i => switch0Idx off + i)%nat
        (limited_phases P cur) next0) as [A1 [A2 A3]];
        [intros; lia|apply NoDup_filter, seq_NoDup|reflexivity|]. cbv zeta in A1, A2, A3.
      split; [rewrite A1; reflexivity|]. split.
      + intros i I. rewrite (A2 i I). reflexivity.
      + intros k K. rewrite A3 by exact K. reflexivity.
    - split; [reflexivity|]. split; [|reflexivity]. intros i I. unfold next0. cbn [pv]. unfold u. ring. }
  clearbody next1. destruct N1 as [A1 [A2 A3]]. rewrite W.
  split; [exact A1|]. split.
  { cbn [pv put]. rewrite Nat.eqb_refl. apply clamp_pressure. }
  split.
  - intros i I. cbn [pv put]. destruct (Nat.eqb_spec (switch0Idx off + i) (pressure0Idx off)) as [E|];
      [unfold switch0Idx, pressure0Idx in E; lia|]. apply A2, I.
  - intros k K1 K2. cbn [pv put]. destruct (Nat.eqb_spec k (pressure0Idx off)); [contradiction|]. apply A3, K2.
Qed.

(** Present phases form an interval. *)
Lemma explicit_limited : forall cur low i, lowest (presence cur) = Some low ->
  interval (presence cur) -> (i < P)%nat -> phaseIsPresent i (presence cur) = true -> i <> low ->
  In (i - 1)%nat (limited_phases P cur) /\ (low <= i - 1)%nat /\ (1 <= i)%nat.
Proof.
  intros cur low i L IV I PR N. destruct (lowest_some _ _ L) as [L1 L2].
  assert (G : (low < i)%nat).
  { destruct (Nat.lt_ge_cases low i); [assumption|]. rewrite L2 in PR by lia. discriminate. }
  split; [|lia]. apply limited_in. split; [lia|].
  destruct (Nat.eq_dec (i - 1) low) as [->|M]; [exact L1|]. apply (IV low (i - 1)%nat i); auto; lia.
Qed.

Lemma explicit_change : forall cur upd low i, lowest (presence cur) = Some low ->
  interval (presence cur) -> (i < P)%nat ->
  explicitSaturation off (pvs_update P off cur upd) i ==
  explicitSaturation off cur i -
   (if phaseIsPresent i (presence cur) && negb (i =? low)%nat
    then factor (maxSatDelta (limited_phases P cur) (fun i => upd (switch0Idx off + i)%nat)) * upd (switch0Idx off + (i - 1))%nat
    else 0).
Proof.
  intros cur upd low i L IV I.
  destruct (pvs_update_spec cur upd) as [A1 [_ [A3 _]]]. cbv zeta in A1, A3.
  unfold explicitSaturation. rewrite A1, L.
  destruct (phaseIsPresent i (presence cur)) eqn:PR; cbn [negb orb andb]; [|ring].
  destruct (Nat.eqb_spec i low) as [E|N]; cbn [negb]; [ring|].
  destruct (explicit_limited cur low i L IV I PR N) as [IN [G1 G2]].
  replace (switch0Idx off + i - 1)%nat with (switch0Idx off + (i - 1))%nat by lia.
  apply A3, IN.
Qed.

Lemma total_minus : forall n f g, total n (fun i => f i - g i) == total n f - total n g.
Proof. induction n as [|n IH]; intros f g; cbn [total]; [ring|]. rewrite IH. ring. Qed.
Lemma total_scale : forall n s f, total n (fun i => s * f i) == s * total n f.
Proof. induction n as [|n IH]; intros s f; cbn [total]; [ring|]. rewrite IH. ring. Qed.
Lemma total_zero : forall n f, (forall i, (i < n)%nat -> f i == 0) -> total n f == 0.
Proof.
  induction n as [|n IH]; intros f H; cbn [total]; [reflexivity|]. rewrite (IH f), (H n); [ring|lia|].
  intros i I. apply H. lia.
Qed.

Lemma sum_filter : forall (p : nat -> bool) u l, sum (filter p l) u == sum l (fun i => if p i then u i else 0).
Proof.
  intros p u l. induction l as [|a l IH]; [reflexivity|]. cbn [filter]. rewrite sum_cons.
  destruct (p a); [rewrite sum_cons|]; rewrite IH; ring.
Qed.

Lemma count_two : forall (p : nat -> bool) n, (length (filter (fun i => negb (p i)) (seq 0 n)) >= n - 2)%nat ->
  forall i j k, (i < j < k)%nat -> (k < n)%nat -> p i = true -> p j = true -> p k = true -> False.
Proof.
  intros p n H i j k IJ K A B D.
  assert (E : seq 0 n = seq 0 i ++ i :: seq (S i) (j - S i) ++ j :: seq (S j) (k - S j) ++ k :: seq (S k) (n - S k)).
  { replace n with (i + (1 + ((j - S i) + (1 + ((k - S j) + (1 + (n - S k)))))))%nat at 1 by lia.
    rewrite seq_app. f_equal. cbn [seq plus]. f_equal. rewrite seq_app. f_equal.
    replace (S i + (j - S i))%nat with j by lia. cbn [seq plus]. f_equal. rewrite seq_app. f_equal.
    replace (S j + (k - S j))%nat with k by lia. reflexivity. }
  rewrite E in H. repeat (rewrite ?filter_app, ?app_length in H; cbn [filter] in H). rewrite A, B, D in H. cbn [negb] in H.
  repeat (rewrite ?filter_app, ?app_length in H; cbn [filter length] in H).
  pose proof (filter_length_le (fun i => negb (p i)) (seq 0 i)) as Q1.
  pose proof (filter_length_le (fun i => negb (p i)) (seq (S i) (j - S i))) as Q2.
  pose proof (filter_length_le (fun i => negb (p i)) (seq (S j) (k - S j))) as Q3.
  pose proof (filter_length_le (fun i => negb (p i)) (seq (S k) (n - S k))) as Q4.
  rewrite seq_length in *. lia.
Qed.

Lemma pvs_saturation_limit : forall cur upd low, lowest (presence cur) = Some low -> (low < P)%nat ->
  interval (presence cur) ->
  (phaseIsPresent (P - 1) (presence cur) = true \/ (P - 2 <= numNonPresent P cur)%nat) ->
  forall i, (i < P)%nat ->
    within (1#5) (read_saturation P off (pvs_update P off cur upd) i) (read_saturation P off cur i).
Proof.
  intros cur upd low L LP IV OK i I.
  set (u := fun i => upd (switch0Idx off + i)%nat).
  set (s := factor (maxSatDelta (limited_phases P cur) u)).
  destruct (maxSat_bounds (limited_phases P cur) u) as [MS ME].
  destruct (pvs_update_spec cur upd) as [A1 _]. cbv zeta in A1.
  assert (CH : forall j, (j < P)%nat -> explicitSaturation off (pvs_update P off cur upd) j ==
     explicitSaturation off cur j - (if phaseIsPresent j (presence cur) && negb (j =? low)%nat then s * u (j - 1)%nat else 0)).
  { intros j J. rewrite (explicit_change cur upd low j L IV J). unfold u, s. reflexivity. }
  destruct (lowest_some _ _ L) as [L1 L2].
  unfold read_saturation. rewrite A1, L. unfold within.
  destruct (Nat.eqb_spec i low) as [->|N].
  - rewrite !sum_total. rewrite (total_ext _ _ _ CH), total_minus.
    set (T := total P (fun j => if phaseIsPresent j (presence cur) && negb (j =? low)%nat then s * u (j - 1)%nat else 0)).
    set (E := total P (explicitSaturation off cur)).
    assert (G : - (1#5) <= T <= 1#5); [|clearbody T E; lra].
    destruct OK as [OK|OK].
    + assert (TE : T == s * sum (limited_phases P cur) u).
      { unfold T, limited_phases. rewrite sum_filter, sum_total, <- total_scale.
        assert (EP : P = S (P - 1)) by lia. rewrite EP at 1. rewrite total_shift.
        replace (if phaseIsPresent 0 (presence cur) && negb (0 =? low)%nat then s * u (0 - 1)%nat else 0) with 0.
        2:{ destruct (Nat.eqb_spec 0 low) as [Z|Z]; cbn [negb]; [rewrite andb_false_r; reflexivity|].
            rewrite L2 by lia. reflexivity. }
        rewrite Qplus_0_l. apply total_ext. intros j J. replace (S j - 1)%nat with j by lia.
        destruct (Nat.lt_ge_cases j low) as [B|B].
        - rewrite (L2 j B). destruct (Nat.eqb_spec (S j) low) as [Z|Z]; cbn [negb]; rewrite ?andb_false_r; [ring|].
          rewrite L2 by lia. cbn [andb]. ring.
        - assert (PJ : forall k, (low <= k <= P - 1)%nat -> phaseIsPresent k (presence cur) = true).
          { intros k K. destruct (Nat.eq_dec k low) as [->|]; [exact L1|].
            destruct (Nat.eq_dec k (P - 1)) as [->|]; [exact OK|]. apply (IV low k (P - 1)%nat); auto; lia. }
          rewrite (PJ j), (PJ (S j)) by lia. destruct (Nat.eqb_spec (S j) low); [lia|]. cbn [andb negb]. reflexivity. }
      rewrite TE. unfold s. apply factor_bound; lra.
    + (* at most two phases *)
      assert (TWO : forall j, (j < P)%nat -> phaseIsPresent j (presence cur) = true -> j <> low -> j = S low).
      { intros j J PJ NJ. assert (low < j)%nat.
        { destruct (Nat.lt_ge_cases low j); [assumption|]. rewrite L2 in PJ by lia. discriminate. }
        destruct (Nat.eq_dec j (S low)); [assumption|]. exfalso.
        apply (count_two (fun i => phaseIsPresent i (presence cur)) P OK low (S low) j); auto; try lia.
        apply (IV low (S low) j); auto; lia. }
      destruct (Nat.lt_ge_cases (S low) P) as [SL|SL].
      * destruct (phaseIsPresent (S low) (presence cur)) eqn:PS.
        -- assert (TE : T == s * u low).
           { unfold T. rewrite (total_one P _ (S low) SL). rewrite PS.
             destruct (Nat.eqb_spec (S low) low); [lia|]. cbn [andb negb].
             replace (S low - 1)%nat with low by lia. rewrite total_zero; [ring|].
             intros j J. destruct (Nat.eqb_spec j (S low)); [reflexivity|].
             destruct (phaseIsPresent j (presence cur)) eqn:PJ; cbn [andb]; [|reflexivity].
             destruct (Nat.eqb_spec j low); cbn [negb]; [reflexivity|]. exfalso. apply n0. apply TWO; auto. }
           rewrite TE. unfold s. destruct (ME low) as [X Y]; [apply limited_in; split; [lia|exact L1]|].
           apply factor_bound; assumption.
        -- assert (TE : T == 0).
           { unfold T. apply total_zero. intros j J.
             destruct (phaseIsPresent j (presence cur)) eqn:PJ; cbn [andb]; [|reflexivity].
             destruct (Nat.eqb_spec j low); cbn [negb]; [reflexivity|]. rewrite (TWO j J PJ n) in PJ. congruence. }
           rewrite TE. lra.
      * assert (TE : T == 0).
        { unfold T. apply total_zero. intros j J.
          destruct (phaseIsPresent j (presence cur)) eqn:PJ; cbn [andb]; [|reflexivity].
          destruct (Nat.eqb_spec j low); cbn [negb]; [reflexivity|]. rewrite (TWO j J PJ n) in J. lia. }
        rewrite TE. lra.
  - rewrite (CH i I). destruct (phaseIsPresent i (presence cur)) eqn:PR; cbn [andb]; [|lra].
    destruct (Nat.eqb_spec i low); [contradiction|]. cbn [negb].
    destruct (explicit_limited cur low i L IV I PR N) as [IN _]. destruct (ME _ IN) as [X Y].
    destruct (factor_bound _ _ X Y) as [F1 F2]. fold s in F1, F2.
    set (q := s * u (i - 1)%nat) in *. clearbody q. lra.
Qed.
End Pvs.

(** * NCP *)
Section Ncp.
Variable P : nat.
Variable C : nat.
Variable off : nat.
Variable cur upd minPhi : nat -> Q.

Lemma puts1 : forall (g : (nat -> Q) -> nat -> Q) (pos : nat -> nat) l v,
  (forall i j, pos i = pos j -> i = j) -> NoDup l ->
  (forall w w' i, w (pos i) = w' (pos i) -> g w i = g w' i) ->
  let w := fold_left (fun v i => put1 (pos i) (g v i) v) l v in
  (forall i, In i l -> w (pos i) = g v i) /\
  (forall k, (forall i, In i l -> k <> pos i) -> w k = v k).
Proof.
  intros g pos l. induction l as [|a l IH]; intros v INJ ND PR; cbn [fold_left]; cbv zeta.
  - split; [intros i []|reflexivity].
  - apply NoDup_cons_iff in ND as [NA ND].
    destruct (IH (put1 (pos a) (g v a) v) INJ ND PR) as [I2 I3]. cbv zeta in I2, I3. split.
    + intros i [<-|I].
      * rewrite I3; [unfold put1; rewrite Nat.eqb_refl; reflexivity|].
        intros j J E. apply INJ in E. congruence.
      * rewrite (I2 i I). apply PR. unfold put1.
        destruct (Nat.eqb_spec (pos i) (pos a)) as [E|]; [apply INJ in E; congruence|reflexivity].
    + intros k K. rewrite I3 by (intros i I; apply K; right; exact I).
      unfold put1. destruct (Nat.eqb_spec k (pos a)) as [E|]; [|reflexivity].
      exfalso. apply (K a (or_introl eq_refl) E).
Qed.

Let u i := upd (saturation0Idx C off + i)%nat.
Let m := maxSatDelta (seq 0 (P - 1)) u.

Lemma ncp_sat : let w := ncp_saturations P C off cur upd (fun j => cur j - upd j) in
  forall i, (i < P - 1)%nat -> w (saturation0Idx C off + i)%nat == cur (saturation0Idx C off + i)%nat - factor m * u i.
Proof.
  cbv zeta. intros i I. unfold ncp_saturations. fold u. fold m. unfold factor. destruct (Qltb (1#5) m).
  - destruct (puts1 (fun _ i => cur (saturation0Idx C off + i)%nat - (1#5) / m * u i) (fun i => saturation0Idx C off + i)%nat
      (seq 0 (P - 1)) (fun j => cur j - upd j)) as [A _]; [intros; lia|apply seq_NoDup|reflexivity|].
    cbv zeta in A. rewrite A by (apply in_seq; lia). reflexivity.
  - unfold u. ring.
Qed.

Definition after_barriers := ncp_fugacities P C off cur minPhi (ncp_pressure P C off cur (ncp_saturations P C off cur upd (fun j => cur j - upd j))).

Lemma barriers : (1 <= P)%nat ->
  (forall i, (i < P - 1)%nat -> after_barriers (saturation0Idx C off + i)%nat == cur (saturation0Idx C off + i)%nat - factor m * u i) /\
  within ((1#5) * qabs (cur (ncp_pressure0Idx P C off))) (after_barriers (ncp_pressure0Idx P C off)) (cur (ncp_pressure0Idx P C off)) /\
  (forall c, (c < C)%nat -> let old := cur (fugacity0Idx off + c)%nat in
     let lim := (7#10) * qmax ((1#1000) * cur (ncp_pressure0Idx P C off)) (minPhi c) in
     exists val, after_barriers (fugacity0Idx off + c)%nat = qmax (clampValue val (old - lim) (old + lim)) 0).
Proof.
  intros P1. unfold after_barriers.
  set (w1 := ncp_saturations P C off cur upd (fun j => cur j - upd j)).
  pose proof ncp_sat as S. cbv zeta in S. fold w1 in S. clearbody w1.
  set (w2 := ncp_pressure P C off cur w1).
  unfold ncp_fugacities.
  destruct (puts1 (fun v c => let old := cur (fugacity0Idx off + c)%nat in
     let phi := qmax ((1#1000) * cur (ncp_pressure0Idx P C off)) (minPhi c) in
     let maxDelta := (7#10) * phi in
     qmax (clampValue (v (fugacity0Idx off + c)%nat) (old - maxDelta) (old + maxDelta)) 0)
     (fun c => fugacity0Idx off + c)%nat (seq 0 C) w2) as [A B];
    [intros; lia|apply seq_NoDup|intros w w' i E; cbv zeta; rewrite E; reflexivity|].
  cbv zeta in A, B. cbv zeta. split; [|split].
  - intros i I. rewrite B.
    + unfold w2, ncp_pressure, put1.
      destruct (Nat.eqb_spec (saturation0Idx C off + i) (ncp_pressure0Idx P C off)) as [E|];
        [unfold ncp_pressure0Idx in E; lia|]. apply S, I.
    + intros c K. apply in_seq in K. unfold saturation0Idx, fugacity0Idx. lia.
  - rewrite B.
    + unfold w2, ncp_pressure, put1. rewrite Nat.eqb_refl. apply clamp_pressure.
    + intros c K. apply in_seq in K. unfold ncp_pressure0Idx, saturation0Idx, fugacity0Idx. lia.
  - intros c K. exists (w2 (fugacity0Idx off + c)%nat). apply A, in_seq. lia.
Qed.

Definition early_fug (c : nat) (val : Q) : Q :=
  if Qltb (cur (fugacity0Idx off + c)%nat) (minPhi c) && Qltb (minPhi c) val then minPhi c
  else if Qltb 0 (cur (fugacity0Idx off + c)%nat) && Qltb val 0 then 0 else val.
Definition early_sat (old val : Q) : Q :=
  if Qltb old 1 && Qltb 1 val then 1 else if Qltb 0 old && Qltb val 0 then 0 else val.

Lemma early_steps : (1 <= P)%nat -> forall next,
  let w := ncp_early_saturation P C off cur (ncp_early_fugacity C off cur minPhi next) in
  (forall i, (i < P - 1)%nat -> w (saturation0Idx C off + i)%nat =
     early_sat (cur (saturation0Idx C off + i)%nat) (next (saturation0Idx C off + i)%nat)) /\
  (forall c, (c < C)%nat -> w (fugacity0Idx off + c)%nat = early_fug c (next (fugacity0Idx off + c)%nat)) /\
  w (ncp_pressure0Idx P C off) = next (ncp_pressure0Idx P C off).
Proof.
  intros P1 next. cbv zeta. unfold ncp_early_saturation, ncp_early_fugacity. cbv zeta.
  destruct (puts1 (fun v c => early_fug c (v (fugacity0Idx off + c)%nat)) (fun c => fugacity0Idx off + c)%nat (seq 0 C) next) as [A1 A2];
    [intros; lia|apply seq_NoDup|intros w w' i E; rewrite E; reflexivity|]. cbv zeta in A1, A2.
  unfold early_fug in A1, A2 at 1.
  match type of A1 with forall i, _ -> ?x _ = _ => set (w1 := x) in * end. clearbody w1.
  destruct (puts1 (fun v i => early_sat (cur (saturation0Idx C off + i)%nat) (v (saturation0Idx C off + i)%nat))
     (fun c => saturation0Idx C off + c)%nat (seq 0 (P - 1)) w1) as [B1 B2];
    [intros; lia|apply seq_NoDup|intros w w' i E; rewrite E; reflexivity|]. cbv zeta in B1, B2.
  unfold early_sat in B1, B2 at 1.
  split; [|split].
  - intros i I. rewrite B1 by (apply in_seq; lia). unfold early_sat. rewrite A2; [reflexivity|].
    intros c K. apply in_seq in K. unfold saturation0Idx, fugacity0Idx. lia.
  - intros c K. rewrite B2.
    + rewrite A1 by (apply in_seq; lia). reflexivity.
    + intros i I. unfold saturation0Idx, fugacity0Idx. lia.
  - rewrite B2.
    + apply A2. intros c K. apply in_seq in K. unfold ncp_pressure0Idx, saturation0Idx, fugacity0Idx. lia.
    + intros i I. apply in_seq in I. unfold ncp_pressure0Idx. lia.
Qed.
End Ncp.

Lemma early_sat_between : forall old val,
  (old <= early_sat old val /\ early_sat old val <= val) \/ (val <= early_sat old val /\ early_sat old val <= old).
Proof.
  intros old val. unfold early_sat.
  destruct (Qltb old 1) eqn:E1; destruct (Qltb 1 val) eqn:E2; cbn [andb];
    try apply Qltb_lt in E1; try apply Qltb_lt in E2; try apply Qltb_ge in E1; try apply Qltb_ge in E2.
  1: left; lra.
  all: destruct (Qltb 0 old) eqn:E3; destruct (Qltb val 0) eqn:E4; cbn [andb];
    try apply Qltb_lt in E3; try apply Qltb_lt in E4;
    try (right; lra); destruct (Qlt_le_dec old val); ((left; lra) || (right; lra)).
Qed.

Lemma early_sat_range : forall old val, 0 < old -> old < 1 -> 0 <= early_sat old val /\ early_sat old val <= 1.
Proof.
  intros old val A B. unfold early_sat. rewrite (proj2 (Qltb_lt old 1) B), (proj2 (Qltb_lt 0 old) A). cbn [andb].
  destruct (Qltb 1 val) eqn:E2; [lra|]. apply Qltb_ge in E2.
  destruct (Qltb val 0) eqn:E4; [lra|]. apply Qltb_ge in E4. lra.
Qed.

Lemma early_sat_proper : forall old v v', v == v' -> early_sat old v == early_sat old v'.
Proof.
  intros old v v' E. unfold early_sat.
  assert (X : Qltb 1 v = Qltb 1 v').
  { destruct (Qltb 1 v) eqn:A; destruct (Qltb 1 v') eqn:B; try reflexivity.
    - apply Qltb_lt in A. apply Qltb_ge in B. lra.
    - apply Qltb_lt in B. apply Qltb_ge in A. lra. }
  assert (Y : Qltb v 0 = Qltb v' 0).
  { destruct (Qltb v 0) eqn:A; destruct (Qltb v' 0) eqn:B; try reflexivity.
    - apply Qltb_lt in A. apply Qltb_ge in B. lra.
    - apply Qltb_lt in B. apply Qltb_ge in A. lra. }
  rewrite X, Y. destruct (Qltb old 1 && Qltb 1 v'); [reflexivity|]. destruct (Qltb 0 old && Qltb v' 0); [reflexivity|exact E].
Qed.

Section NcpLimits.
Variable P : nat.
Variable C : nat.
Variable off : nat.
Variable cur upd minPhi : nat -> Q.
Variable early : bool.
Let new := ncp_update P C off cur upd minPhi early.
Let u i := upd (saturation0Idx C off + i)%nat.
Let m := maxSatDelta (seq 0 (P - 1)) u.

Lemma new_sat : (1 <= P)%nat -> forall i, (i < P - 1)%nat ->
  let old := cur (saturation0Idx C off + i)%nat in
  new (saturation0Idx C off + i)%nat == (if early then early_sat old (old - factor m * u i) else old - factor m * u i).
Proof.
  intros P1 i I old. destruct (barriers P C off cur upd minPhi P1) as [B _]. specialize (B i I). fold u in B. fold m in B.
  unfold new, ncp_update. fold (after_barriers P C off cur upd minPhi). destruct early.
  - destruct (early_steps P C off cur minPhi P1 (after_barriers P C off cur upd minPhi)) as [E _]. cbv zeta in E.
    rewrite (E i I). apply early_sat_proper. exact B.
  - exact B.
Qed.

Lemma ncp_explicit : (1 <= P)%nat -> forall i, (i < P - 1)%nat ->
  within (1#5) (new (saturation0Idx C off + i)%nat) (cur (saturation0Idx C off + i)%nat).
Proof.
  intros P1 i I. pose proof (new_sat P1 i I) as N. cbv zeta in N.
  destruct (maxSat_bounds (seq 0 (P - 1)) u) as [_ ME]. destruct (ME i) as [X Y]; [apply in_seq; lia|].
  destruct (factor_bound _ _ X Y) as [F1 F2]. fold m in F1, F2.
  set (q := factor m * u i) in *. clearbody q. unfold within. rewrite N. destruct early; [|lra].
  destruct (early_sat_between (cur (saturation0Idx C off + i)%nat) (cur (saturation0Idx C off + i)%nat - q)); lra.
Qed.

Lemma ncp_limit : (1 <= P)%nat -> (early = false \/ P <= 3)%nat -> forall i, (i < P)%nat ->
  within (1#5) (ncp_read_saturation P C off new i) (ncp_read_saturation P C off cur i).
Proof.
  intros P1 OK i I. unfold ncp_read_saturation. destruct (Nat.eqb_spec i (P - 1)) as [->|N]; [|apply ncp_explicit; lia].
  destruct (maxSat_bounds (seq 0 (P - 1)) u) as [MS ME]. fold m in MS, ME.
  destruct OK as [OK|OK].
  - unfold within. rewrite !sum_total.
    rewrite (total_ext (P - 1) (fun j => new (saturation0Idx C off + j)%nat)
               (fun j => cur (saturation0Idx C off + j)%nat - factor m * u j)).
    2:{ intros j J. rewrite (new_sat P1 j J). rewrite OK. reflexivity. }
    rewrite total_minus, total_scale. rewrite sum_total in MS.
    destruct (factor_bound m (total (P - 1) u)) as [F1 F2]; [lra|lra|].
    set (q := factor m * total (P - 1) u) in *. clearbody q. lra.
  - pose proof (new_sat P1) as NS. pose proof (ncp_explicit P1) as NE.
    destruct P as [|[|[|[|n]]]]; [lia| | |  |lia]; unfold sum; cbn [Nat.sub seq fold_left].
    + unfold within. lra.
    + destruct (NE 0%nat) as [X Y]; [lia|]. unfold within in *. lra.
    + destruct (NE 0%nat) as [X0 Y0]; [lia|]. destruct (NE 1%nat) as [X1 Y1]; [lia|].
      assert (N0 := NS 0%nat ltac:(lia)). assert (N1 := NS 1%nat ltac:(lia)). cbv zeta in N0, N1.
      unfold sum in MS. cbn [Nat.sub seq fold_left] in MS.
      destruct (factor_bound m (u 0%nat + u 1%nat)) as [F1 F2];
        [clear -MS; clearbody m u; lra|clear -MS; clearbody m u; lra|].
      assert (FE : factor m * (u 0%nat + u 1%nat) == factor m * u 0%nat + factor m * u 1%nat) by ring.
      rewrite FE in F1, F2.
      set (q0 := factor m * u 0%nat) in *. set (q1 := factor m * u 1%nat) in *. clearbody q0 q1. clear FE.
      unfold within in *. destruct early.
      * set (o0 := cur (saturation0Idx C off + 0)%nat) in *. set (o1 := cur (saturation0Idx C off + 1)%nat) in *.
        set (n0 := new (saturation0Idx C off + 0)%nat) in *. set (n1 := new (saturation0Idx C off + 1)%nat) in *.
        destruct (early_sat_between o0 (o0 - q0)) as [[? ?]|[? ?]]; destruct (early_sat_between o1 (o1 - q1)) as [[? ?]|[? ?]];
          rewrite <- N0, <- N1 in *; lra.
      * lra.
Qed.

Lemma ncp_pressure_limit : (1 <= P)%nat ->
  within ((1#5) * qabs (cur (ncp_pressure0Idx P C off))) (new (ncp_pressure0Idx P C off)) (cur (ncp_pressure0Idx P C off)).
Proof.
  intros P1. destruct (barriers P C off cur upd minPhi P1) as [_ [B _]].
  unfold new, ncp_update. fold (after_barriers P C off cur upd minPhi). destruct early; [|exact B].
  destruct (early_steps P C off cur minPhi P1 (after_barriers P C off cur upd minPhi)) as [_ [_ E]]. cbv zeta in E.
  rewrite E. exact B.
Qed.

Lemma ncp_range : (1 <= P)%nat -> early = true -> forall i, (i < P - 1)%nat ->
  0 < cur (saturation0Idx C off + i)%nat -> cur (saturation0Idx C off + i)%nat < 1 ->
  0 <= new (saturation0Idx C off + i)%nat /\ new (saturation0Idx C off + i)%nat <= 1.
Proof.
  intros P1 EA i I A B. pose proof (new_sat P1 i I) as N. cbv zeta in N. rewrite EA in N. rewrite N.
  apply early_sat_range; assumption.
Qed.

Lemma ncp_fugacity_limit : (1 <= P)%nat -> forall c, (c < C)%nat -> 0 <= minPhi c ->
  0 <= new (fugacity0Idx off + c)%nat /\
  (0 <= cur (fugacity0Idx off + c)%nat ->
   forall lim, (1#1000) * cur (ncp_pressure0Idx P C off) <= lim -> minPhi c <= lim ->
   within ((7#10) * lim) (new (fugacity0Idx off + c)%nat) (cur (fugacity0Idx off + c)%nat)).
Proof.
  intros P1 c K MP. destruct (barriers P C off cur upd minPhi P1) as [_ [_ B]]. destruct (B c K) as [val E]. clear B.
  set (old := cur (fugacity0Idx off + c)%nat) in *.
  set (p := (1#1000) * cur (ncp_pressure0Idx P C off)) in *.
  set (w := after_barriers P C off cur upd minPhi) in *.
  assert (W : 0 <= w (fugacity0Idx off + c)%nat /\
    (0 <= old -> forall lim, p <= lim -> minPhi c <= lim -> within ((7#10) * lim) (w (fugacity0Idx off + c)%nat) old)).
  { rewrite E. unfold clampValue, within. split; [apply qmax_ub|].
    intros O lim L1 L2.
    destruct (qmax_case p (minPhi c)) as [[-> ?]|[-> ?]];
    match goal with |- context [qmin ?a ?b] => destruct (qmin_case a b) as [[-> ?]|[-> ?]] end;
    match goal with |- context [qmax (?a - ?b) ?d] => destruct (qmax_case (a - b) d) as [[-> ?]|[-> ?]] end;
    match goal with |- context [qmax ?a 0] => destruct (qmax_case a 0) as [[-> ?]|[-> ?]] end; lra. }
  unfold new, ncp_update. fold (after_barriers P C off cur upd minPhi). destruct early; [|exact W].
  destruct (early_steps P C off cur minPhi P1 (after_barriers P C off cur upd minPhi)) as [_ [F _]]. cbv zeta in F.
  rewrite (F c K). fold w. clearbody w. unfold early_fug. fold old.
  set (q := w (fugacity0Idx off + c)%nat) in *. clearbody q old p.
  destruct W as [W1 W2].
  destruct (Qltb old (minPhi c)) eqn:E1; destruct (Qltb (minPhi c) q) eqn:E2; cbn [andb];
    try apply Qltb_lt in E1; try apply Qltb_lt in E2.
  1: { split; [exact MP|]. intros O lim L1 L2. specialize (W2 O lim L1 L2). unfold within in *. lra. }
  all: destruct (Qltb 0 old) eqn:E3; destruct (Qltb q 0) eqn:E4; cbn [andb]; try apply Qltb_lt in E4;
    try (exfalso; lra); split; assumption.
Qed.
End NcpLimits.
