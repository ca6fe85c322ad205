(** * C110: the tables of the extended black-oil module *)
From Coq Require Import QArith List Bool Arith Lia Lqa.
From Verif Require Import ExtTabModel ExtTabSpec ExtTabProofs.
Import ListNotations.
Open Scope Q_scope.

Lemma numbered_from : forall rows, numbered rows = numberedFrom 0 rows.
Proof. reflexivity. Qed.

Lemma column_spec : forall z rows, (forall r, In r rows -> 0 < BO r) ->
  exists k e,
    growing (firstn k rows) /\ endsWith rows k e /\
    pbubRs (readColumn z rows) = map (fun r => (RS r, P r)) (firstn k (numbered rows)) /\
    pbubRv (readColumn z rows) = map (fun r => (RV r, P r)) (firstn k (numbered rows)) /\
    samples (readColumn z rows) = firstn (match e with Constant => S k | _ => k end) (numbered rows) /\
    (setsZLim (readColumn z rows) = true <-> e = Falls) /\
    (forall i r r', e = Falls -> k = S i -> nth_error rows i = Some r -> nth_error rows k = Some r' ->
       oilCmp (readColumn z rows) = quotient (BO r' - BO r) (P r' - P r)) /\
    (e <> Falls -> oilCmp (readColumn z rows) = Some (-4 # 1000000000)) /\
    (forall r r2, e = Constant -> nth_error rows k = Some r -> nth_error rows (S k) = Some r2 -> z < 1 ->
       gasCmp (readColumn z rows) = quotient (BG r2 - BG r) (RV r2 + shift k - (RV r + shift k))) /\
    (e <> Constant \/ nth_error rows (S k) = None \/ 1 <= z ->
       gasCmp (readColumn z rows) = Some (-8 # 100)).
Proof.
  intros z rows Pos. unfold readColumn.
  destruct (readRows_spec rows z 0 0 0 emptyColumn) as (k & e & K1 & K2 & K3 & K4 & K5 & K6 & K7 & K8).
  exists k, e. cbv zeta in *. split; [exact (growsFrom_growing _ _ K1)|].
  assert (KS : match e with ToTheEnd => True | _ => exists i, k = S i end).
  { destruct e; [exact I| |]; destruct K8 as (r' & A & B & _); (destruct k as [|i]; [|eauto]);
      exfalso; cbn in B; pose proof (Pos r' (nth_error_In _ _ A)) as W; lra. }
  split.
  { destruct e; [exact K8| |]; destruct KS as [i ->]; destruct K8 as (r' & A & B & _);
      destruct (nth_before _ _ _ A) as [r0 R0]; rewrite (lastBO_nth _ _ _ _ R0) in B; exists i, r0, r'; auto. }
  split; [rewrite K2; reflexivity|]. split; [rewrite K3; reflexivity|].
  split; [rewrite K4; destruct e; reflexivity|].
  split; [rewrite K5; destruct e; cbn; split; congruence|].
  split.
  { intros i r r' -> -> A B. destruct K8 as (s & S1 & _ & S3). rewrite S3.
    rewrite (lastBO_nth _ _ _ _ A), (lastP_nth _ _ _ _ A). congruence. }
  split; [intros N; apply K6; destruct e; cbn; congruence|].
  split.
  { intros r r2 -> A B Z1. destruct K8 as (s & S1 & _ & S3). rewrite S3, B.
    rewrite (Qle_bool_gt _ _ Z1). cbn [negb]. rewrite Nat.add_0_r. rewrite S1 in A. injection A as ->. reflexivity. }
  { intros D. destruct e; try (apply K7; reflexivity).
    destruct K8 as (s & S1 & _ & S3). rewrite S3. destruct (nth_error rows (S k)) as [r2|] eqn:E; [|reflexivity].
    destruct D as [D|[D|D]]; [congruence|congruence|]. apply Qle_bool_iff in D. rewrite D. reflexivity. }
Qed.

(** The tables of a value of z hold the rows as long as the formation volume of oil grows, and with a row of the same
    formation volume that one, too; the tables of the bubble point hold the growing rows only. *)
Theorem C110_samples : forall z rows, (forall r, In r rows -> 0 < BO r) ->
  exists k e,
    growing (firstn k rows) /\ endsWith rows k e /\
    samples (readColumn z rows) = firstn (match e with Constant => S k | _ => k end) (numbered rows) /\
    pbubRs (readColumn z rows) = map (fun r => (RS r, P r)) (firstn k (numbered rows)) /\
    pbubRv (readColumn z rows) = map (fun r => (RV r, P r)) (firstn k (numbered rows)) /\
    (setsZLim (readColumn z rows) = true <-> e = Falls).
Proof.
  intros z rows Pos. destruct (column_spec z rows Pos) as (k & e & A & B & D & E & F & G & _).
  exists k, e. repeat split; try assumption; apply G.
Qed.

(** The limit between oil and gas is the last z at which the formation volume of oil falls; without such a z it is 0.7.
    Every value of z gets its column. *)
Theorem C110_limit : forall t,
  fst (readTable t) = map (fun zr => (fst zr, readColumn (fst zr) (snd zr))) t /\
  ((forall zr, In zr t -> setsZLim (readColumn (fst zr) (snd zr)) = false) -> snd (readTable t) = 7 # 10) /\
  (forall before z rows after, t = before ++ (z, rows) :: after ->
     setsZLim (readColumn z rows) = true ->
     (forall zr, In zr after -> setsZLim (readColumn (fst zr) (snd zr)) = false) -> snd (readTable t) = z).
Proof.
  assert (F : forall t acc, let step := fun acc zr => let c := readColumn (fst zr) (snd zr) in
                           (fst acc ++ [(fst zr, c)], if setsZLim c then fst zr else snd acc) in
     fst (fold_left step t acc) = fst acc ++ map (fun zr => (fst zr, readColumn (fst zr) (snd zr))) t /\
     ((forall zr : Q * list row, In zr t -> setsZLim (readColumn (fst zr) (snd zr)) = false) ->
       snd (fold_left step t acc) = snd acc)).
  { induction t as [|zr t IH]; intros acc step; [cbn; rewrite app_nil_r; auto|].
    cbn [fold_left map]. destruct (IH (step acc zr)) as [A B]. split.
    - etransitivity; [exact A|]. unfold step; cbn [fst]. rewrite <- app_assoc. reflexivity.
    - intros H. etransitivity; [apply B; intros; apply H; right; assumption|].
      unfold step; cbn [snd]. rewrite (H zr (or_introl eq_refl)). reflexivity. }
  intros t. destruct (F t ([], 7 # 10)) as [A B]. split; [exact A|]. split; [exact B|].
  intros before z rows after -> S0 H. unfold readTable. rewrite fold_left_app. cbn [fold_left fst snd].
  rewrite S0. destruct (F after (fst (fold_left (fun acc zr => let c := readColumn (fst zr) (snd zr) in
                           (fst acc ++ [(fst zr, c)], if setsZLim c then fst zr else snd acc)) before ([], 7 # 10))
                           ++ [(z, readColumn z rows)], z)) as [_ W].
  exact (W H).
Qed.

(** If the pressures of the rows increase and the dissolved gas does not decrease, the bubble point of the gas dissolved
    at a pressure p is p, for all p of the growing rows. *)
Theorem C110_bubble_point : forall z rows p, physical rows -> (forall r, In r rows -> 0 < BO r) ->
  forall first last', hd_error (pbubRs (readColumn z rows)) = Some first ->
  last (pbubRs (readColumn z rows)) first = last' ->
  snd first <= p -> p <= snd last' ->
  interpolate (pbubRs (readColumn z rows))
    (interpolate (map (fun r => (P r, RS r)) (samples (readColumn z rows))) p) == p.
Proof.
  intros z rows p Ph Pos first last' Hf Hl L1 L2.
  destruct (column_spec z rows Pos) as (k & e & A & B & D & E & F & G & _).
  set (N := map (fun r => (P r, RS r)) (numbered rows)).
  assert (RN : rising N) by (exact (numbered_rising rows 0 Ph)).
  assert (Dk : pbubRs (readColumn z rows) = swap (firstn k N)).
  { rewrite D. unfold swap, N. rewrite !firstn_map, map_map. reflexivity. }
  assert (Fk : exists t', map (fun r => (P r, RS r)) (samples (readColumn z rows)) = firstn k N ++ t' /\ rising (firstn k N ++ t')).
  { rewrite F. destruct e.
    - exists []. rewrite app_nil_r. split; [unfold N; rewrite firstn_map; reflexivity|apply rising_firstn; exact RN].
    - exists []. rewrite app_nil_r. split; [unfold N; rewrite firstn_map; reflexivity|apply rising_firstn; exact RN].
    - exists (firstn 1 (skipn k N)).
      assert (X : firstn (S k) N = firstn k N ++ firstn 1 (skipn k N)).
      { clearbody N. clear. revert N. induction k as [|k IH]; intros [|a N]; try reflexivity.
        change (a :: firstn (S k) N = a :: (firstn k N ++ firstn 1 (skipn k N))). rewrite (IH N). reflexivity. }
      rewrite <- X. split; [unfold N; rewrite firstn_map; reflexivity|apply rising_firstn; exact RN]. }
  destruct Fk as (t' & Fk & R'). rewrite Fk.
  rewrite Dk in Hf, Hl |- *.
  pose proof (rising_firstn k N RN) as R.
  destruct (firstn k N) as [|[x1 y1] t]; [discriminate|].
  cbn [swap map hd_error fst snd] in Hf. injection Hf as <-. cbn [snd] in L1.
  assert (LX : snd last' = lastX ((x1, y1) :: t)).
  { rewrite <- Hl. unfold lastX, swap. clear.
    assert (W : forall (l : list (Q * Q)) a b c, snd (last (map (fun xy => (snd xy, fst xy)) (a :: l)) b) = fst (last (a :: l) c)).
    { induction l as [|u l IH]; intros a b c; [reflexivity|].
      change (snd (last (map (fun xy => (snd xy, fst xy)) (u :: l)) b) = fst (last (u :: l) c)). apply IH. }
    apply W. }
  rewrite LX in L2.
  rewrite (interpolate_proper _ _ _ (interpolate_prefix t x1 y1 t' p R' L1 L2)).
  apply inverse; assumption.
Qed.

(** Where oil is limited, its compressibility is the slope between the last row kept and the one which falls; it is
    negative if the pressures increase. Elsewhere it is -4e-9. *)
Theorem C110_oil_compressibility : forall z rows, (forall r, In r rows -> 0 < BO r) ->
  (setsZLim (readColumn z rows) = true ->
     exists i r r', nth_error rows i = Some r /\ nth_error rows (S i) = Some r' /\ growing (firstn (S i) rows) /\ BO r' < BO r /\
       (P r < P r' -> exists c, oilCmp (readColumn z rows) = Some c /\ c < 0 /\ BO r' == BO r + c * (P r' - P r))) /\
  (setsZLim (readColumn z rows) = false -> oilCmp (readColumn z rows) = Some (-4 # 1000000000)).
Proof.
  intros z rows Pos. destruct (column_spec z rows Pos) as (k & e & A & B & _ & _ & _ & G & H & I & _). split.
  - intros T. apply G in T. subst e. destruct B as (i & r & r' & -> & B1 & B2 & B3).
    exists i, r, r'. repeat split; try assumption. intros PP.
    rewrite (H i r r' eq_refl eq_refl B1 B2). unfold quotient.
    destruct (Qeq_bool (P r' - P r) 0) eqn:Z0; [apply Qeq_bool_iff in Z0; exfalso; lra|].
    eexists. split; [reflexivity|]. split.
    + apply Qlt_shift_div_r; lra.
    + field. lra.
  - intros T. apply I. intros ->. pose proof (proj2 G eq_refl). congruence.
Qed.

(** Where the formation volume of oil becomes constant below z = 1 and vaporized oil changes from there to the next row,
    the compressibility of gas is the tabulated slope of its formation volume; without a constant row, without a next
    row and for z = 1 it is -0.08. Missing: rows of the same vaporized oil. *)
Theorem C110_gas_compressibility_partial : forall z rows, (forall r, In r rows -> 0 < BO r) ->
  (forall i r0 r r2, growing (firstn (S i) rows) -> nth_error rows i = Some r0 -> nth_error rows (S i) = Some r -> BO r == BO r0 ->
     nth_error rows (S (S i)) = Some r2 -> z < 1 -> ~ RV r2 == RV r ->
     exists c, gasCmp (readColumn z rows) = Some c /\ BG r2 == BG r + c * (RV r2 - RV r)) /\
  ((forall i r0 r, growing (firstn (S i) rows) -> nth_error rows i = Some r0 -> nth_error rows (S i) = Some r -> BO r == BO r0 ->
     nth_error rows (S (S i)) = None \/ 1 <= z) ->
   gasCmp (readColumn z rows) = Some (-8 # 100)).
Proof.
  intros z rows Pos. destruct (column_spec z rows Pos) as (k & e & A & B & _ & _ & _ & _ & _ & _ & H & I). split.
  - intros i r0 r r2 Gr N0 N1 EQ N2 Z1 NV.
    assert (KE : k = S i /\ e = Constant).
    { assert (LE : (k <= S i)%nat).
      { destruct (le_lt_dec k (S i)) as [L|L]; [exact L|]. exfalso.
        assert (X0 : nth_error (firstn k rows) i = Some r0).
        { rewrite <- N0. rewrite <- (firstn_skipn k rows) at 2. rewrite nth_error_app1; [reflexivity|].
          rewrite firstn_length. assert (S i < length rows)%nat by (apply nth_error_Some; congruence). lia. }
        assert (X1 : nth_error (firstn k rows) (S i) = Some r).
        { rewrite <- N1. rewrite <- (firstn_skipn k rows) at 2. rewrite nth_error_app1; [reflexivity|].
          rewrite firstn_length. assert (S i < length rows)%nat by (apply nth_error_Some; congruence). lia. }
        pose proof (A i r0 r X0 X1) as W. lra. }
      assert (GE : forall j s s', k = S j -> nth_error rows j = Some s -> nth_error rows k = Some s' -> BO s' <= BO s -> (S i <= k)%nat).
      { intros j s s' -> S0 S1 LEs. destruct (le_lt_dec (S i) (S j)) as [L|L]; [exact L|]. exfalso.
        assert (X0 : nth_error (firstn (S i) rows) j = Some s).
        { rewrite <- S0. rewrite <- (firstn_skipn (S i) rows) at 2. rewrite nth_error_app1; [reflexivity|].
          rewrite firstn_length. assert (S i < length rows)%nat by (apply nth_error_Some; congruence). lia. }
        assert (X1 : nth_error (firstn (S i) rows) (S j) = Some s').
        { rewrite <- S1. rewrite <- (firstn_skipn (S i) rows) at 2. rewrite nth_error_app1; [reflexivity|].
          rewrite firstn_length. assert (S i < length rows)%nat by (apply nth_error_Some; congruence). lia. }
        pose proof (Gr j s s' X0 X1) as W. lra. }
      destruct e.
      - cbn in B. assert (S i < length rows)%nat by (apply nth_error_Some; congruence). exfalso; lia.
      - exfalso. destruct B as (j & s & s' & B0 & B1 & B2 & B3).
        assert (k = S i) by (pose proof (GE j s s' B0 B1 B2 ltac:(lra)); lia).
        assert (j = i) by lia. subst j. rewrite N0 in B1. injection B1 as <-. rewrite H0, N1 in B2. injection B2 as <-. lra.
      - destruct B as (j & s & s' & B0 & B1 & B2 & B3).
        split; [|reflexivity]. pose proof (GE j s s' B0 B1 B2 ltac:(lra)). lia. }
    destruct KE as [-> ->]. rewrite (H r r2 eq_refl N1 N2 Z1). unfold quotient.
    destruct (Qeq_bool (RV r2 + shift (S i) - (RV r + shift (S i))) 0) eqn:Z0; [apply Qeq_bool_iff in Z0; exfalso; apply NV; lra|].
    eexists. split; [reflexivity|]. field. intros X; apply NV; lra.
  - intros H0. apply I. destruct e; try (left; congruence).
    destruct B as (j & s & s' & -> & B1 & B2 & B3). right. exact (H0 j s s' A B1 B2 B3).
Qed.

(** The offsets of 1e-10 which keep the tables invertible are not applied to the slope of gas: with the same vaporized
    oil in both rows, the compressibility is a quotient by zero, though the table is otherwise a valid one. *)
Theorem C110_gas_compressibility_refuted :
  exists z rows, 0 < z /\ z < 1 /\ physical rows /\ (forall r, In r rows -> 0 < BO r) /\ gasCmp (readColumn z rows) = None.
Proof.
  exists (9 # 10), [mkRow 1 1 3 1 1 0 0 1 1; mkRow 2 2 2 2 2 0 0 1 1; mkRow 3 2 1 3 2 0 0 1 1; mkRow 4 2 1 4 2 0 0 1 1].
  split; [reflexivity|]. split; [reflexivity|]. split.
  - intros [|[|[|[|i]]]] r r' H1 H2; cbn in H1, H2; try discriminate; try (destruct i; discriminate);
      injection H1 as <-; injection H2 as <-; cbn; split; lra.
  - split; [|reflexivity]. intros r [<-|[<-|[<-|[<-|[]]]]]; reflexivity.
Qed.

(** ** Cases which meet the hypotheses *)
Definition exRows := [mkRow 10 1 (3 # 10) 20 1 0 0 1 1; mkRow 20 2 (2 # 10) 40 1 0 0 1 1;
                      mkRow 30 3 (1 # 10) 40 2 0 0 1 1; mkRow 40 (5 # 2) (1 # 10) 50 2 0 0 1 1].
Definition exGas := [mkRow 10 1 (3 # 10) 20 1 0 0 1 1; mkRow 20 2 (2 # 10) 40 1 0 0 1 1;
                     mkRow 30 2 (1 # 10) 40 2 0 0 1 1; mkRow 40 2 (1 # 20) 50 3 0 0 1 1].

Example C110_ex_physical : physical exRows /\ physical exGas /\ (forall r, In r (exRows ++ exGas) -> 0 < BO r).
Proof.
  repeat split; try (revert H; revert H0; destruct i as [|[|[|[|i]]]]; cbn; intros X Y; try discriminate;
    try (destruct i; discriminate); injection X as <-; injection Y as <-; cbn; lra).
  intros r H. cbn in H. repeat destruct H as [<-|H]; try reflexivity. destruct H.
Qed.

Example C110_ex_falls : setsZLim (readColumn (1 # 2) exRows) = true /\ length (samples (readColumn (1 # 2) exRows)) = 3%nat /\
  length (pbubRs (readColumn (1 # 2) exRows)) = 3%nat.
Proof. repeat split. Qed.

Example C110_ex_constant : setsZLim (readColumn (9 # 10) exGas) = false /\ length (samples (readColumn (9 # 10) exGas)) = 3%nat /\
  length (pbubRs (readColumn (9 # 10) exGas)) = 2%nat /\ match gasCmp (readColumn (9 # 10) exGas) with Some c => c == - (1 # 20) | None => False end.
Proof. repeat split. Qed.

Example C110_ex_table : snd (readTable [(1 # 2, exRows); (9 # 10, exGas)]) = 1 # 2.
Proof. reflexivity. Qed.

Print Assumptions C110_samples.
Print Assumptions C110_limit.
Print Assumptions C110_bubble_point.
Print Assumptions C110_oil_compressibility.
Print Assumptions C110_gas_compressibility_partial.
Print Assumptions C110_gas_compressibility_refuted.
