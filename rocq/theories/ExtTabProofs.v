(** * Proofs about the tables of the extended black-oil module *)
From Coq Require Import QArith List Bool Arith Lia Lqa.
From Verif Require Import ExtTabModel ExtTabSpec.
Import ListNotations.
Open Scope Q_scope.

Lemma Qle_bool_false : forall a b, Qle_bool a b = false -> b < a.
Proof.
  intros a b H. destruct (Qlt_le_dec b a) as [L|L]; [exact L|]. apply Qle_bool_iff in L. congruence.
Qed.

Lemma Qle_bool_gt : forall a b, b < a -> Qle_bool a b = false.
Proof.
  intros a b H. destruct (Qle_bool a b) eqn:E; [|reflexivity]. apply Qle_bool_iff in E. exfalso; apply (Qlt_not_le _ _ H E).
Qed.

(** ** The loop over the rows *)
Definition numberedFrom (i : nat) (rows : list row) : list row :=
  map (fun ir => shifted (fst ir) (snd ir)) (combine (seq i (length rows)) rows).

Lemma numberedFrom_cons : forall i r rows, numberedFrom i (r :: rows) = shifted i r :: numberedFrom (S i) rows.
Proof. reflexivity. Qed.

Fixpoint growsFrom (b : Q) (rows : list row) : Prop :=
  match rows with [] => True | r :: rest => b < BO r /\ growsFrom (BO r) rest end.

Fixpoint lastBO (b : Q) (rows : list row) : Q := match rows with [] => b | r :: rest => lastBO (BO r) rest end.
Fixpoint lastP (p : Q) (rows : list row) : Q := match rows with [] => p | r :: rest => lastP (P r) rest end.

Definition isConstant (e : ending) : bool := match e with Constant => true | _ => false end.
Definition isFalls (e : ending) : bool := match e with Falls => true | _ => false end.

Lemma readRows_spec : forall rows z i bo0 po0 c,
  exists k e,
    let c' := readRows z i bo0 po0 rows c in
    growsFrom bo0 (firstn k rows) /\
    pbubRs c' = pbubRs c ++ map (fun r => (RS r, P r)) (firstn k (numberedFrom i rows)) /\
    pbubRv c' = pbubRv c ++ map (fun r => (RV r, P r)) (firstn k (numberedFrom i rows)) /\
    samples c' = samples c ++ firstn (if isConstant e then S k else k) (numberedFrom i rows) /\
    setsZLim c' = setsZLim c || isFalls e /\
    (isFalls e = false -> oilCmp c' = oilCmp c) /\
    (isConstant e = false -> gasCmp c' = gasCmp c) /\
    match e with
    | ToTheEnd => k = length rows
    | Falls => exists r', nth_error rows k = Some r' /\ BO r' < lastBO bo0 (firstn k rows) /\
                 oilCmp c' = quotient (BO r' - lastBO bo0 (firstn k rows)) (P r' - lastP po0 (firstn k rows))
    | Constant => exists r', nth_error rows k = Some r' /\ BO r' == lastBO bo0 (firstn k rows) /\
                 gasCmp c' = match nth_error rows (S k) with
                             | Some r2 => if negb (Qle_bool 1 z)
                                          then quotient (BG r2 - BG r') (RV r2 + shift (k + i) - (RV r' + shift (k + i)))
                                          else gasCmp c
                             | None => gasCmp c
                             end
    end.
Proof.
  induction rows as [|r rest IH]; intros z i bo0 po0 c.
  - exists 0%nat, ToTheEnd. cbn. rewrite !app_nil_r, orb_false_r. repeat split.
  - cbn [readRows]. destruct (Qle_bool bo0 (BO r)) eqn:L; [destruct (Qeq_bool bo0 (BO r)) eqn:Q|].
    + exists 0%nat, Constant. apply Qeq_bool_iff in Q. cbn [firstn samples pbubRs pbubRv oilCmp gasCmp setsZLim isConstant isFalls map growsFrom lastBO].
      rewrite numberedFrom_cons, !app_nil_r, orb_false_r. cbn [firstn].
      repeat split; try discriminate.
      exists r. split; [reflexivity|]. split; [symmetry; exact Q|].
      destruct rest as [|r2 rest]; reflexivity.
    + apply Qle_bool_iff in L.
      assert (G : bo0 < BO r).
      { apply Qle_lteq in L. destruct L as [L|L]; [exact L|]. apply Qeq_bool_iff in L. congruence. }
      set (c1 := mkColumn _ _ _ _ _ _).
      destruct (IH z (S i) (BO r) (P r) c1) as (k & e & K1 & K2 & K3 & K4 & K5 & K6 & K7 & K8).
      exists (S k), e. cbn [firstn]. cbv zeta. rewrite numberedFrom_cons.
      split; [split; assumption|].
      split; [rewrite K2; unfold c1; cbn [pbubRs map firstn]; rewrite <- app_assoc; reflexivity|].
      split; [rewrite K3; unfold c1; cbn [pbubRv map firstn]; rewrite <- app_assoc; reflexivity|].
      split; [rewrite K4; unfold c1; cbn [samples]; rewrite <- app_assoc; destruct (isConstant e); reflexivity|].
      split; [rewrite K5; reflexivity|]. split; [intros X; rewrite (K6 X); reflexivity|].
      split; [intros X; rewrite (K7 X); reflexivity|].
      destruct e.
      * cbn [length]. congruence.
      * exact K8.
      * destruct K8 as (r' & A & B & D). exists r'. split; [exact A|]. split; [exact B|].
        rewrite D. cbn [nth_error]. replace (S k + i)%nat with (k + S i)%nat by lia. reflexivity.
    + apply Qle_bool_false in L. exists 0%nat, Falls. cbn. rewrite !app_nil_r, orb_true_r.
      repeat split; try discriminate. exists r. repeat split; assumption.
Qed.

Lemma growsFrom_growing : forall rows b, growsFrom b rows -> growing rows.
Proof.
  induction rows as [|r rest IH]; intros b G i x y H1 H2; [destruct i; discriminate|].
  destruct G as [G1 G2]. destruct i.
  - cbn in H1. injection H1 as <-. cbn in H2. destruct rest as [|s rest]; [discriminate|]. cbn in H2. injection H2 as <-.
    destruct G2; assumption.
  - exact (IH _ G2 i x y H1 H2).
Qed.

Lemma lastBO_nth : forall rows b k r, nth_error rows k = Some r -> lastBO b (firstn (S k) rows) = BO r.
Proof.
  induction rows as [|s rest IH]; intros b k r H; [destruct k; discriminate|].
  destruct k; cbn in H; [injection H as <-; reflexivity|].
  change (lastBO (BO s) (firstn (S k) rest) = BO r). apply IH; exact H.
Qed.

Lemma lastP_nth : forall rows b k r, nth_error rows k = Some r -> lastP b (firstn (S k) rows) = P r.
Proof.
  induction rows as [|s rest IH]; intros b k r H; [destruct k; discriminate|].
  destruct k; cbn in H; [injection H as <-; reflexivity|].
  change (lastP (P s) (firstn (S k) rest) = P r). apply IH; exact H.
Qed.

Lemma nth_before : forall (rows : list row) k r', nth_error rows (S k) = Some r' -> exists r, nth_error rows k = Some r.
Proof.
  intros rows k r' H. assert (S k < length rows)%nat by (apply nth_error_Some; congruence).
  destruct (nth_error rows k) eqn:E; [eauto|]. apply nth_error_None in E. lia.
Qed.

(** ** Interpolation *)
Lemma interpolate_proper : forall t x y, x == y -> interpolate t x == interpolate t y.
Proof.
  induction t as [|[x1 y1] t IH]; intros x y E; [reflexivity|]. cbn [interpolate].
  destruct t as [|[x2 y2] t]; [reflexivity|].
  assert (B : Qle_bool x x2 = Qle_bool y x2).
  { destruct (Qle_bool x x2) eqn:L, (Qle_bool y x2) eqn:L'; try reflexivity.
    - apply Qle_bool_iff in L. apply Qle_bool_false in L'. rewrite E in L. exfalso; apply (Qlt_not_le _ _ L' L).
    - apply Qle_bool_iff in L'. apply Qle_bool_false in L. rewrite E in L. exfalso; apply (Qlt_not_le _ _ L L'). }
  rewrite B. destruct (Qle_bool y x2); [rewrite E; reflexivity|]. apply IH; exact E.
Qed.

(** Both coordinates increase strictly. *)
Fixpoint rising (t : list (Q * Q)) : Prop :=
  match t with
  | [] => True
  | (x1, y1) :: t' => match t' with [] => True | (x2, y2) :: _ => x1 < x2 /\ y1 < y2 /\ rising t' end
  end.

Definition lastX (t : list (Q * Q)) : Q := fst (last t (0, 0)).
Definition swap (t : list (Q * Q)) : list (Q * Q) := map (fun xy => (snd xy, fst xy)) t.

Lemma quot_bounds : forall a b, 0 <= a -> a <= b -> 0 < b -> 0 <= a / b /\ a / b <= 1.
Proof.
  intros a b A B C. split; [apply Qle_shift_div_l; lra|apply Qle_shift_div_r; lra].
Qed.

Lemma line_above : forall x1 y1 x2 y2 x,
  x1 < x2 -> y1 < y2 -> x1 < x -> y1 < y1 + (y2 - y1) * ((x - x1) / (x2 - x1)).
Proof.
  intros x1 y1 x2 y2 x A B C.
  assert (D : 0 < (x - x1) / (x2 - x1)) by (apply Qlt_shift_div_l; lra).
  set (d := (x - x1) / (x2 - x1)) in *. nra.
Qed.

Lemma line_below : forall x1 y1 x2 y2 x,
  x1 < x2 -> y1 < y2 -> x <= x2 -> y1 + (y2 - y1) * ((x - x1) / (x2 - x1)) <= y2.
Proof.
  intros x1 y1 x2 y2 x A B C.
  assert (D : (x - x1) / (x2 - x1) <= 1) by (apply Qle_shift_div_r; lra).
  set (d := (x - x1) / (x2 - x1)) in *. nra.
Qed.

Lemma rising_head : forall t x1 y1 x, rising ((x1, y1) :: t) -> x1 < x -> x <= lastX ((x1, y1) :: t) ->
  y1 < interpolate ((x1, y1) :: t) x.
Proof.
  induction t as [|[x2 y2] t IH]; intros x1 y1 x R A B.
  - unfold lastX in B; cbn in B. exfalso; apply (Qlt_not_le _ _ A B).
  - destruct R as (R1 & R2 & R3). cbn [interpolate]. destruct (Qle_bool x x2) eqn:L.
    + apply line_above; assumption.
    + apply Qle_bool_false in L. eapply Qlt_trans; [exact R2|]. apply IH; assumption.
Qed.

Lemma inverse : forall t x1 y1 x, rising ((x1, y1) :: t) -> x1 <= x -> x <= lastX ((x1, y1) :: t) ->
  interpolate (swap ((x1, y1) :: t)) (interpolate ((x1, y1) :: t) x) == x.
Proof.
  induction t as [|[x2 y2] t IH]; intros x1 y1 x R A B.
  - unfold lastX in B; cbn in *. apply Qle_antisym; assumption.
  - destruct R as (R1 & R2 & R3). cbn [interpolate]. destruct (Qle_bool x x2) eqn:L.
    + apply Qle_bool_iff in L. cbn [swap map fst snd interpolate].
      pose proof (line_below x1 y1 x2 y2 x R1 R2 L) as W. apply Qle_bool_iff in W. rewrite W.
      field. split; lra.
    + apply Qle_bool_false in L.
      assert (U : y2 < interpolate ((x2, y2) :: t) x) by (apply rising_head; [exact R3|exact L|exact B]).
      change (interpolate ((y1, x1) :: swap ((x2, y2) :: t)) (interpolate ((x2, y2) :: t) x) == x).
      cbn [swap map fst snd]. set (y := interpolate ((x2, y2) :: t) x) in *.
      cbn [interpolate]. rewrite (Qle_bool_gt _ _ U).
      apply (IH x2 y2 x R3); [apply Qlt_le_weak; exact L|exact B].
Qed.

Lemma interpolate_prefix : forall t x1 y1 t' x,
  rising (((x1, y1) :: t) ++ t') -> x1 <= x -> x <= lastX ((x1, y1) :: t) ->
  interpolate (((x1, y1) :: t) ++ t') x == interpolate ((x1, y1) :: t) x.
Proof.
  induction t as [|[x2 y2] t IH]; intros x1 y1 t' x R A B.
  - unfold lastX in B; cbn in B. assert (E : x == x1) by (apply Qle_antisym; assumption).
    destruct t' as [|[x2 y2] t']; [reflexivity|]. destruct R as (R1 & R2 & _). cbn [app interpolate].
    assert (L : Qle_bool x x2 = true) by (apply Qle_bool_iff; lra). rewrite L, E. field. lra.
  - destruct R as (R1 & R2 & R3). cbn [app interpolate]. destruct (Qle_bool x x2) eqn:L; [reflexivity|].
    apply Qle_bool_false in L. apply (IH x2 y2 t' x R3); [apply Qlt_le_weak; exact L|exact B].
Qed.

(** ** The samples rise *)
Lemma shift_S : forall i, shift (S i) == shift i + (1 # 10000000000).
Proof. intros; unfold shift. rewrite Nat2Z.inj_succ. unfold Z.succ. rewrite inject_Z_plus. ring. Qed.

Lemma numbered_rising : forall rows i, physical rows ->
  rising (map (fun r => (P r, RS r)) (numberedFrom i rows)).
Proof.
  induction rows as [|r rest IH]; intros i H; [exact I|].
  rewrite numberedFrom_cons. destruct rest as [|s rest]; [exact I|].
  assert (T : physical (s :: rest)) by (intros n a b X Y; exact (H (S n) a b X Y)).
  specialize (IH (S i) T). rewrite numberedFrom_cons in *. cbn [map] in *.
  destruct (H 0%nat r s eq_refl eq_refl) as [A B].
  cbn [rising]. split; [exact A|]. split; [|exact IH].
  cbn [RS shifted]. rewrite shift_S. lra.
Qed.

Lemma rising_firstn : forall n t, rising t -> rising (firstn n t).
Proof.
  induction n as [|n IH]; intros [|[x1 y1] t] R; try exact I.
  destruct t as [|[x2 y2] t]; [destruct n; exact I|].
  destruct R as (A & B & C). specialize (IH _ C). destruct n; [exact I|].
  cbn [firstn] in *. repeat split; assumption.
Qed.
