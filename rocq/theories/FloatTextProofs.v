From Coq Require Import Qpower Lqa.
From Verif Require Import FloatTextModel FloatTextSpec StepFileProofs.
Open Scope Q_scope.

(** ** Powers *)
Lemma bpow_pos b e : (2 <= b)%Z -> 0 < bpow b e.
Proof. intros H. unfold bpow. apply Qpower_0_lt. change 0 with (inject_Z 0). rewrite <- Zlt_Qlt. lia. Qed.
Lemma bpow_plus b e f : (2 <= b)%Z -> bpow b (e + f) == bpow b e * bpow b f.
Proof.
  intros H. unfold bpow. apply Qpower_plus. intros E. change 0 with (inject_Z 0) in E.
  rewrite inject_Z_injective in E. lia.
Qed.
Lemma bpow_Z b n : (0 <= n)%Z -> bpow b n == inject_Z (b ^ n).
Proof. intros H. unfold bpow. rewrite Zpower_Qpower by auto. reflexivity. Qed.
Lemma bpow_0 b : bpow b 0 == 1. Proof. reflexivity. Qed.
Lemma bpow_opp b e : (2 <= b)%Z -> bpow b (- e) * bpow b e == 1.
Proof. intros H. rewrite <- bpow_plus by auto. replace (- e + e)%Z with 0%Z by lia. reflexivity. Qed.
Lemma bpow_succ b e : (2 <= b)%Z -> bpow b (e + 1) == bpow b e * inject_Z b.
Proof. intros H. rewrite bpow_plus by auto. unfold bpow at 2. cbn. reflexivity. Qed.
Lemma bpow_le b e f : (2 <= b)%Z -> (e <= f)%Z -> bpow b e <= bpow b f.
Proof.
  intros H L. replace f with (e + (f - e))%Z by lia. rewrite bpow_plus by auto.
  rewrite (bpow_Z b (f - e)) by lia. pose proof (bpow_pos b e H).
  assert (1 <= inject_Z (b ^ (f - e))).
  { change 1 with (inject_Z 1). rewrite <- Zle_Qle. assert (0 < b ^ (f - e))%Z by (apply Z.pow_pos_nonneg; lia). lia. }
  nra.
Qed.
Lemma bpow_lt_inv b e f : (2 <= b)%Z -> bpow b e < bpow b f -> (e < f)%Z.
Proof. intros H L. destruct (Z.lt_ge_cases e f) as [|G]; auto. pose proof (bpow_le b f e H G). lra. Qed.

(** ** Logarithms *)
Lemma zlog_fuel_spec f b n : (2 <= b)%Z -> (1 <= n < 2 ^ Z.of_nat f)%Z ->
  (0 <= zlog_fuel f b n)%Z /\ (b ^ zlog_fuel f b n <= n < b ^ (zlog_fuel f b n + 1))%Z.
Proof.
  intros Hb. revert n. induction f as [|f IH]; intros n Hn.
  - cbn in Hn. lia.
  - cbn [zlog_fuel]. destruct (Z.ltb_spec n b) as [L|L].
    + cbn. lia.
    + assert (H : (1 <= n / b < 2 ^ Z.of_nat f)%Z).
      { split; [apply Z.div_le_lower_bound; lia|]. apply Z.div_lt_upper_bound; [lia|].
        rewrite Nat2Z.inj_succ, Z.pow_succ_r in Hn by lia. nia. }
      destruct (IH _ H) as (P0 & P1 & P2). split; [lia|].
      set (k := zlog_fuel f b (n / b)) in *. 
      assert (Z1 : (b ^ (1 + k) = b * b ^ k)%Z) by (rewrite Z.pow_add_r by lia; lia).
      assert (Z2 : (b ^ (1 + k + 1) = b * b ^ (k + 1))%Z) by (replace (1 + k + 1)%Z with (1 + (k + 1))%Z by lia; rewrite (Z.pow_add_r b 1) by lia; lia).
      pose proof (Z.mul_div_le n b). pose proof (Z.mul_succ_div_gt n b). nia.
Qed.
Lemma zlog_spec b n : (2 <= b)%Z -> (1 <= n)%Z ->
  (0 <= zlog b n)%Z /\ (b ^ zlog b n <= n < b ^ (zlog b n + 1))%Z.
Proof.
  intros Hb Hn. apply zlog_fuel_spec; auto. split; auto.
  pose proof (Z.log2_nonneg n). rewrite Z2Nat.id by lia. apply Z.log2_spec. lia.
Qed.
Lemma flog_spec b q : (2 <= b)%Z -> 0 < q -> bpow b (flog b q) <= q < bpow b (flog b q + 1).
Proof.
  intros Hb Hq. destruct q as [n d]. unfold flog. cbn [Qnum Qden].
  assert (Hn : (1 <= n)%Z) by (unfold Qlt in Hq; cbn in Hq; lia).
  destruct (zlog_spec b n Hb Hn) as (A0 & A1 & A2). destruct (zlog_spec b (Zpos d) Hb) as (B0 & B1 & B2); [lia|].
  set (k := zlog b n) in *. set (l := zlog b (Zpos d)) in *.
  assert (Eq : n # d == inject_Z n / inject_Z (Zpos d)) by (unfold Qeq, Qdiv, Qinv, Qmult, inject_Z; cbn; lia).
  assert (Dp : 0 < inject_Z (Zpos d)) by reflexivity.
  assert (Q1 : inject_Z n == (n # d) * inject_Z (Zpos d)) by (rewrite Eq; field; intros E; rewrite E in Dp; discriminate).
  assert (L1 : bpow b k <= inject_Z n) by (rewrite bpow_Z by lia; rewrite <- Zle_Qle; auto).
  assert (L2 : inject_Z n < bpow b (k + 1)) by (rewrite bpow_Z by lia; rewrite <- Zlt_Qlt; auto).
  assert (M1 : bpow b l <= inject_Z (Zpos d)) by (rewrite bpow_Z by lia; rewrite <- Zle_Qle; auto).
  assert (M2 : inject_Z (Zpos d) < bpow b (l + 1)) by (rewrite bpow_Z by lia; rewrite <- Zlt_Qlt; auto).
  pose proof (bpow_pos b l Hb) as Pl. pose proof (bpow_pos b (k - l) Hb) as Pkl.
  assert (U : n # d < bpow b (k - l + 1)).
  { apply Qnot_le_lt. intros C. assert (bpow b (k - l + 1) * bpow b l <= (n # d) * inject_Z (Zpos d)) by nra.
    rewrite <- bpow_plus in H by auto. replace (k - l + 1 + l)%Z with (k + 1)%Z in H by lia. lra. }
  assert (Lo : bpow b (k - l - 1) <= n # d).
  { apply Qnot_lt_le. intros C. pose proof (bpow_pos b (k - l - 1) Hb).
    assert ((n # d) * inject_Z (Zpos d) < bpow b (k - l - 1) * bpow b (l + 1)) by nra.
    rewrite <- bpow_plus in H0 by auto. replace (k - l - 1 + (l + 1))%Z with k in H0 by lia. lra. }
  destruct (Qle_bool (bpow b (k - l)) (n # d)) eqn:T.
  - apply Qle_bool_iff in T. auto.
  - split; auto. replace (k - l - 1 + 1)%Z with (k - l)%Z by lia.
    apply Qnot_le_lt. intros C. apply Qle_bool_iff in C. congruence.
Qed.
Lemma flog_unique b q e : (2 <= b)%Z -> bpow b e <= q -> q < bpow b (e + 1) -> flog b q = e.
Proof.
  intros Hb H1 H2. assert (Hq : 0 < q) by (pose proof (bpow_pos b e Hb); lra).
  destruct (flog_spec b q Hb Hq) as [F1 F2].
  assert (bpow b e < bpow b (flog b q + 1)) as A by lra. apply bpow_lt_inv in A; auto.
  assert (bpow b (flog b q) < bpow b (e + 1)) as B by lra. apply bpow_lt_inv in B; auto. lia.
Qed.
Lemma flog_Qeq b q q' : (2 <= b)%Z -> 0 < q -> q == q' -> flog b q = flog b q'.
Proof.
  intros Hb Hq E. assert (Hq' : 0 < q') by (rewrite <- E; auto). destruct (flog_spec b q' Hb Hq') as [A B].
  apply flog_unique; auto; rewrite E; auto.
Qed.

(** ** Rounding to an integer *)
Lemma rndeven_half q : Qabs (q - inject_Z (rndeven q)) <= 1 # 2.
Proof.
  unfold rndeven. pose proof (Qfloor_le q) as F1. pose proof (Qlt_floor q) as F2.
  rewrite inject_Z_plus in F2. set (f := Qfloor q) in *. 
  destruct (Qcompare_spec (q - inject_Z f) (1 # 2)) as [C|C|C].
  - destruct (Z.even f); [|rewrite inject_Z_plus]; apply Qabs_Qle_condition; split; change (inject_Z 1) with 1 in *; lra.
  - apply Qabs_Qle_condition; split; lra.
  - rewrite inject_Z_plus. apply Qabs_Qle_condition; split; change (inject_Z 1) with 1 in *; lra.
Qed.
Lemma int_close a b : Qabs (inject_Z a - inject_Z b) < 1 -> a = b.
Proof.
  intros H. apply Qabs_Qlt_condition in H. destruct H as [H1 H2].
  assert (inject_Z a < inject_Z (b + 1)) by (rewrite inject_Z_plus; change (inject_Z 1) with 1; lra).
  assert (inject_Z b < inject_Z (a + 1)) by (rewrite inject_Z_plus; change (inject_Z 1) with 1; lra).
  rewrite <- Zlt_Qlt in *. lia.
Qed.
Lemma rndeven_near q z : Qabs (q - inject_Z z) < 1 # 2 -> rndeven q = z.
Proof.
  intros H. apply int_close. pose proof (rndeven_half q) as R.
  apply Qabs_Qlt_condition in H. apply Qabs_Qle_condition in R. apply Qabs_Qlt_condition. split; lra.
Qed.
Lemma rndeven_best q z : Qabs (q - inject_Z (rndeven q)) <= Qabs (q - inject_Z z).
Proof.
  destruct (Qlt_le_dec (Qabs (q - inject_Z z)) (1 # 2)) as [L|L].
  - rewrite (rndeven_near _ _ L). apply Qle_refl.
  - eapply Qle_trans; [apply rndeven_half|auto].
Qed.
Lemma rndeven_Qeq q q' : q == q' -> rndeven q = rndeven q'.
Proof.
  intros E. unfold rndeven. rewrite (Qfloor_comp _ _ E). 
  replace (Qcompare (q' - inject_Z (Qfloor q')) (1 # 2)) with (Qcompare (q - inject_Z (Qfloor q')) (1 # 2)); auto.
  apply Qcompare_comp; [rewrite E; reflexivity|reflexivity].
Qed.
Lemma rndeven_opp q : rndeven (- q) = (- rndeven q)%Z.
Proof.
  pose proof (Qfloor_le q) as F1. pose proof (Qlt_floor q) as F2. rewrite inject_Z_plus in F2. change (inject_Z 1) with 1 in F2.
  assert (Fl : forall x z, inject_Z z <= x -> x < inject_Z z + 1 -> Qfloor x = z).
  { intros x z H1 H2. pose proof (Qfloor_le x) as G1. pose proof (Qlt_floor x) as G2. rewrite inject_Z_plus in G2. change (inject_Z 1) with 1 in G2.
    apply int_close. apply Qabs_Qlt_condition. split; lra. }
  unfold rndeven at 2. destruct (Qcompare_spec (q - inject_Z (Qfloor q)) (1 # 2)) as [C|C|C].
  - assert (E : Qfloor (- q) = (- Qfloor q - 1)%Z).
    { apply Fl; unfold Z.sub; rewrite inject_Z_plus, !inject_Z_opp; change (inject_Z 1) with 1; lra. }
    unfold rndeven. rewrite E.
    destruct (Qcompare_spec (- q - inject_Z (- Qfloor q - 1)) (1 # 2)) as [K|K|K];
      unfold Z.sub in K; rewrite inject_Z_plus, !inject_Z_opp in K; change (inject_Z 1) with 1 in K; try (exfalso; lra).
    replace (- Qfloor q - 1)%Z with (- (Qfloor q + 1))%Z by lia. rewrite Z.even_opp.
    replace (Qfloor q + 1)%Z with (Z.succ (Qfloor q)) by lia. rewrite Z.even_succ, <- Z.negb_even.
    destruct (Z.even (Qfloor q)); cbn; lia.
  - apply rndeven_near. rewrite inject_Z_opp. apply Qabs_Qlt_condition. split; lra.
  - apply rndeven_near. rewrite inject_Z_opp, inject_Z_plus. change (inject_Z 1) with 1. apply Qabs_Qlt_condition. split; lra.
Qed.

(** ** Rounding to double *)
Lemma two : (2 <= 2)%Z. Proof. lia. Qed.
Lemma ten : (2 <= 10)%Z. Proof. lia. Qed.
#[export] Hint Resolve two ten : core.

Definition expo (q : Q) : Z := Z.max (-1074) (flog 2 (Qabs q) - 52).

Lemma round64_nz q : ~ q == 0 -> round64 q = inject_Z (rndeven (q / bpow 2 (expo q))) * bpow 2 (expo q).
Proof. intros H. unfold round64. destruct (Qeq_bool q 0) eqn:E; [apply Qeq_bool_iff in E; tauto|reflexivity]. Qed.

Lemma abs_pos q : ~ q == 0 -> 0 < Qabs q.
Proof. intros H. pose proof (Qabs_nonneg q). destruct (Qlt_le_dec 0 (Qabs q)); auto. exfalso. apply H.
  apply Qle_antisym; [pose proof (Qle_Qabs q)|pose proof (Qle_Qabs (-q)) as K; rewrite Qabs_opp in K]; lra. Qed.

Lemma Qabs_scale x k : 0 < k -> Qabs (x * k) == Qabs x * k.
Proof. intros H. rewrite Qabs_Qmult. rewrite (Qabs_pos k) by lra. reflexivity. Qed.

Lemma div_mul x k : 0 < k -> (x / k) * k == x.
Proof. intros H. field. intros E. rewrite E in H. discriminate. Qed.

Lemma Qabs_inj z : Qabs (inject_Z z) = inject_Z (Z.abs z).
Proof. reflexivity. Qed.

Lemma round64_double q : is_double (round64 q).
Proof.
  destruct (Qeq_dec q 0) as [Z|NZ].
  - unfold round64. apply Qeq_bool_iff in Z. rewrite Z. exists 0%Z, 0%Z. split; [|split]; [reflexivity|lia|reflexivity].
  - rewrite (round64_nz q NZ). set (e := expo q). set (m := rndeven (q / bpow 2 e)).
    pose proof (abs_pos q NZ) as Ap. destruct (flog_spec 2 (Qabs q) two Ap) as [F1 F2].
    assert (B : Qabs (q / bpow 2 e) < inject_Z (2 ^ 53)).
    { apply Qnot_le_lt. intros C. pose proof (bpow_pos 2 e two) as P.
      assert (inject_Z (2 ^ 53) * bpow 2 e <= Qabs (q / bpow 2 e) * bpow 2 e) as D by nra.
      rewrite <- Qabs_scale, div_mul in D by auto. rewrite <- bpow_Z, <- bpow_plus in D by (auto; lia).
      assert (bpow 2 (flog 2 (Qabs q) + 1) <= bpow 2 (53 + e)) by (apply bpow_le; auto; unfold e, expo; lia). lra. }
    assert (M : (Z.abs m <= 2 ^ 53)%Z).
    { pose proof (rndeven_half (q / bpow 2 e)) as R. fold m in R.
      assert (inject_Z (Z.abs m) < inject_Z (2 ^ 53 + 1)).
      { rewrite <- Qabs_inj, inject_Z_plus. change (inject_Z 1) with 1.
        pose proof (Qabs_triangle (q / bpow 2 e) (inject_Z m - q / bpow 2 e)) as T.
        assert (E : q / bpow 2 e + (inject_Z m - q / bpow 2 e) == inject_Z m) by ring. rewrite E in T.
        rewrite Qabs_Qminus in R. lra. }
      rewrite <- Zlt_Qlt in H. lia. }
    destruct (Z.eq_dec (Z.abs m) (2 ^ 53)) as [EQ|NE].
    + exists (m / 2)%Z, (e + 1)%Z. 
      assert (D : (m = 2 * (m / 2))%Z).
      { destruct (Z.abs_spec m) as [[_ A]|[_ A]]; rewrite A in EQ.
        - rewrite EQ. reflexivity.
        - assert (m = - 2 ^ 53)%Z as -> by lia. reflexivity. }
      split; [|split].
      * lia.
      * unfold e, expo; lia.
      * change (Qpower 2 (e + 1)) with (bpow 2 (e + 1)). rewrite bpow_succ by auto. rewrite D at 1. rewrite inject_Z_mult. ring.
    + exists m, e. split; [lia|]. split; [unfold e, expo; lia|]. reflexivity.
Qed.

(** A double in the form with the largest possible mantissa. *)
Lemma double_normal x : is_double x -> ~ x == 0 ->
  exists m, (Z.abs m < 2 ^ 53)%Z /\ x == inject_Z m * bpow 2 (expo x) /\ (expo x = (-1074)%Z \/ (2 ^ 52 <= Z.abs m)%Z).
Proof.
  intros (m & e & Hm & He & Hx) NZ. change (Qpower 2 e) with (bpow 2 e) in Hx.
  pose proof (abs_pos x NZ) as Ap. destruct (flog_spec 2 (Qabs x) two Ap) as [F1 F2].
  pose proof (bpow_pos 2 e two) as Pe.
  assert (Ax : Qabs x == inject_Z (Z.abs m) * bpow 2 e) by (rewrite Hx, Qabs_scale by auto; reflexivity).
  assert (L : (expo x <= e)%Z).
  { assert (bpow 2 (flog 2 (Qabs x)) < bpow 2 (53 + e)) as C.
    { rewrite bpow_plus, (bpow_Z 2 53) by (auto; lia). eapply Qle_lt_trans; [exact F1|]. rewrite Ax.
      assert (inject_Z (Z.abs m) < inject_Z (2 ^ 53)) by (rewrite <- Zlt_Qlt; auto). nra. }
    apply bpow_lt_inv in C; auto. unfold expo. lia. }
  exists (m * 2 ^ (e - expo x))%Z.
  assert (X : x == inject_Z (m * 2 ^ (e - expo x)) * bpow 2 (expo x)).
  { rewrite inject_Z_mult, <- bpow_Z by lia. rewrite Hx at 1.
    replace (bpow 2 e) with (bpow 2 ((e - expo x) + expo x)) by (f_equal; lia). rewrite bpow_plus by auto. ring. }
  set (m' := (m * 2 ^ (e - expo x))%Z) in *.
  pose proof (bpow_pos 2 (expo x) two) as Pp.
  assert (A' : Qabs x == inject_Z (Z.abs m') * bpow 2 (expo x)) by (rewrite X at 1; rewrite Qabs_scale by auto; reflexivity).
  assert (U : (Z.abs m' < 2 ^ 53)%Z).
  { rewrite Zlt_Qlt. apply Qnot_le_lt. intros C.
    assert (inject_Z (2 ^ 53) * bpow 2 (expo x) <= Qabs x) as D by (rewrite A'; nra).
    rewrite <- bpow_Z, <- bpow_plus in D by (auto; lia).
    assert (bpow 2 (flog 2 (Qabs x) + 1) <= bpow 2 (53 + expo x)) by (apply bpow_le; auto; unfold expo; lia). lra. }
  split; auto. split; auto.
  destruct (Z.eq_dec (expo x) (-1074)) as [|NE]; auto. right.
  rewrite Zle_Qle. apply Qnot_lt_le. intros C.
  assert (Qabs x < inject_Z (2 ^ 52) * bpow 2 (expo x)) as D by (rewrite A'; nra).
  rewrite <- bpow_Z, <- bpow_plus in D by (auto; lia).
  assert (52 + expo x = flog 2 (Qabs x))%Z as E by (unfold expo in *; lia). rewrite E in D. lra.
Qed.

Lemma closest_grid q d k : ~ q == 0 -> d == inject_Z k * bpow 2 (expo q) -> Qabs (q - round64 q) <= Qabs (q - d).
Proof.
  intros NZ Hd. rewrite (round64_nz q NZ), Hd. set (e := expo q). pose proof (bpow_pos 2 e two) as P.
  assert (G : forall z, Qabs (q - inject_Z z * bpow 2 e) == Qabs (q / bpow 2 e - inject_Z z) * bpow 2 e).
  { intros z. rewrite <- Qabs_scale by auto.
    assert (A : q - inject_Z z * bpow 2 e == (q / bpow 2 e - inject_Z z) * bpow 2 e).
    { pose proof (div_mul q (bpow 2 e) P) as D. rewrite <- D at 1. ring. }
    rewrite A. reflexivity. }
  rewrite !G. pose proof (rndeven_best (q / bpow 2 e) k). nra.
Qed.

Lemma round64_closest q : closest_double q (round64 q).
Proof.
  split; [apply round64_double|]. intros d (m & e & Hm & He & Hd). change (Qpower 2 e) with (bpow 2 e) in Hd.
  destruct (Qeq_dec q 0) as [Z|NZ].
  - unfold round64. assert (Qeq_bool q 0 = true) as -> by (apply Qeq_bool_iff; auto). rewrite Z at 1. change (Qabs (0 - 0)) with 0. apply Qabs_nonneg.
  - destruct (Z.le_gt_cases (expo q) e) as [L|G].
    + apply (closest_grid q d (m * 2 ^ (e - expo q))%Z); auto.
      rewrite inject_Z_mult, <- bpow_Z by lia. rewrite Hd.
      replace (bpow 2 e) with (bpow 2 ((e - expo q) + expo q)) by (f_equal; lia). rewrite bpow_plus by auto. ring.
    + pose proof (abs_pos q NZ) as Ap. destruct (flog_spec 2 (Qabs q) two Ap) as [F1 F2].
      assert (Ef : (flog 2 (Qabs q) = 52 + expo q)%Z) by (unfold expo in *; lia).
      rewrite Ef in F1. set (g := bpow 2 (52 + expo q)) in *.
      assert (Dg : Qabs d <= g).
      { rewrite Hd. pose proof (bpow_pos 2 e two). rewrite Qabs_scale by auto. rewrite Qabs_inj.
        assert (inject_Z (Z.abs m) <= inject_Z (2 ^ 53)) by (rewrite <- Zle_Qle; lia).
        assert (bpow 2 53 * bpow 2 e <= g) as K by (rewrite <- bpow_plus by auto; apply bpow_le; auto; lia).
        rewrite bpow_Z in K by lia. nra. }
      assert (Gp : 0 < g) by (apply bpow_pos; auto).
      assert (Gz : g == inject_Z (2 ^ 52) * bpow 2 (expo q)) by (unfold g; rewrite bpow_plus, (bpow_Z 2 52) by (auto; lia); reflexivity).
      pose proof (Qle_Qabs d) as D1. pose proof (Qle_Qabs (- d)) as D2. rewrite Qabs_opp in D2.
      destruct (Qlt_le_dec q 0) as [N|Pq].
      * eapply Qle_trans; [apply (closest_grid q (- g) (- 2 ^ 52)%Z); auto; rewrite inject_Z_opp, Gz; ring|].
        rewrite (Qabs_neg q) in F1 by lra.
        rewrite (Qabs_neg (q - - g)) by lra. rewrite (Qabs_neg (q - d)) by lra. lra.
      * eapply Qle_trans; [apply (closest_grid q g (2 ^ 52)%Z); auto|].
        rewrite (Qabs_pos q) in F1 by lra.
        rewrite (Qabs_pos (q - g)) by lra. rewrite (Qabs_pos (q - d)) by lra. lra.
Qed.

Lemma inject_ge1 z : z <> 0%Z -> 1 <= Qabs (inject_Z z).
Proof. intros H. rewrite Qabs_inj. change 1 with (inject_Z 1). rewrite <- Zle_Qle. lia. Qed.

(** Other doubles are not too close to [x]. *)
Lemma double_spacing x d : is_double x -> ~ x == 0 -> is_double d -> ~ d == x -> bpow 2 (expo x - 1) <= Qabs (d - x).
Proof.
  intros Dx NZ (k & e & Hk & He & Hd) NE. change (Qpower 2 e) with (bpow 2 e) in Hd.
  destruct (double_normal x Dx NZ) as (m & Hm & Hx & Hn).
  destruct (Z.le_gt_cases (expo x - 1) e) as [L|G].
  - set (f := (expo x - 1)%Z) in *. pose proof (bpow_pos 2 f two) as P.
    assert (E : d - x == inject_Z (k * 2 ^ (e - f) - 2 * m) * bpow 2 f).
    { rewrite Hd, Hx at 1. unfold Z.sub at 1. rewrite inject_Z_plus, inject_Z_opp, !inject_Z_mult, <- bpow_Z by lia.
      replace (bpow 2 e) with (bpow 2 ((e - f) + f)) by (f_equal; lia). rewrite bpow_plus by auto.
      replace (bpow 2 (expo x)) with (bpow 2 (f + 1)) by (f_equal; unfold f; lia). rewrite bpow_succ by auto. ring. }
    rewrite E, Qabs_scale by auto.
    assert (1 <= Qabs (inject_Z (k * 2 ^ (e - f) - 2 * m))).
    { apply inject_ge1. intros Z0. apply NE. rewrite Z0 in E. assert (d - x == 0) by (rewrite E; ring). lra. }
    nra.
  - destruct Hn as [Hn|Hn]; [lia|].
    assert (X : bpow 2 (52 + expo x) <= Qabs x).
    { rewrite Hx at 2. pose proof (bpow_pos 2 (expo x) two). rewrite Qabs_scale, Qabs_inj by auto.
      rewrite bpow_plus, (bpow_Z 2 52) by (auto; lia). assert (inject_Z (2 ^ 52) <= inject_Z (Z.abs m)) by (rewrite <- Zle_Qle; auto). nra. }
    assert (D : Qabs d <= bpow 2 (51 + expo x)).
    { rewrite Hd. pose proof (bpow_pos 2 e two). rewrite Qabs_scale by auto. rewrite Qabs_inj.
      assert (inject_Z (Z.abs k) <= inject_Z (2 ^ 53)) by (rewrite <- Zle_Qle; lia).
      assert (bpow 2 53 * bpow 2 e <= bpow 2 (51 + expo x)) as K by (rewrite <- bpow_plus by auto; apply bpow_le; auto; lia).
      rewrite bpow_Z in K by lia. nra. }
    replace (52 + expo x)%Z with (51 + expo x + 1)%Z in X by lia. rewrite bpow_succ in X by auto. change (inject_Z 2) with 2 in X.
    assert (bpow 2 (expo x - 1) <= bpow 2 (51 + expo x)) by (apply bpow_le; auto; lia).
    pose proof (Qabs_triangle (x - d) d) as T. assert (Ex : x - d + d == x) by ring. rewrite Ex in T.
    rewrite (Qabs_Qminus d x). lra.
Qed.

Lemma close_is_closest x y r : is_double x -> ~ x == 0 -> Qabs (y - x) < bpow 2 (expo x - 2) -> closest_double y r -> r == x.
Proof.
  intros Dx NZ C (Dr & Cr). destruct (Qeq_dec r x) as [|NE]; auto. exfalso.
  pose proof (double_spacing x r Dx NZ Dr NE) as S. specialize (Cr x Dx).
  pose proof (Qabs_triangle (r - y) (y - x)) as T. assert (E : r - y + (y - x) == r - x) by ring. rewrite E in T.
  rewrite (Qabs_Qminus r y) in T. replace (expo x - 1)%Z with (expo x - 2 + 1)%Z in S by lia. rewrite bpow_succ in S by auto.
  change (inject_Z 2) with 2 in S. lra.
Qed.

(** ** Decimal rounding *)
Lemma dec_err p q D E : 0 < q -> dec p q = (D, E) -> (1 <= p)%nat ->
  (10 ^ (Z.of_nat p - 1) <= D < 10 ^ Z.of_nat p)%Z /\
  Qabs (inject_Z D * bpow 10 (E - Z.of_nat p + 1) - q) * 2 <= bpow 10 (flog 10 q - Z.of_nat p + 1).
Proof.
  intros Hq H Hp. unfold dec in H. destruct (flog_spec 10 q ten Hq) as [F1 F2].
  set (F := flog 10 q) in *. set (u := bpow 10 (F - Z.of_nat p + 1)) in *.
  assert (Up : 0 < u) by (apply bpow_pos; auto).
  pose proof (rndeven_half (q / u)) as R. set (D0 := rndeven (q / u)) in *.
  assert (Err : Qabs (inject_Z D0 * u - q) * 2 <= u).
  { pose proof (div_mul q u Up) as Dm. rewrite <- Dm at 1.
    assert (A : inject_Z D0 * u - q / u * u == (inject_Z D0 - q / u) * u) by ring.
    rewrite A, Qabs_scale, (Qabs_Qminus (inject_Z D0)) by auto. nra. }
  assert (Lo : (10 ^ (Z.of_nat p - 1) <= D0)%Z).
  { assert (K : inject_Z (10 ^ (Z.of_nat p - 1)) <= q / u).
    { apply Qle_shift_div_l; auto. rewrite <- bpow_Z by lia. unfold u. rewrite <- bpow_plus by auto.
      replace (Z.of_nat p - 1 + (F - Z.of_nat p + 1))%Z with F by lia. auto. }
    apply Qabs_Qle_condition in R. apply Z.lt_succ_r. rewrite Zlt_Qlt. rewrite <- Z.add_1_r, inject_Z_plus.
    change (inject_Z 1) with 1. lra. }
  assert (Hi : (D0 <= 10 ^ Z.of_nat p)%Z).
  { assert (K : q / u < inject_Z (10 ^ Z.of_nat p)).
    { apply Qlt_shift_div_r; auto. rewrite <- bpow_Z by lia. unfold u. rewrite <- bpow_plus by auto.
      replace (Z.of_nat p + (F - Z.of_nat p + 1))%Z with (F + 1)%Z by lia. auto. }
    apply Qabs_Qle_condition in R. apply Z.lt_succ_r. rewrite Zlt_Qlt. rewrite <- Z.add_1_r, inject_Z_plus.
    change (inject_Z 1) with 1. lra. }
  destruct (Z.eqb_spec D0 (10 ^ Z.of_nat p)) as [T|T]; inversion H as [[H1 H2]].
  - split.
    + split; [lia|]. apply Z.pow_lt_mono_r; lia.
    + assert (V : inject_Z (10 ^ (Z.of_nat p - 1)) * bpow 10 (F + 1 - Z.of_nat p + 1) == inject_Z D0 * u).
      { rewrite T. unfold u. rewrite <- !bpow_Z, <- !bpow_plus by (auto; lia).
        replace (Z.of_nat p - 1 + (F + 1 - Z.of_nat p + 1))%Z with (Z.of_nat p + (F - Z.of_nat p + 1))%Z by lia. reflexivity. }
      rewrite V. auto.
  - subst D E. split; [lia|]. auto.
Qed.

(** Enough digits identify a double. *)
Lemma dec_identifies p x y r : is_double x -> ~ x == 0 -> (2 ^ 56 <= 10 ^ (Z.of_nat p - 1))%Z ->
  Qabs (y - x) * 2 <= bpow 10 (flog 10 (Qabs x) - Z.of_nat p + 1) -> closest_double y r -> r == x.
Proof.
  intros Dx NZ Hp C Cr. apply (close_is_closest x y r Dx NZ); auto.
  pose proof (abs_pos x NZ) as Ap. destruct (flog_spec 10 (Qabs x) ten Ap) as [F1 _]. destruct (flog_spec 2 (Qabs x) two Ap) as [_ G2].
  assert (X : Qabs x < bpow 2 (53 + expo x)).
  { eapply Qlt_le_trans; [exact G2|]. apply bpow_le; auto. unfold expo. lia. }
  assert (Pp : (0 <= Z.of_nat p - 1)%Z).
  { destruct (Z.le_gt_cases 0 (Z.of_nat p - 1)); auto. rewrite (Z.pow_neg_r 10) in Hp by auto. cbn in Hp. lia. }
  set (u := bpow 10 (flog 10 (Qabs x) - Z.of_nat p + 1)) in *. assert (Up : 0 < u) by (apply bpow_pos; auto).
  assert (U : u * inject_Z (10 ^ (Z.of_nat p - 1)) <= Qabs x).
  { rewrite <- bpow_Z by auto. unfold u. rewrite <- bpow_plus by auto.
    replace (flog 10 (Qabs x) - Z.of_nat p + 1 + (Z.of_nat p - 1))%Z with (flog 10 (Qabs x)) by lia. auto. }
  assert (U2 : u * inject_Z (2 ^ 56) <= Qabs x).
  { assert (inject_Z (2 ^ 56) <= inject_Z (10 ^ (Z.of_nat p - 1))) by (rewrite <- Zle_Qle; auto). nra. }
  replace (53 + expo x)%Z with (55 + (expo x - 2))%Z in X by lia. rewrite bpow_plus, (bpow_Z 2 55) in X by (auto; lia).
  pose proof (bpow_pos 2 (expo x - 2) two).
  change (inject_Z (2 ^ 56)) with (2 * inject_Z (2 ^ 55)) in U2. 
  assert (0 < inject_Z (2 ^ 55)) by reflexivity.
  apply Qnot_le_lt. intros K. assert (bpow 2 (expo x - 2) * 2 <= u) by lra. nra.
Qed.

(** ** Text *)
Lemma dig_ok k : (0 <= k <= 9)%Z -> is_digit (dig k) = true /\ digit_val (dig k) = k.
Proof.
  intros H. assert (C : (k = 0 \/ k = 1 \/ k = 2 \/ k = 3 \/ k = 4 \/ k = 5 \/ k = 6 \/ k = 7 \/ k = 8 \/ k = 9)%Z) by lia.
  repeat destruct C as [C|C]; subst; split; reflexivity.
Qed.
Lemma digs_length n v : length (digs n v) = n.
Proof. revert v. induction n as [|n IH]; intros v; cbn; auto. rewrite app_length, IH. cbn. lia. Qed.
Lemma digs_digits n v : (0 <= v)%Z -> Forall (fun c => is_digit c = true) (digs n v).
Proof.
  revert v. induction n as [|n IH]; intros v H; cbn; [constructor|]. apply Forall_app. split.
  - apply IH. apply Z.div_pos; lia.
  - constructor; [|constructor]. apply dig_ok. pose proof (Z.mod_pos_bound v 10). lia.
Qed.
Lemma digs_value n v : (0 <= v < 10 ^ Z.of_nat n)%Z -> nat_of_digits (digs n v) = v.
Proof.
  revert v. induction n as [|n IH]; intros v H.
  - cbn in H. unfold nat_of_digits. cbn. lia.
  - cbn [digs]. rewrite nod_app. cbn [length]. rewrite IH.
    + rewrite nod_cons. cbn [length]. unfold nat_of_digits. cbn [fold_left].
      pose proof (Z.mod_pos_bound v 10). destruct (dig_ok (v mod 10)) as [_ ->]; [lia|].
      pose proof (Z.div_mod v 10). change (Z.of_nat 1) with 1%Z. change (Z.of_nat 0) with 0%Z. rewrite Z.pow_0_r, Z.pow_1_r. lia.
    + rewrite Nat2Z.inj_succ, Z.pow_succ_r in H by lia. split; [apply Z.div_pos; lia|]. apply Z.div_lt_upper_bound; lia.
Qed.
Lemma ndigits_ok v : (0 <= v)%Z -> (0 <= v < 10 ^ Z.of_nat (ndigits v))%Z.
Proof.
  intros H. split; auto. unfold ndigits. destruct (Z.eq_dec v 0) as [->|NZ].
  - apply Z.pow_pos_nonneg; lia.
  - destruct (zlog_spec 10 v ten) as (A & B & C); [lia|]. rewrite Nat2Z.inj_succ, Z2Nat.id by auto. exact C.
Qed.
Lemma show_nat_ok v : (0 <= v)%Z ->
  Forall (fun c => is_digit c = true) (show_nat v) /\ nat_of_digits (show_nat v) = v /\ show_nat v <> [].
Proof.
  intros H. unfold show_nat. split; [apply digs_digits; auto|]. split; [apply digs_value; apply ndigits_ok; auto|].
  intros E. apply (f_equal (@length ascii)) in E. rewrite digs_length in E. unfold ndigits in E. discriminate.
Qed.

Lemma strip_frac l : frac_part (strip l) == frac_part l.
Proof.
  induction l as [|c r IH]; cbn [strip]; [reflexivity|]. destruct (strip r) as [|d s] eqn:E.
  - destruct (Ascii.eqb_spec c "0") as [->|]; cbn [frac_part] in *; rewrite <- IH; reflexivity.
  - cbn [frac_part] in *. rewrite <- IH. reflexivity.
Qed.
Lemma strip_digits l : Forall (fun c => is_digit c = true) l -> Forall (fun c => is_digit c = true) (strip l).
Proof.
  induction l as [|c r IH]; intros H; cbn; auto. inversion H as [|? ? Hc Hr]; subst. specialize (IH Hr).
  destruct (strip r) as [|d s]; [destruct (Ascii.eqb c "0")|]; auto.
Qed.
Lemma opt_frac_of l n : n_frac n = opt_frac l -> frac_of n = l.
Proof. unfold frac_of, opt_frac. intros ->. destruct l; reflexivity. Qed.
Lemma frac_zeros k l : frac_part (repeat "0"%char k ++ l) == frac_part l * bpow 10 (- Z.of_nat k).
Proof.
  induction k as [|k IH].
  - cbn. rewrite Qmult_1_r. reflexivity.
  - cbn [repeat app frac_part]. rewrite IH. change (digit "0") with 0.
    replace (- Z.of_nat (S k))%Z with (- Z.of_nat k + -1)%Z by lia. rewrite bpow_plus by auto.
    change (bpow 10 (-1)) with (/ 10). field.
Qed.
Lemma firstn_skipn_value k l : Forall (fun c => is_digit c = true) l -> (k <= length l)%nat ->
  int_part (firstn k l) + frac_part (skipn k l) == inject_Z (nat_of_digits l) * bpow 10 (- Z.of_nat (length l - k)).
Proof.
  intros H L. assert (Hl : Forall (fun c => is_digit c = true) (firstn k l ++ skipn k l)) by (rewrite firstn_skipn; auto).
  apply Forall_app in Hl. destruct Hl as [H1 H2]. rewrite int_part_nod, frac_part_nod by auto.
  assert (V : nat_of_digits l = nat_of_digits (firstn k l ++ skipn k l)) by (rewrite firstn_skipn; reflexivity).
  rewrite V, nod_app, inject_Z_plus, inject_Z_mult.
  rewrite skipn_length. set (j := Z.of_nat (length l - k)). change (Qpower 10 (- j)) with (bpow 10 (- j)).
  rewrite <- (bpow_Z 10 j) by (unfold j; lia). pose proof (bpow_opp 10 j ten) as O.
  transitivity (inject_Z (nat_of_digits (firstn k l)) * (bpow 10 (- j) * bpow 10 j) + inject_Z (nat_of_digits (skipn k l)) * bpow 10 (- j)); [rewrite O; ring|ring].
Qed.

Lemma fmt_ok p x : (1 <= p)%nat -> well_formed (fmt_g p x).
Proof.
  intros Hp. unfold fmt_g. destruct (Qeq_bool x 0) eqn:Z0.
  { split; [|split; [|split]]; cbn; try discriminate; repeat constructor. }
  assert (NZ : ~ x == 0) by (intros E; apply Qeq_bool_iff in E; congruence).
  destruct (dec p (Qabs x)) as [D E] eqn:Ed.
  destruct (dec_err p (Qabs x) D E (abs_pos x NZ) Ed Hp) as [[D1 D2] _].
  assert (Dp : (0 < D)%Z) by (assert (0 < 10 ^ (Z.of_nat p - 1))%Z by (apply Z.pow_pos_nonneg; lia); lia).
  pose proof (digs_digits p D (Z.lt_le_incl _ _ Dp)) as Hd. pose proof (digs_length p D) as Hlen.
  assert (Sg : forall c, (if Qle_bool 0 x then None else Some "-"%char) = Some c -> c = "+"%char \/ c = "-"%char).
  { intros c. destruct (Qle_bool 0 x); [discriminate|]. intros [= <-]. auto. }
  assert (K : forall k, (1 <= k)%nat -> firstn k (digs p D) <> []).
  { intros k Hk E0. apply (f_equal (@length ascii)) in E0. rewrite firstn_length, Hlen in E0. cbn in E0. lia. }
  assert (FS : forall k, Forall (fun c => is_digit c = true) (firstn k (digs p D) ++ strip (skipn k (digs p D)))).
  { intros k. rewrite <- (firstn_skipn k (digs p D)) in Hd. apply Forall_app in Hd. apply Forall_app. split; [tauto|]. apply strip_digits. tauto. }
  destruct ((-4 <=? E)%Z && (E <? Z.of_nat p)%Z); [destruct (0 <=? E)%Z|].
  - split; [|split; [|split]]; cbn [n_sign n_int n_exp]; auto; try discriminate.
    + erewrite opt_frac_of; [|reflexivity]. apply FS.
    + intros E0. apply app_eq_nil in E0. destruct E0 as [E0 _]. revert E0. apply K. lia.
  - split; [|split; [|split]]; cbn [n_sign n_int n_exp]; auto; try discriminate.
    erewrite opt_frac_of; [|reflexivity]. apply Forall_app. split; [repeat constructor|]. apply Forall_app. split.
    + apply Forall_forall. intros c Hc. apply repeat_spec in Hc. subst. reflexivity.
    + apply strip_digits. auto.
  - assert (X1 : Forall (fun c => is_digit c = true) (digs (Nat.max 2 (ndigits (Z.abs E))) (Z.abs E))) by (apply digs_digits; lia).
    assert (X2 : digs (Nat.max 2 (ndigits (Z.abs E))) (Z.abs E) <> []).
    { intros E0. apply (f_equal (@length ascii)) in E0. rewrite digs_length in E0. change (length (@nil ascii)) with 0%nat in E0. lia. }
    set (ed := digs (Nat.max 2 (ndigits (Z.abs E))) (Z.abs E)) in *. clearbody ed.
    split; [|split; [|split]]; cbn [n_sign n_int n_exp]; auto.
    + erewrite opt_frac_of; [|reflexivity]. apply FS.
    + intros E0. apply app_eq_nil in E0. destruct E0 as [E0 _]. revert E0. apply K. lia.
    + intros e s d [= <- <- <-]. split; auto. split; [intros c [= <-]; destruct (E <? 0)%Z; auto|]. auto.
Qed.

Lemma signed_opp s q : signed s (- q) == - signed s q.
Proof. unfold signed. destruct s as [c|]; [destruct (Ascii.eqb c "-")|]; ring. Qed.

(** The number printed for [x], as a value. *)
Definition rounded (p : nat) (x : Q) : Q :=
  if Qeq_bool x 0 then 0
  else let '(D, E) := dec p (Qabs x) in
       let y := inject_Z D * bpow 10 (E - Z.of_nat p + 1) in if Qle_bool 0 x then y else - y.

Lemma fmt_meaning p x : (1 <= p)%nat -> meaning (fmt_g p x) == rounded p x.
Proof.
  intros Hp. unfold fmt_g, rounded. destruct (Qeq_bool x 0) eqn:Z0; [reflexivity|].
  assert (NZ : ~ x == 0) by (intros E; apply Qeq_bool_iff in E; congruence).
  destruct (dec p (Qabs x)) as [D E] eqn:Ed.
  destruct (dec_err p (Qabs x) D E (abs_pos x NZ) Ed Hp) as [[D1 D2] _].
  assert (Dp : (0 < D)%Z) by (assert (0 < 10 ^ (Z.of_nat p - 1))%Z by (apply Z.pow_pos_nonneg; lia); lia).
  pose proof (digs_digits p D (Z.lt_le_incl _ _ Dp)) as Hd. pose proof (digs_length p D) as Hlen.
  assert (Hv : nat_of_digits (digs p D) = D) by (apply digs_value; lia).
  set (s := if Qle_bool 0 x then None else Some "-"%char).
  assert (SG : forall Y P T, Y * P == T -> signed s Y * P == if Qle_bool 0 x then T else - T).
  { intros Y P T A. unfold s, signed. destruct (Qle_bool 0 x).
    - exact A.
    - change (Ascii.eqb "-" "-") with true. cbv iota. rewrite <- A. ring. }
  unfold meaning.
  destruct ((-4 <=? E)%Z && (E <? Z.of_nat p)%Z) eqn:R; [destruct (0 <=? E)%Z eqn:R0|].
  - apply andb_prop in R. destruct R as [R1 R2]. apply Z.leb_le in R1, R0. apply Z.ltb_lt in R2.
    cbn [n_sign n_int n_exp]. erewrite opt_frac_of; [|reflexivity]. apply SG.
    change (Qpower 10 0) with 1. rewrite Qmult_1_r. rewrite strip_frac.
    rewrite firstn_skipn_value by (auto; rewrite Hlen; lia). rewrite Hv, Hlen.
    replace (- Z.of_nat (p - S (Z.to_nat E)))%Z with (E - Z.of_nat p + 1)%Z by lia. reflexivity.
  - apply andb_prop in R. destruct R as [R1 R2]. apply Z.leb_le in R1. apply Z.leb_gt in R0.
    cbn [n_sign n_int n_exp]. erewrite opt_frac_of; [|reflexivity]. apply SG.
    change (Qpower 10 0) with 1. rewrite Qmult_1_r. rewrite frac_zeros, strip_frac.
    rewrite frac_part_nod by auto. rewrite Hv, Hlen.
    change (int_part ["0"%char]) with (0 * 1 + 0).
    change (Qpower 10 (- Z.of_nat p)) with (bpow 10 (- Z.of_nat p)).
    replace (E - Z.of_nat p + 1)%Z with (- Z.of_nat p + - Z.of_nat (Z.to_nat (- E - 1)))%Z by lia.
    rewrite bpow_plus by auto. ring.
  - cbn [n_sign n_int n_exp]. erewrite opt_frac_of; [|reflexivity]. apply SG. rewrite strip_frac.
    rewrite firstn_skipn_value by (auto; rewrite Hlen; lia). rewrite Hv, Hlen.
    rewrite nod_partZ by (apply digs_digits; lia).
    rewrite digs_value.
    2:{ split; [lia|]. eapply Z.lt_le_trans; [apply (ndigits_ok (Z.abs E)); lia|]. apply Z.pow_le_mono_r; lia. }
    assert (Ze : Zsigned (Some (if (E <? 0)%Z then "-" else "+")%char) (Z.abs E) = E).
    { unfold Zsigned. destruct (Z.ltb_spec E 0); [change (Ascii.eqb "-" "-") with true|change (Ascii.eqb "+" "-") with false]; cbn; lia. }
    rewrite Ze. change (Qpower 10 E) with (bpow 10 E).
    replace (E - Z.of_nat p + 1)%Z with (- Z.of_nat (p - 1) + E)%Z by lia. rewrite bpow_plus by auto. ring.
Qed.

Lemma chars_text n : chars n = text n.
Proof. reflexivity. Qed.

Lemma rounded_close p x : (1 <= p)%nat -> ~ x == 0 ->
  Qabs (rounded p x - x) * 2 <= bpow 10 (flog 10 (Qabs x) - Z.of_nat p + 1).
Proof.
  intros Hp NZ. unfold rounded. destruct (Qeq_bool x 0) eqn:Z0; [apply Qeq_bool_iff in Z0; tauto|].
  destruct (dec p (Qabs x)) as [D E] eqn:Ed.
  destruct (dec_err p (Qabs x) D E (abs_pos x NZ) Ed Hp) as [_ B].
  set (y := inject_Z D * bpow 10 (E - Z.of_nat p + 1)) in *.
  destruct (Qle_bool 0 x) eqn:S.
  - apply Qle_bool_iff in S. rewrite (Qabs_pos x S) in B at 1. auto.
  - assert (x <= 0) as N by (destruct (Qlt_le_dec x 0); [lra|apply Qle_bool_iff in q; congruence]).
    rewrite (Qabs_neg x N) in B at 1. rewrite <- Qabs_opp. assert (Q : - (- y - x) == y - - x) by ring. rewrite Q. auto.
Qed.

(** Printing with 20 digits and reading gives the double back. *)
Lemma round_trip p x : is_double x -> (2 ^ 56 <= 10 ^ (Z.of_nat p - 1))%Z -> forall y, y == rounded p x -> round64 y == x.
Proof.
  intros Dx Hp y Hy. assert (P1 : (1 <= p)%nat) by (destruct p; cbn in Hp; lia).
  destruct (Qeq_dec x 0) as [Z0|NZ].
  - assert (y == 0) as Y by (rewrite Hy; unfold rounded; apply Qeq_bool_iff in Z0; rewrite Z0; reflexivity).
    unfold round64. apply Qeq_bool_iff in Y. rewrite Y. symmetry. auto.
  - apply (dec_identifies p x y (round64 y)); auto.
    + rewrite Hy. apply rounded_close; auto.
    + apply round64_closest.
Qed.

Definition ends (l : list ascii) : bool := match l with [] => true | _ => false end.

Lemma get_printed p x old w l : is_double x -> (2 ^ 56 <= 10 ^ (Z.of_nat p - 1))%Z -> blank w -> stops l ->
  exists v, v == x /\ get_double old (mkStream (w ++ print_g p x ++ l) false false) = (v, mkStream l (ends l) false).
Proof.
  intros Dx Hp Hw Hl. assert (P1 : (1 <= p)%nat) by (destruct p; cbn in Hp; lia).
  pose proof (fmt_ok p x P1) as Wf. destruct (value_some _ Wf) as [q Hq].
  exists (round64 q). split.
  - apply (round_trip p x Dx Hp). rewrite (value_meaning _ _ Wf Hq). apply fmt_meaning; auto.
  - unfold get_double, print_g. rewrite chars_text, (extract_number w _ l q Hw Wf Hl Hq). reflexivity.
Qed.

Lemma not_space_digit c : is_digit c = true -> is_space c = false.
Proof. unfold is_digit, is_space. destruct c as [[] [] [] [] [] [] [] []]; vm_compute; auto; discriminate. Qed.

Lemma get_shown z old w l : blank w -> match l with [] => True | c :: _ => is_digit c = false end ->
  get_int old (mkStream (w ++ show_Z z ++ l) false false) = (z, mkStream l (ends l) false).
Proof.
  intros Hw Hl. unfold get_int. cbn [st_eof st_fail st_rest orb]. rewrite skip_blank by auto.
  unfold show_Z. destruct (Z.ltb_spec z 0) as [N|N].
  - destruct (show_nat_ok (- z)) as (Hd & Hv & Hne); [lia|].
    cbn [app skip_space]. change (is_space "-") with false. cbn [take_sign]. change (is_sign "-") with true. cbn [andb].
    rewrite digits_app by auto. destruct (show_nat (- z)) as [|c r] eqn:E; [congruence|]. rewrite <- E in *.
    change (Ascii.eqb "-" "-") with true. cbv iota. rewrite Hv. f_equal. lia.
  - destruct (show_nat_ok z) as (Hd & Hv & Hne); [lia|].
    destruct (show_nat z) as [|c r] eqn:E; [congruence|]. 
    pose proof (Forall_inv Hd) as Hc. cbv beta in Hc. cbn [app skip_space]. rewrite (not_space_digit c Hc).
    cbn [take_sign]. destruct (digit_not_sign c Hc) as (-> & _). 
    change (c :: r ++ l) with ((c :: r) ++ l). rewrite digits_app by auto. rewrite Hv. reflexivity.
Qed.
