From Verif Require Import PhVarsModel PhVarsSpec.

Lemma put_same v i q : put v i q i = q.
Proof. unfold put. rewrite Nat.eqb_refl. reflexivity. Qed.
Lemma put_other v i q j : j <> i -> put v i q j = v j.
Proof. intros H. unfold put. destruct (Nat.eqb_spec j i); [contradiction|reflexivity]. Qed.

Lemma seq_S b n : seq b (S n) = seq b n ++ [(b + n)%nat].
Proof. revert b. induction n; intros b; cbn; [rewrite Nat.add_0_r; reflexivity|]. cbn in IHn. rewrite IHn. do 3 f_equal. lia. Qed.
Lemma fill_S base n f v : fill base (S n) f v = put (fill base n f v) (base + n) (f n).
Proof. unfold fill. rewrite seq_S, fold_left_app. reflexivity. Qed.
Lemma fill_in base n f v i : (i < n)%nat -> fill base n f v (base + i)%nat = f i.
Proof.
  revert i. induction n; intros i L; [lia|]. rewrite fill_S. destruct (Nat.eq_dec i n) as [->|N]; [apply put_same|].
  rewrite put_other by lia. apply IHn. lia.
Qed.
Lemma fill_out base n f v j : (j < base \/ base + n <= j)%nat -> fill base n f v j = v j.
Proof. induction n; intros H; [reflexivity|]. rewrite fill_S, put_other by lia. apply IHn. lia. Qed.
Lemma fill0_in n f v i : (i < n)%nat -> fill 0 n f v i = f i.
Proof. apply (fill_in 0). Qed.
Lemma accum_total n f : accum n f == total n f.
Proof.
  unfold accum. induction n; [reflexivity|]. rewrite seq_S, fold_left_app. cbn [fold_left total Nat.add]. rewrite IHn. reflexivity.
Qed.
Lemma sub_total n f q : fold_left (fun s i => s - f i) (seq 0 n) q == q - total n f.
Proof.
  induction n; [cbn; ring|]. rewrite seq_S, fold_left_app. cbn [fold_left total Nat.add]. rewrite IHn. ring.
Qed.
Lemma total_ext n f g : (forall i, (i < n)%nat -> f i == g i) -> total n f == total n g.
Proof. induction n; intros H; [reflexivity|]. cbn. rewrite IHn by (intros; apply H; lia). rewrite H by lia. reflexivity. Qed.
Lemma total_plus n f g : total n (fun i => f i + g i) == total n f + total n g.
Proof. induction n; cbn; [ring|]. rewrite IHn. ring. Qed.
Lemma total_scale n f q : total n (fun i => f i * q) == total n f * q.
Proof. induction n; cbn; [ring|]. rewrite IHn. ring. Qed.
Lemma total_swap n m f : total n (fun i => total m (f i)) == total m (fun j => total n (fun i => f i j)).
Proof.
  induction n; cbn; [symmetry; induction m; cbn; [reflexivity|rewrite IHm; ring]|].
  rewrite IHn. symmetry. apply total_plus.
Qed.

Lemma qmax_spec a b : (b <= a /\ qmax a b = a) \/ (a < b /\ qmax a b = b).
Proof. unfold qmax. destruct (Qltb a b) eqn:E; [right|left]; [apply Qltb_lt in E|apply Qltb_ge in E]; auto. Qed.
Lemma qmin_spec a b : (a <= b /\ qmin a b = a) \/ (b < a /\ qmin a b = b).
Proof. unfold qmin. destruct (Qltb b a) eqn:E; [right|left]; [apply Qltb_lt in E|apply Qltb_ge in E]; auto. Qed.
Lemma qabs_spec a : (0 <= a /\ qabs a = a) \/ (a < 0 /\ qabs a = - a).
Proof. unfold qabs. destruct (Qltb a 0) eqn:E; [right|left]; [apply Qltb_lt in E|apply Qltb_ge in E]; auto. Qed.

(** ** Saturations and pressures *)
Lemma readSat_explicit P s0 v a : (a < P - 1)%nat -> readSaturations P s0 v a = v (s0 + a)%nat.
Proof. intros L. unfold readSaturations. rewrite put_other by lia. rewrite fill0_in by exact L. reflexivity. Qed.
Lemma readSat_last P s0 v : readSaturations P s0 v (P - 1)%nat == 1 - total (P - 1) (fun a => v (s0 + a)%nat).
Proof. unfold readSaturations. rewrite put_same, accum_total. reflexivity. Qed.
Lemma readP P pc S p0 a : (a < P)%nat -> readPressures P pc S p0 a = p0 + (pc S a - pc S 0%nat).
Proof. intros L. unfold readPressures. rewrite fill0_in by exact L. reflexivity. Qed.

(** What is stored at these places gives the state back exactly if it is physical. *)
Lemma phases_recovered P pc s0 v p0 fs : (1 <= P)%nat -> respects P pc ->
  (forall a, (a < P - 1)%nat -> v (s0 + a)%nat == fs_S fs a) -> p0 == fs_p fs 0%nat ->
  ((forall a, (a < P)%nat -> readPressures P pc (readSaturations P s0 v) p0 a == fs_p fs a /\ readSaturations P s0 v a == fs_S fs a)
   <-> physical P pc fs).
Proof.
  intros LP R HS Hp. set (S := readSaturations P s0 v).
  assert (E : forall a, (a < P - 1)%nat -> S a == fs_S fs a).
  { intros a L. unfold S. rewrite readSat_explicit by exact L. apply HS. exact L. }
  assert (EL : S (P - 1)%nat == 1 - total (P - 1) (fs_S fs)).
  { unfold S. rewrite readSat_last. rewrite (total_ext _ _ (fs_S fs)) by exact HS. reflexivity. }
  assert (TP : total P (fs_S fs) == total (P - 1) (fs_S fs) + fs_S fs (P - 1)%nat).
  { replace P with (Datatypes.S (P - 1)) at 1 by lia. reflexivity. }
  split.
  - intros H. split.
    + destruct (H (P - 1)%nat) as [_ H1]; [lia|]. rewrite EL in H1. rewrite TP. lra.
    + intros a L. destruct (H a L) as [H1 _]. rewrite readP in H1 by exact L.
      assert (SS : forall b, (b < P)%nat -> S b == fs_S fs b) by (intros b Lb; apply H; exact Lb).
      rewrite (R S (fs_S fs) SS a), (R S (fs_S fs) SS 0%nat), Hp in H1. rewrite <- H1. ring.
  - intros [H1 H2]. assert (SS : forall b, (b < P)%nat -> S b == fs_S fs b).
    { intros b Lb. destruct (Nat.eq_dec b (P - 1)) as [->|N]; [rewrite EL; rewrite TP in H1; lra|apply E; lia]. }
    intros a L. split; [|apply SS; exact L]. rewrite readP by exact L.
    rewrite (R S (fs_S fs) SS a), (R S (fs_S fs) SS 0%nat), Hp. specialize (H2 a L). lra.
Qed.

(** ** Immiscible *)
Lemma imm_assign_sat energy P off fs v a : (a < P - 1)%nat -> imm_assign energy P off fs v (off + 1 + a)%nat = fs_S fs a.
Proof. intros L. unfold imm_assign. cbv zeta. apply fill_in. exact L. Qed.
Lemma imm_assign_p energy P off fs v : imm_assign energy P off fs v (off + 0)%nat = fs_p fs 0%nat.
Proof. unfold imm_assign. cbv zeta. rewrite fill_out by lia. apply put_same. Qed.
Lemma imm_assign_T P off fs v : (1 <= P)%nat -> imm_assign true P off fs v (off + P)%nat = fs_T fs.
Proof.
  intros L. unfold imm_assign. cbv zeta. rewrite fill_out by lia. rewrite put_other by lia. cbn. apply put_same.
Qed.

(** ** NCP *)
Lemma ncp_assign_sat energy P C off phi ref fs v a : (a < P - 1)%nat ->
  ncp_assign energy P C off phi ref fs v (ncp_sat0 C off + a)%nat = fs_S fs a.
Proof. intros L. unfold ncp_assign. cbv zeta. apply fill_in. exact L. Qed.
Lemma ncp_assign_p energy P C off phi ref fs v : (1 <= P)%nat ->
  ncp_assign energy P C off phi ref fs v (ncp_p0 P C off) = fs_p fs 0%nat.
Proof. intros L. unfold ncp_assign, ncp_p0, ncp_sat0. cbv zeta. rewrite fill_out by lia. apply put_same. Qed.
Lemma ncp_assign_fug energy P C off phi ref fs v c : (1 <= P)%nat -> (c < C)%nat ->
  ncp_assign energy P C off phi ref fs v (off + c)%nat = phi fs ref c * fs_x fs ref c * fs_p fs ref.
Proof.
  intros LP L. unfold ncp_assign, ncp_p0, ncp_sat0. cbv zeta. rewrite fill_out by lia. rewrite put_other by lia.
  apply (fill_in off C (fun c => phi fs ref c * fs_x fs ref c * fs_p fs ref)). exact L.
Qed.
Lemma ncp_assign_T P C off phi ref fs v : (1 <= P)%nat -> ncp_assign true P C off phi ref fs v (off + C + P)%nat = fs_T fs.
Proof.
  intros L. unfold ncp_assign, ncp_p0, ncp_sat0. cbv zeta. rewrite fill_out by lia. rewrite put_other by lia. rewrite fill_out by lia.
  cbn. apply put_same.
Qed.

(** ** Flash *)
Lemma addAll base n f v j : fold_left (fun v c => put v (base + c) (v (base + c)%nat + f c)) (seq 0 n) v j ==
  if ((base <=? j) && (j <? base + n))%nat then v j + f (j - base)%nat else v j.
Proof.
  revert j. induction n; intros j.
  - cbn [seq fold_left]. replace ((base <=? j) && (j <? base + 0))%nat with false; [reflexivity|].
    symmetry. apply andb_false_iff. destruct (Nat.leb_spec base j); [right; apply Nat.ltb_ge; lia|left; reflexivity].
  - rewrite seq_S, fold_left_app. cbn [fold_left Nat.add].
    destruct (Nat.eq_dec j (base + n)) as [->|N].
    + rewrite put_same. rewrite IHn.
      replace ((base <=? base + n) && (base + n <? base + n))%nat with false by (symmetry; apply andb_false_iff; right; apply Nat.ltb_ge; lia).
      replace ((base <=? base + n) && (base + n <? base + Datatypes.S n))%nat with true
        by (symmetry; apply andb_true_iff; split; [apply Nat.leb_le|apply Nat.ltb_lt]; lia).
      replace (base + n - base)%nat with n by lia. reflexivity.
    + rewrite put_other by exact N. rewrite IHn.
      replace (j <? base + Datatypes.S n)%nat with (j <? base + n)%nat; [reflexivity|].
      destruct (Nat.ltb_spec j (base + n)); destruct (Nat.ltb_spec j (base + S n)); try reflexivity; lia.
Qed.
Lemma addPhases C off (f : nat -> nat -> Q) P v j :
  fold_left (fun v a => fold_left (fun v c => put v (off + c) (v (off + c)%nat + f a c)) (seq 0 C) v) (seq 0 P) v j ==
  if ((off <=? j) && (j <? off + C))%nat then v j + total P (fun a => f a (j - off)%nat) else v j.
Proof.
  revert j. induction P; intros j.
  - cbn [seq fold_left total]. destruct ((off <=? j) && (j <? off + C))%nat; [ring|reflexivity].
  - rewrite seq_S, fold_left_app. cbn [fold_left Nat.add]. rewrite addAll. specialize (IHP j). revert IHP.
    destruct ((off <=? j) && (j <? off + C))%nat; intros IHP; rewrite IHP; cbn [total]; [ring|reflexivity].
Qed.

(** ** PT-flash *)
Lemma ptInner C (m : nat -> Q) z s :
  let r := fold_left (fun '(z, s) c => (put z c (z c + qmax (m c) floorZ), s + m c)) (seq 0 C) (z, s) in
  snd r == s + total C m /\
  forall j, fst r j == if (j <? C)%nat then z j + qmax (m j) floorZ else z j.
Proof.
  induction C; cbv zeta.
  - cbn [seq fold_left fst snd total]. split; [ring|]. intros j. reflexivity.
  - rewrite seq_S, fold_left_app. cbn [fold_left Nat.add]. cbv zeta in IHC.
    destruct (fold_left _ (seq 0 C) (z, s)) as [z' s'] eqn:E. cbn [fst snd] in *. destruct IHC as [H1 H2]. split.
    + rewrite H1. cbn [total]. ring.
    + intros j. destruct (Nat.eq_dec j C) as [->|N].
      * rewrite put_same. rewrite H2. rewrite Nat.ltb_irrefl. replace (C <? S C)%nat with true by (symmetry; apply Nat.ltb_lt; lia). reflexivity.
      * rewrite put_other by exact N. rewrite H2.
        replace (j <? S C)%nat with (j <? C)%nat; [reflexivity|].
        destruct (Nat.ltb_spec j C); destruct (Nat.ltb_spec j (S C)); try reflexivity; lia.
Qed.
Lemma ptOuter P C (m : nat -> nat -> Q) :
  let r := fold_left (fun zs a => fold_left (fun '(z, s) c => (put z c (z c + qmax (m a c) floorZ), s + m a c)) (seq 0 C) zs) (seq 0 P)
             ((fun _ => 0), 0) in
  snd r == total P (fun a => total C (m a)) /\
  forall j, (j < C)%nat -> fst r j == total P (fun a => qmax (m a j) floorZ).
Proof.
  induction P; cbv zeta.
  - cbn. split; [reflexivity|]. intros; reflexivity.
  - rewrite seq_S, fold_left_app. cbn [fold_left Nat.add]. cbv zeta in IHP.
    destruct (fold_left _ (seq 0 P) _) as [z s] eqn:E. cbn [fst snd] in IHP. destruct IHP as [H1 H2].
    destruct (ptInner C (m P) z s) as [H3 H4]. split.
    + rewrite H3, H1. reflexivity.
    + intros j L. rewrite H4. replace (j <? C)%nat with true by (symmetry; apply Nat.ltb_lt; exact L). rewrite H2 by exact L. reflexivity.
Qed.
Lemma pt_fractions_value P C fs c : (c < C)%nat ->
  pt_fractions P C fs c == total P (fun a => qmax (pt_moles fs a c) floorZ) / total P (fun a => total C (pt_moles fs a)).
Proof.
  intros L. unfold pt_fractions. destruct (ptOuter P C (pt_moles fs)) as [H1 H2].
  destruct (fold_left _ (seq 0 P) _) as [z s]. cbn [fst snd] in *. rewrite H1, H2 by exact L. reflexivity.
Qed.

(** The fractions before normalisation, as read. *)
Definition rawZ (C off : nat) (v : vec) (c : nat) : Q :=
  if (c =? C - 1)%nat then 1 - total (C - 1) (fun c => v (off + 1 + c)%nat) else v (off + 1 + c)%nat.
Definition flooredZ (C off : nat) (v : vec) (c : nat) : Q := qmax (rawZ C off v c) floorZ.
Lemma qmax_compat a a' b : a == a' -> qmax a b == qmax a' b.
Proof. intros E. destruct (qmax_spec a b) as [[? ->]|[? ->]], (qmax_spec a' b) as [[? ->]|[? ->]]; lra. Qed.
Lemma pt_read_value C off v c : (c < C)%nat ->
  pt_read_fractions C off v c == flooredZ C off v c / total C (flooredZ C off v).
Proof.
  intros L. unfold pt_read_fractions.
  set (z := put (fill 0 (C - 1) (fun c => v (off + 1 + c)%nat) (fun _ => 0)) (C - 1) (fold_left (fun s c => s - v (off + 1 + c)%nat) (seq 0 (C - 1)) 1)).
  assert (Z : forall d, (d < C)%nat -> fill 0 C (fun c => qmax (z c) floorZ) z d == flooredZ C off v d).
  { intros d Ld. rewrite fill0_in by exact Ld. unfold flooredZ. apply qmax_compat. unfold z, rawZ.
    destruct (Nat.eqb_spec d (C - 1)) as [->|N].
    - rewrite put_same. apply (sub_total (C - 1) (fun c => v (off + 1 + c)%nat) 1).
    - rewrite put_other by exact N. rewrite fill0_in by lia. reflexivity. }
  cbv zeta. rewrite (Z c L). rewrite accum_total. rewrite (total_ext C _ _ Z). reflexivity.
Qed.
Lemma floor_pos : 0 < floorZ.
Proof. reflexivity. Qed.
Lemma floored_ge C off v c : floorZ <= flooredZ C off v c.
Proof. unfold flooredZ. destruct (qmax_spec (rawZ C off v c) floorZ) as [[? ->]|[? ->]]; lra. Qed.
Lemma total_pos n f : (1 <= n)%nat -> (forall i, 0 < f i) -> 0 < total n f.
Proof.
  intros L H. destruct n; [lia|]. clear L. induction n; cbn in *; [specialize (H 0%nat); lra|]. specialize (H (S n)). lra.
Qed.
Lemma rawZ_total C off v : (1 <= C)%nat -> total C (rawZ C off v) == 1.
Proof.
  intros L. replace C with (S (C - 1)) at 1 by lia. cbn [total].
  rewrite (total_ext (C - 1) _ (fun c => v (off + 1 + c)%nat)).
  - unfold rawZ. rewrite Nat.eqb_refl. ring.
  - intros i Li. unfold rawZ. destruct (Nat.eqb_spec i (C - 1)); [lia|reflexivity].
Qed.

(** ** The Newton error of the NCP model *)
Definition errStep (P C off : nat) (d : dof) (err : Q) (eq : nat) : Q :=
  if ((off + C <=? eq) && (eq <? off + C + P))%nat then err else qmax (qabs (d_residual d eq * d_weight d eq)) err.
Lemma err_inner P C off d eqs err :
  let r := fold_left (errStep P C off d) eqs err in
  err <= r /\ (forall eq, In eq eqs -> ~ (off + C <= eq < off + C + P)%nat -> qabs (d_residual d eq * d_weight d eq) <= r) /\
  (r = err \/ exists eq, In eq eqs /\ ~ (off + C <= eq < off + C + P)%nat /\ r = qabs (d_residual d eq * d_weight d eq)).
Proof.
  revert err. induction eqs as [|e eqs IH]; intros err; cbv zeta; cbn [fold_left].
  - split; [lra|]. split; [intros eq []|left; reflexivity].
  - destruct (IH (errStep P C off d err e)) as [H1 [H2 H3]]. cbv zeta in *. set (r := fold_left _ eqs _) in *.
    assert (K : err <= errStep P C off d err e /\
      (~ (off + C <= e < off + C + P)%nat -> qabs (d_residual d e * d_weight d e) <= errStep P C off d err e) /\
      (errStep P C off d err e = err \/ (~ (off + C <= e < off + C + P)%nat /\ errStep P C off d err e = qabs (d_residual d e * d_weight d e)))).
    { unfold errStep. destruct (Nat.leb_spec (off + C) e); destruct (Nat.ltb_spec e (off + C + P)); cbn [andb];
        [split; [lra|split; [intros N; exfalso; apply N; lia|left; reflexivity]]|..];
        (destruct (qmax_spec (qabs (d_residual d e * d_weight d e)) err) as [[? ->]|[? ->]];
         [split; [lra|split; [intros; lra|right; split; [lia|reflexivity]]]|split; [lra|split; [intros; lra|left; reflexivity]]]). }
    destruct K as [K1 [K2 K3]]. split; [lra|]. split.
    + intros eq [->|I] N; [specialize (K2 N); lra|apply H2; assumption].
    + destruct H3 as [H3|[eq [I [N E]]]].
      * destruct K3 as [K3|[N K3]]; [left; congruence|right; exists e; split; [left; reflexivity|split; [exact N|congruence]]].
      * right. exists eq. split; [right; exact I|split; assumption].
Qed.
Lemma err_outer P C off numEq gridDofs en (l : list (nat * dof)) err :
  let r := fold_left (fun err id =>
    let '(i, d) := id in
    if (gridDofs <=? i)%nat || Qle_bool (d_volume d) 0 then err
    else if en && d_constrained d then err
    else fold_left (errStep P C off d) (seq 0 numEq) err) l err in
  err <= r /\
  (forall i d eq, In (i, d) l -> considered gridDofs en i d -> (eq < numEq)%nat -> ~ phaseEquation P C off eq ->
     qabs (d_residual d eq * d_weight d eq) <= r) /\
  (r = err \/ exists i d eq, In (i, d) l /\ considered gridDofs en i d /\ (eq < numEq)%nat /\ ~ phaseEquation P C off eq /\
     r = qabs (d_residual d eq * d_weight d eq)).
Proof.
  revert err. induction l as [|[i d] l IH]; intros err; cbv zeta; cbn [fold_left].
  - split; [lra|]. split; [intros i d eq []|left; reflexivity].
  - set (err1 := if (gridDofs <=? i)%nat || Qle_bool (d_volume d) 0 then err else if en && d_constrained d then err else fold_left (errStep P C off d) (seq 0 numEq) err).
    assert (K : err <= err1 /\
      (forall eq, considered gridDofs en i d -> (eq < numEq)%nat -> ~ phaseEquation P C off eq -> qabs (d_residual d eq * d_weight d eq) <= err1) /\
      (err1 = err \/ exists eq, considered gridDofs en i d /\ (eq < numEq)%nat /\ ~ phaseEquation P C off eq /\ err1 = qabs (d_residual d eq * d_weight d eq))).
    { unfold err1. unfold considered, phaseEquation. destruct (Nat.leb_spec gridDofs i) as [G|G]; cbn [orb].
      { split; [lra|split; [intros eq [? _]; lia|left; reflexivity]]. }
      destruct (Qle_bool (d_volume d) 0) eqn:V.
      { apply Qle_bool_iff in V. split; [lra|split; [intros eq [_ [? _]]; lra|left; reflexivity]]. }
      assert (V' : 0 < d_volume d). { apply Qnot_le_lt. intros X. apply Qle_bool_iff in X. congruence. }
      destruct en; destruct (d_constrained d) eqn:DC; cbn [andb];
        [split; [lra|split; [intros eq [_ [_ [X|X]]]; discriminate X|left; reflexivity]]|..];
        (destruct (err_inner P C off d (seq 0 numEq) err) as [H1 [H2 H3]]; split; [exact H1|split;
          [intros eq _ L N; apply H2; [apply in_seq; lia|exact N]|
           destruct H3 as [H3|[eq [I [N E]]]]; [left; exact H3|right; exists eq; apply in_seq in I; split; [auto|split; [lia|split; [exact N|exact E]]]]]]). }
    destruct K as [K1 [K2 K3]]. destruct (IH err1) as [H1 [H2 H3]]. cbv zeta in H1, H2, H3. split; [lra|]. split.
    + intros i' d' eq [E|I] Co L N; [injection E as <- <-; specialize (K2 eq Co L N); lra|apply H2 with i'; assumption].
    + destruct H3 as [H3|[i' [d' [eq [I H3]]]]].
      * destruct K3 as [K3|[eq K3]]; [left; congruence|]. right. exists i, d, eq. split; [left; reflexivity|].
        destruct K3 as [K3 [K4 [K5 K6]]]. split; [exact K3|split; [exact K4|split; [exact K5|congruence]]].
      * right. exists i', d', eq. split; [right; exact I|exact H3].
Qed.
Lemma combine_seq_in {A} (l : list A) i x : forall b, In (i, x) (combine (seq b (length l)) l) <-> (b <= i)%nat /\ nth_error l (i - b) = Some x.
Proof.
  induction l as [|y l IH]; intros b; cbn [length seq combine In].
  - split; [intros []|]. intros [_ H]. destruct (i - b)%nat; discriminate H.
  - rewrite IH. split.
    + intros [E|[L H]]; [injection E as <- <-; rewrite Nat.sub_diag; split; [lia|reflexivity]|].
      split; [lia|]. replace (i - b)%nat with (S (i - S b)) by lia. exact H.
    + intros [L H]. destruct (i - b)%nat as [|k] eqn:E; cbn in H; [left; injection H as <-; f_equal; lia|].
      right. split; [lia|]. replace (i - S b)%nat with k by lia. exact H.
Qed.

(** ** PT-flash Newton update *)
Lemma maxDelta_bounds C off u :
  (forall c, (c < C - 1)%nat -> - pt_maxDelta C off u <= u (off + 1 + c)%nat <= pt_maxDelta C off u) /\
  - pt_maxDelta C off u <= total (C - 1) (fun c => u (off + 1 + c)%nat) <= pt_maxDelta C off u.
Proof.
  unfold pt_maxDelta. cbv zeta. set (m := fold_left _ _ 0). set (t := accum (C - 1) (fun c => u (off + 1 + c)%nat)).
  assert (T : t == total (C - 1) (fun c => u (off + 1 + c)%nat)) by apply accum_total.
  assert (M : 0 <= m /\ forall c, (c < C - 1)%nat -> - m <= u (off + 1 + c)%nat <= m).
  { unfold m. clear. generalize (C - 1)%nat as n. induction n; [split; [cbn; lra|intros; lia]|].
    rewrite seq_S, fold_left_app. cbn [fold_left Nat.add]. destruct IHn as [H1 H2]. set (m := fold_left _ (seq 0 n) 0) in *.
    destruct (qmax_spec (qabs (u (off + 1 + n)%nat)) m) as [[? ->]|[? ->]]; destruct (qabs_spec (u (off + 1 + n)%nat)) as [[? E]|[? E]]; rewrite E in *;
      (split; [lra|]; intros c L; destruct (Nat.eq_dec c n) as [->|N]; [lra|specialize (H2 c ltac:(lia)); lra]). }
  destruct M as [M1 M2].
  destruct (qmax_spec (qabs t) m) as [[? ->]|[? ->]]; destruct (qabs_spec t) as [[? E]|[? E]]; rewrite E in *;
    (split; [intros c L; specialize (M2 c L); lra|rewrite <- T; lra]).
Qed.
(** What the update of a fraction is before the fractions are cut off. *)
Lemma pt_scaled_value C off cur upd next :
  (forall c, (c < C - 1)%nat -> next (off + 1 + c)%nat == cur (off + 1 + c)%nat - upd (off + 1 + c)%nat) ->
  exists k, 0 <= k <= 1 /\ k * pt_maxDelta C off upd <= 1 # 5 /\
    (forall c, (c < C - 1)%nat -> pt_scaled C off cur upd next (off + 1 + c)%nat == cur (off + 1 + c)%nat - k * upd (off + 1 + c)%nat) /\
    (pt_maxDelta C off upd <= 1 # 5 -> k == 1).
Proof.
  intros N. unfold pt_scaled. cbv zeta. destruct (Qltb (1 # 5) (pt_maxDelta C off upd)) eqn:E.
  - apply Qltb_lt in E. exists ((1 # 5) / pt_maxDelta C off upd).
    assert (P0 : 0 < pt_maxDelta C off upd) by lra.
    split; [split|split; [|split]].
    + apply Qle_shift_div_l; [exact P0|lra].
    + apply Qle_shift_div_r; [exact P0|lra].
    + assert (X : (1 # 5) / pt_maxDelta C off upd * pt_maxDelta C off upd == 1 # 5) by (field; lra). rewrite X. lra.
    + intros c L. rewrite fill_in by exact L. reflexivity.
    + intros X. lra.
  - apply Qltb_ge in E. exists 1. split; [lra|]. split; [lra|]. split; [|reflexivity].
    intros c L. rewrite N by exact L. ring.
Qed.
Lemma scaled_out C off cur upd next j : (j < off + 1 \/ off + 1 + (C - 1) <= j)%nat -> pt_scaled C off cur upd next j = next j.
Proof. intros H. unfold pt_scaled. cbv zeta. destruct (Qltb _ _); [apply fill_out; exact H|reflexivity]. Qed.
Lemma clampAll base n g v j : fold_left (fun v c => put v (base + c) (g (v (base + c)%nat))) (seq 0 n) v j =
  if ((base <=? j) && (j <? base + n))%nat then g (v j) else v j.
Proof.
  revert j. induction n; intros j.
  - cbn [seq fold_left]. replace ((base <=? j) && (j <? base + 0))%nat with false; [reflexivity|].
    symmetry. apply andb_false_iff. destruct (Nat.leb_spec base j); [right; apply Nat.ltb_ge; lia|left; reflexivity].
  - rewrite seq_S, fold_left_app. cbn [fold_left Nat.add].
    destruct (Nat.eq_dec j (base + n)) as [->|N].
    + rewrite put_same. rewrite IHn.
      replace ((base <=? base + n) && (base + n <? base + n))%nat with false by (symmetry; apply andb_false_iff; right; apply Nat.ltb_ge; lia).
      replace ((base <=? base + n) && (base + n <? base + Datatypes.S n))%nat with true
        by (symmetry; apply andb_true_iff; split; [apply Nat.leb_le|apply Nat.ltb_lt]; lia). reflexivity.
    + rewrite put_other by exact N. rewrite IHn.
      replace (j <? base + Datatypes.S n)%nat with (j <? base + n)%nat; [reflexivity|].
      destruct (Nat.ltb_spec j (base + n)); destruct (Nat.ltb_spec j (base + S n)); try reflexivity; lia.
Qed.
Lemma pt_clampZ_spec q : floorZ <= pt_clampZ q <= 1 - floorZ /\ (floorZ <= q <= 1 - floorZ -> pt_clampZ q = q) /\
  (q < floorZ -> pt_clampZ q = floorZ) /\ (1 - floorZ < q -> pt_clampZ q = 1 - floorZ).
Proof.
  assert (F : floorZ <= 1 - floorZ) by (unfold floorZ; lra).
  unfold pt_clampZ. destruct (Qltb q floorZ) eqn:A; [apply Qltb_lt in A|apply Qltb_ge in A; destruct (Qltb (1 - floorZ) q) eqn:B; [apply Qltb_lt in B|apply Qltb_ge in B]];
    (split; [lra|split; [intros; lra || reflexivity|split; intros; lra || reflexivity]]).
Qed.
Lemma clamp_spec x lo hi : lo <= hi -> exists r, clamp x lo hi = Some r /\ lo <= r <= hi /\ (lo <= x <= hi -> r = x).
Proof.
  intros L. unfold clamp. destruct (Qltb hi lo) eqn:E; [apply Qltb_lt in E; lra|].
  destruct (Qltb x lo) eqn:A; [apply Qltb_lt in A|apply Qltb_ge in A; destruct (Qltb hi x) eqn:B; [apply Qltb_lt in B|apply Qltb_ge in B]];
    (eexists; split; [reflexivity|split; [lra|intros; lra || reflexivity]]).
Qed.
Lemma pt_update_some C off cur upd : 0 <= cur off -> exists v p, pt_update C off cur upd = Some v /\
  clamp (cur off - upd off) (cur off * (8 # 10)) (cur off * (12 # 10)) = Some p /\ v off = p /\
  (forall c, (c < C - 1)%nat -> v (off + 1 + c)%nat =
     pt_clampZ (pt_scaled C off cur upd (put (fun j => cur j - upd j) off p) (off + 1 + c)%nat)) /\
  (forall j, (j < off \/ off + C <= j)%nat -> (1 <= C)%nat -> v j = cur j - upd j).
Proof.
  intros L. unfold pt_update. destruct (clamp_spec (cur off - upd off) (cur off * (8 # 10)) (cur off * (12 # 10))) as [p [E _]]; [lra|].
  rewrite E. eexists. exists p. split; [reflexivity|]. split; [reflexivity|]. split; [|split].
  - rewrite (clampAll (off + 1)). replace ((off + 1 <=? off) && (off <? off + 1 + (C - 1)))%nat with false
      by (symmetry; apply andb_false_iff; left; apply Nat.leb_gt; lia).
    rewrite scaled_out by lia. apply put_same.
  - intros c Lc. rewrite (clampAll (off + 1)).
    replace ((off + 1 <=? off + 1 + c) && (off + 1 + c <? off + 1 + (C - 1)))%nat with true
      by (symmetry; apply andb_true_iff; split; [apply Nat.leb_le|apply Nat.ltb_lt]; lia). reflexivity.
  - intros j Lj LC. rewrite (clampAll (off + 1)).
    replace ((off + 1 <=? j) && (j <? off + 1 + (C - 1)))%nat with false
      by (symmetry; apply andb_false_iff; destruct Lj; [left; apply Nat.leb_gt|right; apply Nat.ltb_ge]; lia).
    rewrite scaled_out by lia. apply put_other. lia.
Qed.
Lemma maxDelta_small C off u q : 0 <= q -> (forall c, (c < C - 1)%nat -> - q <= u (off + 1 + c)%nat <= q) ->
  - q <= total (C - 1) (fun c => u (off + 1 + c)%nat) <= q -> pt_maxDelta C off u <= q.
Proof.
  intros Q0 H HT. unfold pt_maxDelta. cbv zeta. set (m := fold_left _ _ 0). set (t := accum (C - 1) (fun c => u (off + 1 + c)%nat)).
  assert (T : t == total (C - 1) (fun c => u (off + 1 + c)%nat)) by apply accum_total.
  assert (M : m <= q).
  { unfold m. clear - H Q0. revert H. generalize (C - 1)%nat as n. induction n; intros H; [cbn; lra|].
    rewrite seq_S, fold_left_app. cbn [fold_left Nat.add]. specialize (IHn (fun c L => H c (Nat.lt_lt_succ_r _ _ L))).
    set (m := fold_left _ (seq 0 n) 0) in *. specialize (H n (Nat.lt_succ_diag_r n)).
    destruct (qmax_spec (qabs (u (off + 1 + n)%nat)) m) as [[? ->]|[? ->]]; [|lra].
    destruct (qabs_spec (u (off + 1 + n)%nat)) as [[? ->]|[? ->]]; lra. }
  rewrite <- T in HT. destruct (qmax_spec (qabs t) m) as [[? ->]|[? ->]]; [|lra]. destruct (qabs_spec t) as [[? ->]|[? ->]]; lra.
Qed.
Lemma clampZ_between cur q w : floorZ <= cur <= 1 - floorZ -> q == cur - w ->
  (0 <= w -> - w <= pt_clampZ q - cur <= 0) /\ (w <= 0 -> 0 <= pt_clampZ q - cur <= - w).
Proof.
  intros H E. unfold pt_clampZ. destruct (Qltb q floorZ) eqn:A; [apply Qltb_lt in A|apply Qltb_ge in A; destruct (Qltb (1 - floorZ) q) eqn:B; [apply Qltb_lt in B|apply Qltb_ge in B]];
    split; intros W; split; lra.
Qed.
