From Verif Require Import AllocModel AllocSpec.

Lemma pow2_pos k : 0 <= k -> 0 < 2 ^ k.
Proof. intros. apply Z.pow_pos_nonneg; lia. Qed.

Lemma is_alignment_iff v : is_alignment v = true <-> power_of_two v.
Proof.
  unfold is_alignment, power_of_two. rewrite andb_true_iff, Z.ltb_lt, Z.eqb_eq. split.
  - intros (P & L). exists (Z.log2 v). split; [apply Z.log2_nonneg|].
    destruct (Z.log2_spec v P) as (A & B). destruct (Z.eq_dec v (2 ^ Z.log2 v)) as [|N]; auto. exfalso.
    pose proof (Z.log2_nonneg v) as K.
    assert (E : Z.log2 (v - 1) = Z.log2 v) by (apply Z.log2_unique; lia).
    assert (T1 : Z.testbit v (Z.log2 v) = true) by (apply Z.bit_log2; lia).
    assert (T2 : Z.testbit (v - 1) (Z.log2 v) = true) by (rewrite <- E; apply Z.bit_log2; pose proof (pow2_pos _ K); lia).
    assert (T : Z.testbit (Z.land v (v - 1)) (Z.log2 v) = true) by (rewrite Z.land_spec, T1, T2; auto).
    rewrite L, Z.testbit_0_l in T. discriminate.
  - intros (k & K & ->). split; [apply pow2_pos; auto|].
    replace (2 ^ k - 1) with (Z.ones k) by (rewrite Z.ones_equiv; lia). rewrite Z.land_ones by auto. apply Z_mod_same_full.
Qed.

Lemma round_up_mult x a : 0 < a -> (a | x) -> round_up x a = x.
Proof.
  intros P (q & ->). unfold round_up. replace (q * a + a - 1) with (q * a + (a - 1)) by lia.
  rewrite Z.div_add_l by lia. rewrite Z.div_small by lia. lia.
Qed.
Lemma round_up_one a : 0 < a -> round_up 1 a = a.
Proof. intros P. unfold round_up. replace (1 + a - 1) with a by lia. rewrite Z.div_same by lia. lia. Qed.

Lemma alignment_of_ok size align : object_type size align -> alignment_of size align = align.
Proof.
  intros ((k & K & E) & S & D & B). pose proof (pow2_pos k K) as P. rewrite <- E in P. unfold alignment_of, offset_object_size.
  rewrite round_up_one, round_up_mult by (auto; apply Z.divide_add_r; auto; apply Z.divide_refl).
  replace (align + size - size) with align by lia. unfold wrap. rewrite Z.mod_small by lia.
  apply Z.divide_pos_le in D; auto. destruct (size <? align) eqn:X; auto. apply Z.ltb_lt in X. lia.
Qed.

Lemma pow_max a b : power_of_two a -> power_of_two b -> power_of_two (max_align a b) /\ (a | max_align a b) /\ (b | max_align a b).
Proof.
  intros (i & I & ->) (j & J & ->). unfold max_align. destruct (2 ^ j <? 2 ^ i) eqn:E.
  - apply Z.ltb_lt in E. split; [exists i; auto|]. split; [apply Z.divide_refl|]. apply Z.pow_lt_mono_r_iff in E; try lia.
    exists (2 ^ (i - j)). rewrite <- Z.pow_add_r by lia. f_equal. lia.
  - apply Z.ltb_ge in E. split; [exists j; auto|]. split; [|apply Z.divide_refl]. apply Z.pow_le_mono_r_iff in E; try lia.
    exists (2 ^ (j - i)). rewrite <- Z.pow_add_r by lia. f_equal. lia.
Qed.
Lemma pow_eight a : power_of_two a -> let b := if a <? 8 then 8 else a in power_of_two b /\ (8 | b) /\ (a | b).
Proof.
  intros (i & I & ->). cbn zeta. destruct (2 ^ i <? 8) eqn:E.
  - apply Z.ltb_lt in E. split; [exists 3; auto with zarith|]. split; [apply Z.divide_refl|].
    change 8 with (2 ^ 3) in E. apply Z.pow_lt_mono_r_iff in E; try lia. exists (2 ^ (3 - i)). rewrite <- Z.pow_add_r by lia. replace (3 - i + i) with 3 by lia. reflexivity.
  - apply Z.ltb_ge in E. split; [exists i; auto|]. split; [|apply Z.divide_refl].
    change 8 with (2 ^ 3) in E. apply Z.pow_le_mono_r_iff in E; try lia. exists (2 ^ (i - 3)). change 8 with (2 ^ 3). rewrite <- Z.pow_add_r by lia. f_equal. lia.
Qed.

(** What the allocator asks the system for. *)
Definition request (A align : Z) : Z := if max_align A align <? 8 then 8 else max_align A align.

Lemma request_ok A align : power_of_two A -> power_of_two align ->
  power_of_two (request A align) /\ (8 | request A align) /\ (A | request A align) /\ (align | request A align).
Proof.
  intros HA Ha. destruct (pow_max _ _ HA Ha) as (P & D1 & D2). destruct (pow_eight _ P) as (P' & D3 & D4).
  unfold request. split; auto. split; auto. split; eapply Z.divide_trans; eauto.
Qed.
Lemma allocate_request mem A size align n : power_of_two A -> object_type size align ->
  allocate mem A size align n =
    (let p := match mem (request A align) (wrap (size * n)) with Some p => p | None => 0 end in
     if (p =? 0) && (0 <? n) then BadAlloc else Block p (wrap (size * n))).
Proof.
  intros HA T. unfold allocate. rewrite alignment_of_ok by auto. unfold aligned_alloc. fold (request A align). unfold posix_memalign.
  destruct T as (Ha & _). destruct (request_ok A align HA Ha) as (P & D & _). apply is_alignment_iff in P. rewrite P.
  apply Z.mod_divide in D; [|lia]. rewrite D. reflexivity.
Qed.
