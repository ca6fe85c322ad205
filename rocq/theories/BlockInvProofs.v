(** Proofs about the inversion of 4x4 blocks. *)
From Verif Require Import Num BlockInvModel BiCGSpec.
Open Scope Q_scope.

Lemma det4_det : forall m, det4 m == det 4 m.
Proof. intro m. unfold det4, adj4. cbv [det altSum minor Nat.ltb Nat.leb Nat.even]. ring. Qed.

Lemma qabs_zero : forall x, x == 0 -> Qltb (qabs x) (1 # 10^40) = true.
Proof. intros x E. apply Qltb_lt. unfold qabs. destruct (Qltb x 0); rewrite E; reflexivity. Qed.

Lemma adjugate : forall m i j, (i < 4)%nat -> (j < 4)%nat ->
  entry 4 m (adj4 m) i j == (if Nat.eqb i j then det4 m else 0) /\
  entry 4 (adj4 m) m i j == (if Nat.eqb i j then det4 m else 0).
Proof.
  intros m i j Li Lj.
  destruct i as [|[|[|[|i]]]]; try (exfalso; lia); destruct j as [|[|[|[|j]]]]; try (exfalso; lia);
    cbv [entry fold_right map seq Nat.eqb det4 adj4]; split; ring.
Qed.

Lemma entry_scale : forall a b k i j,
  entry 4 a (fun i j => b i j * k) i j == entry 4 a b i j * k /\ entry 4 (fun i j => b i j * k) a i j == entry 4 b a i j * k.
Proof. intros. unfold entry. cbn [fold_right map seq]. split; ring. Qed.

Lemma inverse4 : forall m inv d, invertMatrix4 m = Some (inv, d) -> inverseOf 4 m inv /\ d == det 4 m /\ ~ d == 0.
Proof.
  intros m inv d E. unfold invertMatrix4 in E.
  destruct (Qltb _ _) eqn:B in E; [discriminate|]. injection E as <- <-.
  assert (N : ~ det4 m == 0) by (intro Z; rewrite (qabs_zero _ Z) in B; discriminate).
  split; [|split; [apply det4_det|exact N]].
  intros i j Li Lj. destruct (adjugate m i j Li Lj) as [R L].
  destruct (entry_scale m (adj4 m) (1 / det4 m) i j) as [SR SL].
  rewrite SR, SL, R, L. destruct (Nat.eqb i j); split; field; exact N.
Qed.

Lemma qabs_lt : forall x e, Qltb (qabs x) e = true <-> - e < x < e.
Proof.
  intros x e. rewrite Qltb_lt. unfold qabs. destruct (Qltb x 0) eqn:S.
  - apply Qltb_lt in S. lra.
  - apply Qltb_ge in S. lra.
Qed.

Lemma fails4 : forall m, invertMatrix4 m = None <-> - (1 # 10^40) < det 4 m < 1 # 10^40.
Proof.
  intro m. unfold invertMatrix4. rewrite <- (det4_det m), <- qabs_lt.
  destruct (Qltb _ _); split; congruence.
Qed.
