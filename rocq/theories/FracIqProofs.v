(** * Proofs about the fracture quantities *)
From Coq Require Import QArith List Bool Arith Lia Lqa.
From Verif Require Import FractureModel FractureProofs FractureProps FracIqModel FracIqSpec.
Import ListNotations.

Lemma sum_cons : forall (A : Type) (x : A) l f, sumOver (x :: l) f = f x + sumOver l f.
Proof. reflexivity. Qed.
Section Sums.
Context {A : Type}.
Lemma sum_ext : forall (l : list A) f g, (forall x, In x l -> f x == g x) -> sumOver l f == sumOver l g.
Proof.
  induction l as [|x l IH]; intros f g H; [reflexivity|]. rewrite !sum_cons, (H x (or_introl eq_refl)), (IH f g); [reflexivity|].
  intros y Y. apply H. right. exact Y.
Qed.
Lemma sum_zero : forall (l : list A) f, (forall x, In x l -> f x == 0) -> sumOver l f == 0.
Proof. induction l as [|x l IH]; intros f H; [reflexivity|]. rewrite sum_cons, (H x (or_introl eq_refl)), IH; [ring|]. intros y Y. apply H. right. exact Y. Qed.
Lemma sum_plus : forall (l : list A) f g, sumOver l (fun x => f x + g x) == sumOver l f + sumOver l g.
Proof. induction l as [|x l IH]; intros f g; [reflexivity|]. rewrite !sum_cons, IH. ring. Qed.
Lemma sum_scal : forall (l : list A) c f, sumOver l (fun x => c * f x) == c * sumOver l f.
Proof. induction l as [|x l IH]; intros c f; [cbn; ring|]. rewrite !sum_cons, IH. ring. Qed.
Lemma sum_nonneg : forall (l : list A) f, (forall x, In x l -> 0 <= f x) -> 0 <= sumOver l f.
Proof.
  induction l as [|x l IH]; intros f H; [apply Qle_refl|]. rewrite sum_cons. pose proof (H x (or_introl eq_refl)).
  assert (0 <= sumOver l f) by (apply IH; intros y Y; apply H; right; exact Y). lra.
Qed.
Lemma fold_sum : forall (l : list A) (skip : A -> bool) f c,
  fold_left (fun acc x => if skip x then acc else acc + f x) l c == c + sumOver l (fun x => if skip x then 0 else f x).
Proof.
  induction l as [|x l IH]; intros skip f c; cbn [fold_left]; [cbn; ring|]. rewrite IH, sum_cons. destruct (skip x); ring.
Qed.
Lemma sum_nth : forall (l : list A) d f, sumOver (seq 0 (length l)) (fun i => f (nth i l d)) = sumOver l f.
Proof.
  intros l d f. assert (G : forall m k, sumOver (seq k (length m)) (fun i => f (nth (i - k) m d)) = sumOver m f).
  { induction m as [|x m IH]; intros k; [reflexivity|]. cbn [length seq]. rewrite !sum_cons, Nat.sub_diag. cbn [nth]. f_equal.
    rewrite <- (IH (S k)). assert (E : forall n j, (S k <= j)%nat -> sumOver (seq j n) (fun i => f (nth (i - k) (x :: m) d)) = sumOver (seq j n) (fun i => f (nth (i - S k) m d))).
    { induction n as [|n IHn]; intros j J; [reflexivity|]. cbn [seq]. rewrite !sum_cons, IHn by lia. f_equal. f_equal.
      replace (j - k)%nat with (S (j - S k)) by lia. reflexivity. }
    apply E. lia. }
  rewrite <- (G l O). assert (E : forall n j, sumOver (seq j n) (fun i => f (nth i l d)) = sumOver (seq j n) (fun i => f (nth (i - 0) l d))).
  { induction n as [|n IHn]; intros j; [reflexivity|]. cbn [seq]. rewrite !sum_cons, IHn, Nat.sub_0_r. reflexivity. }
  apply E.
Qed.
Lemma sum_delta : forall (eqb : A -> A -> bool), (forall x y, eqb x y = true <-> x = y) -> forall l d k, NoDup l ->
  sumOver l (fun x => if eqb d x then k else 0) == if existsb (eqb d) l then k else 0.
Proof.
  intros eqb EQ. induction l as [|x l IH]; intros d k ND; [reflexivity|]. inversion ND as [|? ? NI ND']; subst. rewrite sum_cons, IH by exact ND'.
  cbn [existsb]. destruct (eqb d x) eqn:E; cbn [orb]; [|ring]. apply EQ in E. subst d.
  destruct (existsb (eqb x) l) eqn:F; [|ring]. exfalso. apply existsb_exists in F. destruct F as (y & Y & F). apply EQ in F. subst y. contradiction.
Qed.
End Sums.
Lemma sum_swap : forall (A B : Type) (l : list A) (m : list B) f, sumOver l (fun a => sumOver m (f a)) == sumOver m (fun b => sumOver l (fun a => f a b)).
Proof.
  intros A B l m f. induction l as [|a l IH].
  - cbn. symmetry. apply sum_zero. reflexivity.
  - rewrite sum_cons, IH. rewrite <- sum_plus. apply sum_ext. reflexivity.
Qed.

Definition pairEqb (e f : nat * nat) : bool := Nat.eqb (fst e) (fst f) && Nat.eqb (snd e) (snd f).
Lemma pairEqb_eq : forall e f, pairEqb e f = true <-> e = f.
Proof.
  intros [a b] [c d]. unfold pairEqb. cbn [fst snd]. rewrite andb_true_iff, !Nat.eqb_eq. split; [intros [-> ->]; reflexivity|intros H; injection H; auto].
Qed.
Lemma frac_sym : forall a b m, isFractureEdge a b m = isFractureEdge b a m.
Proof. intros a b m. unfold isFractureEdge. f_equal. apply make_edge_eq. right. split; reflexivity. Qed.

Section P.
Variable m : mapper.
Variable es : list (nat * nat).
Hypothesis ES : edgesOf es m.
Variable k : nat -> nat -> Q.
Hypothesis KS : symmetric k.

Lemma in_es : forall a b, existsb (pairEqb (a, b)) es = (a <? b)%nat && isFractureEdge a b m.
Proof.
  intros a b. destruct ES as (ND & OR & IFF). apply eq_iff_eq_true. rewrite existsb_exists, andb_true_iff, Nat.ltb_lt. split.
  - intros (e & I & H). apply pairEqb_eq in H. subst e. pose proof (OR a b I) as L. split; [exact L|]. now apply IFF.
  - intros [L F]. exists (a, b). split; [now apply IFF|]. now apply pairEqb_eq.
Qed.
Lemma edge_sum : forall a b, (if Nat.eqb a b || negb (isFractureEdge a b m) then 0 else k a b) ==
  sumOver es (fun e => (if pairEqb (a, b) e then k a b else 0) + (if pairEqb (b, a) e then k a b else 0)).
Proof.
  intros a b. rewrite sum_plus, !(sum_delta pairEqb pairEqb_eq) by apply ES. rewrite !in_es, (frac_sym b a).
  destruct (isFractureEdge a b m); [|rewrite !andb_false_r, orb_true_r; ring]. rewrite !andb_true_r. cbn [negb]. rewrite orb_false_r.
  destruct (Nat.eqb_spec a b), (Nat.ltb_spec a b), (Nat.ltb_spec b a); try lia; ring.
Qed.
Definition isIn (a : nat) (l : list nat) : bool := existsb (Nat.eqb a) l.
Lemma vertex_sum : forall l a, NoDup l -> isIn a l = true ->
  sumOver l (fun b => if Nat.eqb a b || negb (isFractureEdge a b m) then 0 else k a b) ==
  sumOver es (fun e => if isIn (fst e) l && isIn (snd e) l && endOf e a then k (fst e) (snd e) else 0).
Proof.
  intros l a ND IA.
  transitivity (sumOver l (fun b => sumOver es (fun e => (if pairEqb (a, b) e then k a b else 0) + (if pairEqb (b, a) e then k a b else 0)))).
  { apply sum_ext. intros b _. apply edge_sum. }
  rewrite sum_swap. apply sum_ext. intros [c d] I. cbn [fst snd]. destruct ES as (_ & OR & _). pose proof (OR c d I) as L.
  rewrite sum_plus. unfold endOf. cbn [fst snd].
  assert (E1 : sumOver l (fun b => if pairEqb (a, b) (c, d) then k a b else 0) == if Nat.eqb c a && isIn d l then k c d else 0).
  { unfold isIn. destruct (Nat.eqb_spec c a) as [->|N]; cbn [andb].
    - rewrite <- (sum_delta Nat.eqb Nat.eqb_eq l d (k a d) ND). apply sum_ext. intros b _. unfold pairEqb. cbn [fst snd]. rewrite Nat.eqb_refl. cbn [andb].
      rewrite (Nat.eqb_sym d b). destruct (Nat.eqb_spec b d) as [->|]; reflexivity.
    - apply sum_zero. intros b _. unfold pairEqb. cbn [fst snd]. destruct (Nat.eqb_spec a c); [congruence|reflexivity]. }
  assert (E2 : sumOver l (fun b => if pairEqb (b, a) (c, d) then k a b else 0) == if Nat.eqb d a && isIn c l then k c d else 0).
  { unfold isIn. destruct (Nat.eqb_spec d a) as [->|N]; cbn [andb].
    - rewrite <- (sum_delta Nat.eqb Nat.eqb_eq l c (k c a) ND). apply sum_ext. intros b _. unfold pairEqb. cbn [fst snd]. rewrite Nat.eqb_refl, andb_true_r.
      rewrite (Nat.eqb_sym c b). destruct (Nat.eqb_spec b c) as [->|]; [apply KS|reflexivity].
    - apply sum_zero. intros b _. unfold pairEqb. cbn [fst snd]. rewrite (proj2 (Nat.eqb_neq a d)) by congruence. rewrite andb_false_r. reflexivity. }
  rewrite E1, E2. clear E1 E2. destruct (Nat.eqb_spec c a) as [->|N1], (Nat.eqb_spec d a) as [->|N2]; try lia; cbn [orb andb]; rewrite ?andb_true_r, ?andb_false_r.
  - rewrite IA. cbn [andb]. ring.
  - rewrite IA, andb_true_r. ring.
  - ring.
Qed.
End P.

(** The number of elements next to an edge as a sum. *)
Lemma count_sum : forall (grid : list elementCtx) e c,
  sumOver grid (fun x => if hasEdge x e then c else 0) == inject_Z (Z.of_nat (elementsAt grid e)) * c.
Proof.
  intros grid e c. unfold elementsAt. induction grid as [|x grid IH]; [cbn; ring|]. rewrite sum_cons, IH. cbn [filter]. destruct (hasEdge x e); [|ring].
  cbn [length]. rewrite Nat2Z.inj_succ. unfold Z.succ. rewrite inject_Z_plus. ring.
Qed.
