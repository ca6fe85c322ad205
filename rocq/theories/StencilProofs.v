(** Proofs on the stencil of the element centered method. *)
From Coq Require Import List ZArith QArith Lia Permutation.
Import ListNotations.
From Verif Require Import StencilModel StencilSpec.

(** The inner faces for a list of intersections with a neighbour, the first of which gets the
    number [n]. *)
Fixpoint facesFrom (n : Z) (l : list intersection) : list face :=
  match l with [] => [] | i :: t => newFace i n :: facesFrom (n + 1) t end.

Lemma facesFrom_length : forall l n, length (facesFrom n l) = length l.
Proof. induction l; intros; cbn; auto. Qed.

Lemma facesFrom_nth : forall l n k i, nth_error l k = Some i ->
  nth_error (facesFrom n l) k = Some (newFace i (n + Z.of_nat k)).
Proof.
  induction l as [|a l IH]; intros n [|k] i H; cbn in *; try discriminate.
  - injection H as ->. do 2 f_equal. lia.
  - rewrite (IH _ _ _ H). do 2 f_equal. lia.
Qed.

Lemma loop_result : forall l s,
  fold_left addIntersection l s =
  mkStencil (elements s ++ behind l) (subControlVolumes s ++ behind l)
    (interiorFaces s ++ facesFrom (Z.of_nat (length (subControlVolumes s))) (innerOf l))
    (boundaryFaces s ++ map (fun i => newFace i (2 ^ 32 - 10000)) (outerOf l)).
Proof.
  induction l as [|i l IH]; intros s.
  - cbn [fold_left behind flat_map innerOf outerOf filter facesFrom map]. rewrite !app_nil_r.
    destruct s; reflexivity.
  - cbn [fold_left]. rewrite IH. unfold addIntersection, behind, innerOf, outerOf, inner.
    cbn [flat_map filter].
    destruct (outside i) as [o|] eqn:E; cbn [negb elements subControlVolumes interiorFaces boundaryFaces].
    + rewrite <- !app_assoc. rewrite !app_length. cbn [length].
      cbn [app facesFrom]. f_equal. f_equal. f_equal; [f_equal; lia|]. f_equal. lia.
    + cbn [app map]. rewrite <- !app_assoc. reflexivity.
Qed.

Lemma update_result : forall inters e s,
  update inters e s =
  mkStencil (e :: behind (inters e)) (e :: behind (inters e))
    (facesFrom 1 (innerOf (inters e)))
    (map (fun i => newFace i (2 ^ 32 - 10000)) (outerOf (inters e))).
Proof. intros. unfold update, updateTopology. rewrite loop_result. reflexivity. Qed.

Lemma behind_inner : forall l, length (behind l) = length (innerOf l).
Proof.
  induction l as [|i l IH]; auto. unfold behind, innerOf in *. cbn [flat_map filter].
  unfold inner. destruct (outside i); cbn; auto.
Qed.

Lemma behind_nth : forall l k i, nth_error (innerOf l) k = Some i ->
  nth_error (behind l) k = outside i.
Proof.
  induction l as [|a l IH]; intros k i H; unfold innerOf, behind in *; cbn [flat_map filter] in *.
  - destruct k; discriminate.
  - unfold inner in H at 1. destruct (outside a) as [o|] eqn:E.
    + destruct k; cbn in *; auto. congruence.
    + cbn. auto.
Qed.

Lemma split_intersections : forall l, Permutation (innerOf l ++ outerOf l) l.
Proof.
  induction l as [|i l IH]; auto. unfold innerOf, outerOf in *. cbn [filter].
  destruct (inner i); cbn [negb].
  - cbn. now constructor.
  - apply Permutation_sym. eapply perm_trans; [apply perm_skip, Permutation_sym, IH|].
    apply Permutation_middle.
Qed.

Lemma describes_all : forall l n, Forall2 describes (facesFrom n l) l.
Proof. induction l; intros; cbn; constructor; auto. split; reflexivity. Qed.

Lemma describes_map : forall l n, Forall2 describes (map (fun i => newFace i n) l) l.
Proof. induction l; intros; cbn; constructor; auto. split; reflexivity. Qed.

Lemma forall2_perm : forall A B (R : A -> B -> Prop) a b b', Forall2 R a b -> Permutation b b' ->
  exists a', Permutation a a' /\ Forall2 R a' b'.
Proof.
  intros A B R a b b' H P. revert a H. induction P; intros a H.
  - inversion H; subst. exists []. auto.
  - inversion H; subst. destruct (IHP _ H4) as (a' & P1 & F1). exists (x0 :: a'). auto.
  - inversion H; subst. inversion H4; subst. exists (x1 :: x0 :: l1). split; [apply perm_swap|]. auto.
  - destruct (IHP1 _ H) as (a' & Q1 & F1). destruct (IHP2 _ F1) as (a'' & Q2 & F2).
    exists a''. split; auto. eapply perm_trans; eauto.
Qed.
