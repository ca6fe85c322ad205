From Verif Require Import AuxDofModel AuxDofSpec.

Fixpoint total (l : list aux) : nat := match l with [] => 0 | m :: l => a_num m + total l end.
Lemma fold_total l : forall a, fold_left (fun r m => r + a_num m) l a = a + total l.
Proof. induction l as [|m l IH]; intros a; cbn; [lia|]. rewrite IH. lia. Qed.
Lemma num_aux s : numAuxiliaryDof s = total (d_mods s).
Proof. unfold numAuxiliaryDof. rewrite fold_total. reflexivity. Qed.
Lemma total_app a b : total (a ++ b) = total a + total b.
Proof. induction a as [|m a IH]; cbn; auto. rewrite IH. lia. Qed.

(** Every module starts where its predecessors end. *)
Fixpoint contiguous (start : nat) (l : list aux) : Prop :=
  match l with [] => True | m :: l' => a_off m = start /\ contiguous (start + a_num m) l' end.

Lemma contiguous_app l : forall start m, contiguous start l -> a_off m = start + total l -> contiguous start (l ++ [m]).
Proof.
  induction l as [|x l IH]; intros start m H E; cbn in *.
  - split; auto. lia.
  - destruct H as [H1 H2]. split; auto. apply IH; auto. lia.
Qed.

Definition AInv (grid : nat) (s : dofs) : Prop :=
  d_grid s = grid /\ contiguous grid (d_mods s) /\ numTotalDof s <= d_size s.

Lemma AInv_step grid o s : AInv grid s -> AInv grid (astep o s).
Proof.
  intros (G & C & B). destruct o as [n|]; cbn.
  - unfold AInv, addAuxiliaryModule. cbn. repeat split; auto.
    apply contiguous_app; auto. cbn. unfold numTotalDof. rewrite num_aux. lia.
  - unfold AInv, clearAuxiliaryModules, numTotalDof in *. cbn. rewrite num_aux in *. cbn. repeat split; auto. lia.
Qed.
Lemma AInv_steps grid os : forall s, AInv grid s -> AInv grid (asteps os s).
Proof. induction os as [|o os IH]; intros s I; cbn; auto. apply IH, AInv_step, I. Qed.
Lemma AInv_start grid : AInv grid (no_modules grid).
Proof. unfold AInv, no_modules, numTotalDof, numAuxiliaryDof. cbn. repeat split; auto; lia. Qed.

Lemma in_range l : forall start k m i, contiguous start l -> nth_error l k = Some m -> i < a_num m ->
  start + total (firstn k l) = a_off m /\ a_off m + i < start + total l.
Proof.
  induction l as [|x l IH]; intros start k m i C H L; [destruct k; discriminate|].
  destruct C as [C1 C2]. destruct k as [|k]; cbn in *.
  - inversion H; subst. lia.
  - destruct (IH _ k m i C2 H L). lia.
Qed.

Lemma covered l : forall start x, contiguous start l -> start <= x < start + total l ->
  exists k m i, nth_error l k = Some m /\ i < a_num m /\ x = a_off m + i.
Proof.
  induction l as [|y l IH]; intros start x C H; cbn in *; [lia|]. destruct C as [C1 C2].
  destruct (lt_dec x (start + a_num y)) as [L|L].
  - exists 0, y, (x - start). cbn. repeat split; auto; lia.
  - destruct (IH (start + a_num y) x C2) as (k & m & i & E1 & E2 & E3); [lia|]. exists (S k), m, i. auto.
Qed.

Lemma firstn_total l : forall k k' m, nth_error l k = Some m -> k < k' -> total (firstn k l) + a_num m <= total (firstn k' l).
Proof.
  induction l as [|y l IH]; intros k k' m H L; [destruct k; discriminate|].
  destruct k' as [|k']; [lia|]. destruct k as [|k]; cbn in *.
  - inversion H; subst. lia.
  - specialize (IH k k' m H ltac:(lia)). lia.
Qed.

Lemma unique_owner l start k m i k' m' i' : contiguous start l ->
  nth_error l k = Some m -> i < a_num m -> nth_error l k' = Some m' -> i' < a_num m' ->
  a_off m + i = a_off m' + i' -> k = k' /\ i = i'.
Proof.
  intros C H L H' L' E.
  destruct (in_range l start k m i C H L) as [R _]. destruct (in_range l start k' m' i' C H' L') as [R' _].
  destruct (lt_eq_lt_dec k k') as [[D|D]|D].
  - pose proof (firstn_total l k k' m H D). lia.
  - subst k'. rewrite H in H'. inversion H'; subst. split; auto. lia.
  - pose proof (firstn_total l k' k m' H' D). lia.
Qed.
