From Verif Require Import MpiBufModel MpiBufSpec.

Lemma nodup_tail {A} (l r : list A) : NoDup (l ++ r) -> NoDup r.
Proof. induction l; auto. cbn. intros H. inversion H; subst. auto. Qed.

(** Blocks of existing buffers. *)
Definition own (b : buffer) : list nat := if b_alive b then match b_data b with Some x => [x] | None => [] end else [].
Definition owned (l : list buffer) : list nat := flat_map own l.

Definition inv (w : world) : Prop :=
  NoDup (owned (buffers w) ++ freed w) /\ forall b, In b (owned (buffers w) ++ freed w) <-> (b < blocks w)%nat.

Lemma owned_app l r : owned (l ++ r) = owned l ++ owned r.
Proof. apply flat_map_app. Qed.

Lemma split_at (l : list buffer) i b : nth_error l i = Some b -> l = firstn i l ++ b :: skipn (S i) l.
Proof. revert i. induction l as [|x l IH]; intros [|i] H; cbn in *; try discriminate; [congruence|f_equal; auto]. Qed.

From Coq Require Import Permutation.

Lemma inv_perm l l' n f f' : Permutation (owned l ++ f) (owned l' ++ f') -> inv (mkWorld l n f) -> inv (mkWorld l' n f').
Proof.
  intros P (N & C). split; cbn in *.
  - eapply Permutation_NoDup; eauto.
  - intros b. rewrite <- C. split; apply Permutation_in; auto. apply Permutation_sym; auto.
Qed.
Lemma inv_new l n f : inv (mkWorld l n f) -> forall l', Permutation (owned l') (n :: owned l) -> inv (mkWorld l' (S n) f).
Proof.
  intros (N & C) l' P. cbn in *. assert (P' : Permutation (owned l' ++ f) (n :: owned l ++ f)) by (apply (Permutation_app_tail f) in P; auto).
  split; cbn.
  - eapply Permutation_NoDup; [apply Permutation_sym; eauto|]. constructor; auto. rewrite C. lia.
  - intros b. split; intros H.
    + apply (Permutation_in b P') in H. destruct H as [<-|H]; [lia|]. apply C in H. lia.
    + apply (Permutation_in b (Permutation_sym P')). destruct (Nat.eq_dec b n); [left; auto|right]. apply C. lia.
Qed.

Lemma delete_ok w i b : inv w -> nth_error (buffers w) i = Some b -> b_alive b = true ->
  exists f, delete (b_data b) (freed w) = Some f /\ f = own b ++ freed w.
Proof.
  intros (N & _) E A. rewrite (split_at _ _ _ E), owned_app in N. unfold delete, own. rewrite A. destruct (b_data b) as [x|] eqn:D; [|eauto].
  destruct (existsb (Nat.eqb x) (freed w)) eqn:X; [|eauto]. exfalso. apply existsb_exists in X. destruct X as (y & X & Y).
  apply Nat.eqb_eq in Y. subst y. cbn [owned flat_map] in N. assert (O : own b = [x]) by (unfold own; rewrite A, D; auto). rewrite O in N. rewrite <- app_assoc in N.
  apply nodup_tail in N. cbn in N. inversion N as [|? ? Z _]. apply Z. apply in_or_app. auto.
Qed.

Lemma step_inv o w : inv w -> (forall i, o <> Copy i) -> apply o w = Impossible \/ exists w', apply o w = Fine w' /\ inv w'.
Proof.
  intros I N. destruct w as [l n f]. destruct o as [|k|i|i k|i]; cbn [apply buffers blocks freed].
  - right. eexists. split; [reflexivity|]. eapply inv_perm; [|exact I]. rewrite owned_app. cbn. rewrite app_nil_r. auto.
  - right. eexists. split; [reflexivity|]. eapply inv_new; [exact I|]. rewrite owned_app. cbn. apply Permutation_sym, Permutation_cons_append.
  - exfalso. eapply N. reflexivity.
  - destruct (nth_error l i) as [b|] eqn:E; auto. destruct (b_alive b) eqn:A; auto. right.
    destruct (delete_ok (mkWorld l n f) i b I E A) as (f' & Df & ->). cbn [freed] in Df. rewrite Df. eexists. split; [reflexivity|].
    eapply inv_new with (l := set i (mkBuffer (b_data b) (b_size b) false) l).
    + eapply inv_perm; [|exact I]. rewrite (split_at _ _ _ E) at 1. unfold set. rewrite !owned_app. cbn [owned flat_map own b_alive]. cbn [app].
      rewrite <- !app_assoc. apply Permutation_app_head. rewrite !app_assoc. apply Permutation_app_tail, Permutation_app_comm.
    + unfold set. rewrite !owned_app. cbn [owned flat_map own b_alive b_data]. cbn [app]. apply Permutation_sym, Permutation_middle.
  - destruct (nth_error l i) as [b|] eqn:E; auto. destruct (b_alive b) eqn:A; auto. right.
    destruct (delete_ok (mkWorld l n f) i b I E A) as (f' & Df & ->). cbn [freed] in Df. rewrite Df. eexists. split; [reflexivity|].
    eapply inv_perm; [|exact I]. rewrite (split_at _ _ _ E) at 1. unfold set. rewrite !owned_app. cbn [owned flat_map own b_alive]. cbn [app].
    rewrite <- !app_assoc. apply Permutation_app_head. rewrite !app_assoc. apply Permutation_app_tail, Permutation_app_comm.
Qed.
Lemma run_inv l : forall w, inv w -> no_copies l -> run l w = Impossible \/ exists w', run l w = Fine w' /\ inv w'.
Proof.
  induction l as [|o l IH]; intros w I N; cbn [run]; eauto.
  destruct (step_inv o w I) as [E|(w' & E & I')]; [intros i ->; apply (N i); left; auto|rewrite E; auto|].
  rewrite E. apply IH; auto. intros i X. apply (N i). right. auto.
Qed.
Lemma inv_empty : inv empty.
Proof. split; cbn; [constructor|]. intros b. split; [tauto|lia]. Qed.
Lemma gone_owned l : (forall b, In b l -> b_alive b = false) -> owned l = [].
Proof.
  intros H. induction l as [|b l IH]; auto. cbn [owned flat_map]. unfold own at 1. rewrite H by (left; auto). apply IH.
  intros x X. apply H. right. auto.
Qed.
