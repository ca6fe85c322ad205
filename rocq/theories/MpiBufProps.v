(** C60: message buffers. *)
From Verif Require Import MpiBufModel MpiBufSpec MpiBufProofs.

(** As long as no buffer is copied: no block is ever freed twice, and when all buffers are gone
    every block was freed. *)
Theorem C60_freed_exactly_once_partial :
  forall l, no_copies l -> run l empty <> DoubleFree /\ forall w, run l empty = Fine w -> all_gone w -> freed_once w.
Proof.
  intros l N. destruct (run_inv l empty inv_empty N) as [E|(w & E & I)]; rewrite E; (split; [discriminate|]); intros w' [= <-] G.
  destruct I as (I1 & I2). rewrite gone_owned in I1, I2 by exact G. split; auto.
Qed.
Print Assumptions C60_freed_exactly_once_partial.

(** While buffers exist, no two of them share a block and none has a block that was freed. *)
Theorem C60_buffers_do_not_share_partial :
  forall l w i j bi bj x, no_copies l -> run l empty = Fine w ->
    nth_error (buffers w) i = Some bi -> b_alive bi = true -> b_data bi = Some x ->
    ~ In x (freed w) /\ (nth_error (buffers w) j = Some bj -> b_alive bj = true -> b_data bj = Some x -> i = j).
Proof.
  intros l w i j bi bj x N E Hi Ai Di. destruct (run_inv l empty inv_empty N) as [E'|(w' & E' & I1 & _)]; rewrite E' in E; [discriminate|].
  injection E as <-. assert (IN : forall k b, nth_error (buffers w') k = Some b -> b_alive b = true -> b_data b = Some x -> In x (own b)).
  { intros k b _ A D. unfold own. rewrite A, D. left. auto. }
  split.
  - intros F. rewrite (split_at _ _ _ Hi), owned_app in I1. cbn [owned flat_map] in I1. rewrite <- !app_assoc in I1.
    apply nodup_tail in I1. pose proof (IN _ _ Hi Ai Di) as X. clear -I1 X F.
    induction (own bi) as [|y r IH]; [destruct X|]. cbn in I1. inversion I1 as [|? ? Z I']; subst. destruct X as [->|X]; auto.
    apply Z. rewrite !in_app_iff. auto.
  - intros Hj Aj Dj. assert (ND : NoDup (owned (buffers w'))).
    { clear -I1. induction (owned (buffers w')) as [|y r IH]; [constructor|]. cbn in I1. inversion I1; subst. constructor; auto.
      intros X. apply H1. apply in_or_app. auto. }
    clear I1. revert i j Hi Hj. generalize (buffers w') as bs, ND. intros bs. clear ND. induction bs as [|b bs IH]; intros ND i j Hi Hj; [destruct i; discriminate|].
    cbn [owned flat_map] in ND.
    assert (S : forall k c, nth_error bs k = Some c -> In x (own c) -> In x (owned bs)).
    { intros k c Hk Hc. apply in_flat_map. exists c. split; auto. eapply nth_error_In; eauto. }
    assert (D : forall r s, NoDup (r ++ s) -> In x r -> In x s -> False).
    { clear. induction r as [|y r IH]; intros s N X Y; [destruct X|]. cbn in N. inversion N; subst. destruct X as [->|X]; [|eauto].
      apply H1. apply in_or_app. auto. }
    assert (Oi : In x (own bi)) by (unfold own; rewrite Ai, Di; left; auto).
    assert (Oj : In x (own bj)) by (unfold own; rewrite Aj, Dj; left; auto).
    destruct i as [|i], j as [|j]; cbn in Hi, Hj; auto.
    + injection Hi as ->. exfalso. eapply D; eauto.
    + injection Hj as ->. exfalso. eapply D; eauto.
    + f_equal. apply IH; auto. eapply nodup_tail; eauto.
Qed.
Print Assumptions C60_buffers_do_not_share_partial.

Example C60_case : let l := [Default; Sized 3; Resize 0 5; Resize 1 0; Destroy 1; Destroy 0] in
  no_copies l /\ exists w, run l empty = Fine w /\ all_gone w /\ blocks w = 3%nat.
Proof.
  split.
  - intros i H. cbn in H. repeat (destruct H as [H|H]; [discriminate|]). auto.
  - eexists. split; [vm_compute; reflexivity|]. split; [|reflexivity]. intros b H. cbn in H. repeat (destruct H as [<-|H]; [reflexivity|]). destruct H.
Qed.

(** A copied buffer points to the same block, which is then freed twice. *)
Theorem C60_freed_exactly_once_refuted : ~ (forall l, run l empty <> DoubleFree).
Proof. intros H. apply (H [Sized 4; Copy 0; Destroy 1; Destroy 0]). vm_compute. reflexivity. Qed.
Print Assumptions C60_freed_exactly_once_refuted.
