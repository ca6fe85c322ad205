From Coq Require Import Sorted.
From Verif Require Import FractureModel.

(** Sets ordered by a strict total order. *)
Section S.
  Context {A : Type} (lt : A -> A -> bool).
  Hypothesis irrefl : forall x, lt x x = false.
  Hypothesis trans : forall x y z, lt x y = true -> lt y z = true -> lt x z = true.
  Hypothesis total : forall x y, lt x y = false -> lt y x = false -> x = y.
  Definition sorted (l : list A) : Prop := StronglySorted (fun a b => lt a b = true) l.

  Lemma insert_in x l y : In y (insert lt x l) <-> x = y \/ In y l.
  Proof.
    induction l as [|z l IH]; cbn; [tauto|]. destruct (lt x z) eqn:E1; [cbn; tauto|]. destruct (lt z x) eqn:E2; cbn; [rewrite IH; tauto|].
    rewrite (total _ _ E1 E2). tauto.
  Qed.
  Lemma insert_sorted x l : sorted l -> sorted (insert lt x l).
  Proof.
    unfold sorted. induction l as [|z l IH]; intros S; cbn; [repeat constructor|]. inversion S as [|? ? S' F]; subst.
    destruct (lt x z) eqn:E1.
    - constructor; auto. constructor; auto. eapply Forall_impl; [|exact F]. cbn. eauto.
    - destruct (lt z x) eqn:E2; auto. constructor; auto. apply Forall_forall. intros y Y. apply insert_in in Y. destruct Y as [<-|Y]; auto.
      rewrite Forall_forall in F. auto.
  Qed.
  Lemma count_in x l : sorted l -> count lt x l = true <-> In x l.
  Proof.
    unfold sorted. induction l as [|z l IH]; intros S; cbn; [split; [discriminate|tauto]|]. inversion S as [|? ? S' F]; subst. rewrite Forall_forall in F.
    destruct (lt x z) eqn:E1.
    - split; [discriminate|]. intros [->|H]; [rewrite irrefl in E1; discriminate|]. apply F in H. pose proof (trans _ _ _ E1 H). rewrite irrefl in *. discriminate.
    - destruct (lt z x) eqn:E2.
      + rewrite IH by auto. split; auto. intros [->|]; auto. rewrite irrefl in E2. discriminate.
      + rewrite (total _ _ E1 E2). tauto.
  Qed.
End S.

Lemma edge_irrefl x : edge_lt x x = false.
Proof. unfold edge_lt. rewrite !Nat.ltb_irrefl, Nat.eqb_refl. reflexivity. Qed.
Lemma edge_lt_iff x y : edge_lt x y = true <-> e_i x < e_i y \/ (e_i x = e_i y /\ e_j x < e_j y).
Proof. unfold edge_lt. rewrite orb_true_iff, andb_true_iff, !Nat.ltb_lt, Nat.eqb_eq. tauto. Qed.
Lemma edge_trans x y z : edge_lt x y = true -> edge_lt y z = true -> edge_lt x z = true.
Proof. rewrite !edge_lt_iff. lia. Qed.
Lemma edge_total x y : edge_lt x y = false -> edge_lt y x = false -> x = y.
Proof.
  intros H1 H2. apply not_true_iff_false in H1, H2. rewrite edge_lt_iff in H1, H2. destruct x as [a b], y as [c d]. cbn in *. f_equal; lia.
Qed.
Lemma nat_trans x y z : Nat.ltb x y = true -> Nat.ltb y z = true -> Nat.ltb x z = true.
Proof. rewrite !Nat.ltb_lt. lia. Qed.
Lemma nat_total x y : Nat.ltb x y = false -> Nat.ltb y x = false -> x = y.
Proof. rewrite !Nat.ltb_ge. lia. Qed.

Lemma make_edge_eq a b c d : make_edge a b = make_edge c d <-> (a = c /\ b = d) \/ (a = d /\ b = c).
Proof.
  unfold make_edge. split.
  - intros E. injection E as E1 E2. lia.
  - intros H. f_equal; lia.
Qed.

Lemma add_all_snoc l e : add_all (l ++ [e]) = addFractureEdge (fst e) (snd e) (add_all l).
Proof. unfold add_all. rewrite fold_left_app. reflexivity. Qed.

Lemma add_all_ok l :
  sorted edge_lt (fractureEdges (add_all l)) /\ sorted Nat.ltb (fractureVertices (add_all l)) /\
  (forall x, In x (fractureEdges (add_all l)) <-> exists e, In e l /\ x = make_edge (fst e) (snd e)) /\
  (forall v, In v (fractureVertices (add_all l)) <-> exists e, In e l /\ (v = fst e \/ v = snd e)).
Proof.
  induction l as [|e l IH] using rev_ind.
  - split; [constructor|]. split; [constructor|]. split; intros; cbn; (split; [tauto|]); intros (e & [] & _).
  - destruct IH as (S1 & S2 & E & V). rewrite add_all_snoc. unfold addFractureEdge. cbn [fractureEdges fractureVertices]. split; [|split; [|split]].
    + apply insert_sorted; auto using edge_total. intros; eapply edge_trans; eauto.
    + apply insert_sorted; auto using nat_total; [intros; eapply nat_trans; eauto|]. apply insert_sorted; auto using nat_total. intros; eapply nat_trans; eauto.
    + intros x. rewrite (insert_in edge_lt edge_total), E. split.
      * intros [<-|(e' & I & ->)]; [exists e|exists e']; rewrite in_app_iff; cbn; auto.
      * intros (e' & I & ->). apply in_app_iff in I. destruct I as [I|[<-|[]]]; eauto.
    + intros v. rewrite !(insert_in Nat.ltb nat_total), V. split.
      * intros [<-|[<-|(e' & I & H)]]; [exists e|exists e|exists e']; rewrite in_app_iff; cbn; auto.
      * intros (e' & I & H). apply in_app_iff in I. destruct I as [I|[<-|[]]]; [eauto 6|]. destruct H; auto.
Qed.
