(** C57: the topology of fractures. *)
From Verif Require Import FractureModel FractureProofs.

(** An edge is reported exactly if it was added, in either direction. *)
Theorem C57_fracture_edges :
  forall l a b, isFractureEdge a b (add_all l) = true <-> In (a, b) l \/ In (b, a) l.
Proof.
  intros l a b. destruct (add_all_ok l) as (S & _ & E & _). unfold isFractureEdge.
  rewrite (count_in edge_lt edge_irrefl edge_trans edge_total) by exact S. rewrite E. split.
  - intros ([c d] & I & H). apply make_edge_eq in H. cbn in H. destruct H as [(-> & ->)|(-> & ->)]; auto.
  - intros [I|I]; [exists (a, b)|exists (b, a)]; (split; [exact I|]); apply make_edge_eq; auto.
Qed.
Print Assumptions C57_fracture_edges.

(** So the answer does not depend on the order of the two vertices. *)
Theorem C57_fracture_edges_symmetric :
  forall l a b, isFractureEdge a b (add_all l) = isFractureEdge b a (add_all l).
Proof.
  intros l a b. apply eq_iff_eq_true. rewrite !C57_fracture_edges. tauto.
Qed.
Print Assumptions C57_fracture_edges_symmetric.

(** A vertex is reported exactly if it belongs to an edge that was added. *)
Theorem C57_fracture_vertices :
  forall l v, isFractureVertex v (add_all l) = true <-> exists w, In (v, w) l \/ In (w, v) l.
Proof.
  intros l v. destruct (add_all_ok l) as (_ & S & _ & V). unfold isFractureVertex.
  rewrite (count_in Nat.ltb Nat.ltb_irrefl nat_trans nat_total) by exact S. rewrite V. split.
  - intros ([c d] & I & H). cbn in H. destruct H; subst; eauto.
  - intros (w & [I|I]); [exists (v, w)|exists (w, v)]; cbn; auto.
Qed.
Print Assumptions C57_fracture_vertices.

Example C57_case : let m := add_all [(3, 1); (1, 3); (2, 5)] in
  isFractureEdge 1 3 m = true /\ isFractureEdge 3 5 m = false /\ isFractureVertex 5 m = true /\ isFractureVertex 4 m = false /\
  length (fractureEdges m) = 2.
Proof. vm_compute. auto 10. Qed.
