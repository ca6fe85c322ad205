(** A cell-centred grid with transmissibilities has matching faces. *)
From Coq Require Import Permutation Setoid Morphisms.
From Verif Require Import FluxModel ResidualModel FluxSpec FluxProofs ResidualProofs.

Lemma flat_map_nil {A B} (l : list A) : flat_map (fun _ => []) l = ([] : list B).
Proof. induction l; auto. Qed.
Lemma flat_map_app2 {A B} (f g : A -> list B) l :
  Permutation (flat_map (fun x => f x ++ g x) l) (flat_map f l ++ flat_map g l).
Proof.
  induction l as [|x l IH]; [constructor|]. cbn [flat_map]. rewrite IH. rewrite <- !app_assoc.
  apply Permutation_app_head. rewrite !app_assoc. apply Permutation_app_tail. apply Permutation_app_comm.
Qed.
Lemma flat_map_swap {A B C} (f : A -> B -> list C) l m :
  Permutation (flat_map (fun x => flat_map (f x) m) l) (flat_map (fun y => flat_map (fun x => f x y) l) m).
Proof.
  induction l as [|x l IH]; cbn [flat_map].
  - rewrite flat_map_nil. constructor.
  - rewrite IH, <- flat_map_app2. reflexivity.
Qed.
Lemma flat_map_perm_ext {A B} (f g : A -> list B) l :
  (forall x, In x l -> Permutation (f x) (g x)) -> Permutation (flat_map f l) (flat_map g l).
Proof.
  induction l as [|x l IH]; intros H; [constructor|]. cbn [flat_map]. apply Permutation_app.
  - apply H; left; auto.
  - apply IH; intros; apply H; right; auto.
Qed.
Lemma flat_map_map {A B C} (f : B -> C) (h : A -> list B) l : map f (flat_map h l) = flat_map (fun x => map f (h x)) l.
Proof. induction l as [|x l IH]; [reflexivity|]. cbn. rewrite map_app, IH. reflexivity. Qed.
(** Exactly one member of the range is selected. *)
Lemma flat_map_pick {B} (F : nat -> list B) n k s : 
  flat_map (fun i => if (k =? i)%nat then F i else []) (seq s n) = if (s <=? k)%nat && (k <? s + n)%nat then F k else [].
Proof.
  revert s. induction n as [|n IH]; intros s; cbn [seq flat_map].
  - replace (s + 0)%nat with s by lia. destruct (s <=? k)%nat eqn:E; destruct (k <? s)%nat eqn:G; cbn; auto.
    apply Nat.leb_le in E. apply Nat.ltb_lt in G. lia.
  - rewrite IH. destruct (k =? s)%nat eqn:E.
    + apply Nat.eqb_eq in E. subst s.
      replace (S k <=? k)%nat with false by (symmetry; apply Nat.leb_gt; lia).
      replace (k <=? k)%nat with true by (symmetry; apply Nat.leb_le; lia).
      replace (k <? k + S n)%nat with true by (symmetry; apply Nat.ltb_lt; lia). cbn. apply app_nil_r.
    + apply Nat.eqb_neq in E. replace (S s + n)%nat with (s + S n)%nat by lia. cbn [app].
      destruct (S s <=? k)%nat eqn:G; destruct (s <=? k)%nat eqn:H; cbn [andb]; auto.
      * apply Nat.leb_le in G. apply Nat.leb_gt in H. lia.
      * apply Nat.leb_gt in G. apply Nat.leb_le in H. lia.
Qed.

Section Grid.
Variables (fs : fluidsys) (g : Q) (c : comp) (cells : nat -> cell) (data : nat -> dof) (bnd : nat -> list bface).
Definition gridSide (i j : nat) (k : connection) : side :=
  mkSide (d_global (data i)) (d_global (data j))
    (advective fs (volumeFlux g (k_trans k) (cells i) (cells j)) (cells i) (cells j) c * ((d_ext (data i) + d_ext (data j)) / 2 * k_area k)).

Lemma sides_of_faces i nb pre s : length pre = s ->
  map (fun f =>
    let di := nth (f_in f) (data i :: pre ++ map (fun p => data (fst p)) nb) noDof in
    let dj := nth (f_ex f) (data i :: pre ++ map (fun p => data (fst p)) nb) noDof in
    mkSide (d_global di) (d_global dj) (f_flux f * ((d_ext di + d_ext dj) / 2 * f_area f)))
    (map (fun q : nat * (nat * connection) =>
       let (pos, jk) := q in let (j, k) := jk in
       mkFace 0 (S pos) (k_area k) (advective fs (volumeFlux g (k_trans k) (cells i) (cells j)) (cells i) (cells j) c))
       (combine (seq s (length nb)) nb))
  = map (fun p => gridSide i (fst p) (snd p)) nb.
Proof.
  revert pre s. induction nb as [|[j k] nb IH]; intros pre s L; [reflexivity|].
  cbn [length seq combine map fst snd]. f_equal.
  - cbn [f_in f_ex f_flux f_area nth]. rewrite app_nth2 by lia. replace (s - length pre)%nat with 0%nat by lia. reflexivity.
  - rewrite <- (IH (pre ++ [data j]) (S s)); [|rewrite app_length; cbn; lia].
    rewrite <- app_assoc. reflexivity.
Qed.
Lemma grid_sides conns i :
  sides (gridElement fs g c cells data bnd conns i) = map (fun p => gridSide i (fst p) (snd p)) (neighbours conns i).
Proof. unfold sides, gridElement. cbn [e_faces e_dofs]. apply (sides_of_faces i (neighbours conns i) [] 0 eq_refl). Qed.

Hypothesis Idx : forall i j, c_idx (cells i) = c_idx (cells j) -> i = j.
Lemma grid_match conns n :
  Forall (fun k => (k_a k < n)%nat /\ (k_b k < n)%nat /\ k_a k <> k_b k) conns ->
  faces_match (flat_map sides (map (gridElement fs g c cells data bnd conns) (seq 0 n))).
Proof.
  intros F. rewrite flat_map_concat_map, map_map, <- flat_map_concat_map.
  exists (map (fun k => (gridSide (k_a k) (k_b k) k, gridSide (k_b k) (k_a k) k)) conns). split.
  - rewrite (flat_map_concat_map _ (map _ conns)), map_map, <- flat_map_concat_map. cbn [fst snd].
    erewrite flat_map_ext by (intros i; rewrite grid_sides; unfold neighbours; rewrite flat_map_map; reflexivity).
    rewrite flat_map_swap. apply flat_map_perm_ext. intros k I. rewrite Forall_forall in F.
    destruct (F k I) as (A & B & N).
    transitivity (flat_map (fun i => (if (k_a k =? i)%nat then [gridSide i (k_b k) k] else []) ++
                                     (if (k_b k =? i)%nat then [gridSide i (k_a k) k] else [])) (seq 0 n)).
    + apply flat_map_perm_ext. intros i _.
      destruct (k_a k =? i)%nat eqn:E1; destruct (k_b k =? i)%nat eqn:E2; try reflexivity.
      apply Nat.eqb_eq in E1, E2. lia.
    + rewrite flat_map_app2, !flat_map_pick.
      replace (k_a k <? 0 + n)%nat with true by (symmetry; apply Nat.ltb_lt; lia).
      replace (k_b k <? 0 + n)%nat with true by (symmetry; apply Nat.ltb_lt; lia). reflexivity.
  - apply Forall_forall. intros p P. apply in_map_iff in P as (k & <- & I). rewrite Forall_forall in F.
    destruct (F k I) as (A & B & N). cbn [fst snd gridSide s_from s_to s_amount]. repeat split; auto.
    rewrite (advective_antisym fs (volumeFlux g (k_trans k) (cells (k_a k)) (cells (k_b k)))
              (volumeFlux g (k_trans k) (cells (k_b k)) (cells (k_a k)))).
    + field.
    + intros ph. apply volumeFlux_opposite. intro H. apply N. apply Idx. exact H.
Qed.
End Grid.

Lemma combine_seq_in {A} (l : list A) s p x : In (p, x) (combine (seq s (length l)) l) -> (s <= p < s + length l)%nat.
Proof. intros I. apply in_combine_l in I. apply in_seq in I. lia. Qed.
Lemma grid_wellFormed fs g c cells data bnd conns i : Forall (fun b => b_dof b = 0%nat) (bnd i) ->
  wellFormed (gridElement fs g c cells data bnd conns i) /\ cellCentred (gridElement fs g c cells data bnd conns i).
Proof.
  intros B. unfold wellFormed, cellCentred, gridElement. cbn [e_primary e_dofs e_faces e_bfaces length].
  rewrite map_length. repeat split; try lia.
  - eapply Forall_impl; [|exact B]. cbn. intros; lia.
  - apply Forall_forall. intros f I. apply in_map_iff in I as ([p [j k]] & <- & I).
    apply combine_seq_in in I. cbn. lia.
  - apply Forall_forall. intros f I. apply in_map_iff in I as ([p [j k]] & <- & I). cbn. lia.
Qed.
