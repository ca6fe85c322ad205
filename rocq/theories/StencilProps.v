(** C61: the stencil of a cell. *)
From Coq Require Import List ZArith QArith Lia Permutation.
Import ListNotations.
From Verif Require Import StencilModel StencilSpec StencilProofs.

Section Statements.
Variable inters : nat -> list intersection.
Variable mapper : nat -> nat.

(** Whatever the stencil was used for before: after an update for a cell, the first degree of
    freedom is the cell and there is one more for each intersection with a neighbour.  The
    number of faces is the number of intersections. *)
Theorem C61_degrees_of_freedom : forall cs e,
  let s := history inters (cs ++ [Update e]) in
  element s 0 = Some e /\
  numDof s = S (length (innerOf (inters e))) /\
  numPrimaryDof s = 1%nat /\
  (forall k i, nth_error (innerOf (inters e)) k = Some i -> element s (S k) = outside i) /\
  numInteriorFaces s = length (innerOf (inters e)) /\
  (numInteriorFaces s + numBoundaryFaces s)%nat = length (inters e).
Proof.
  intros cs e s. unfold s, history. rewrite fold_left_app. cbn [fold_left perform].
  rewrite update_result. unfold element, numDof, numPrimaryDof, numInteriorFaces, numBoundaryFaces.
  cbn [elements subControlVolumes interiorFaces boundaryFaces nth_error length].
  rewrite behind_inner, facesFrom_length, map_length.
  do 3 (split; [auto|]). split; [apply behind_nth|]. split; [auto|].
  rewrite <- app_length. apply Permutation_length, split_intersections.
Qed.

(** The [k]-th interior face is the [k]-th intersection with a neighbour.  It lies between the
    cell and the degree of freedom of that neighbour, as long as there are at most 65535 of
    them. *)
Theorem C61_interior_faces : forall cs e k i,
  let s := history inters (cs ++ [Update e]) in
  nth_error (innerOf (inters e)) k = Some i -> (Z.of_nat (length (inters e)) < 65536)%Z ->
  exists f o, interiorFace s k = Some f /\ describes f i /\ outside i = Some o /\
    globalSpaceIndex mapper s (Z.to_nat (interiorIndex f)) = Some (mapper e) /\
    globalSpaceIndex mapper s (Z.to_nat (exteriorIdx f)) = Some (mapper o) /\
    exteriorIdx f = (Z.of_nat k + 1)%Z.
Proof.
  intros cs e k i s Hk HL. unfold s, history. rewrite fold_left_app. cbn [fold_left perform].
  rewrite update_result. unfold interiorFace. cbn [interiorFaces].
  assert (KL : (k < length (innerOf (inters e)))%nat) by (apply nth_error_Some; congruence).
  assert (NL : (length (innerOf (inters e)) <= length (inters e))%nat)
    by (pose proof (Permutation_length (split_intersections (inters e))) as E; rewrite app_length in E; lia).
  assert (HO : exists o, outside i = Some o).
  { apply nth_error_In in Hk. apply filter_In in Hk. destruct Hk as [_ Hk]. unfold inner in Hk.
    destruct (outside i); eauto. discriminate. }
  destruct HO as [o HO].
  exists (newFace i (1 + Z.of_nat k)), o.
  assert (EX : exteriorIdx (newFace i (1 + Z.of_nat k)) = (Z.of_nat k + 1)%Z).
  { cbn [newFace exteriorIdx]. rewrite Z.mod_small by lia. lia. }
  split; [apply facesFrom_nth; auto|]. split; [split; reflexivity|]. split; [auto|].
  split; [reflexivity|]. split; [|exact EX].
  rewrite EX. replace (Z.to_nat (Z.of_nat k + 1)) with (S k) by lia.
  unfold globalSpaceIndex, element. cbn [elements nth_error]. rewrite (behind_nth _ _ _ Hk), HO.
  reflexivity.
Qed.

(** Every intersection of the cell is described by exactly one face: the interior and the
    boundary faces together are the intersections in another order. *)
Theorem C61_faces_are_the_intersections : forall cs e,
  let s := history inters (cs ++ [Update e]) in
  exists fs, Permutation (interiorFaces s ++ boundaryFaces s) fs /\
             Forall2 describes fs (inters e).
Proof.
  intros cs e s. unfold s, history. rewrite fold_left_app. cbn [fold_left perform].
  rewrite update_result. cbn [interiorFaces boundaryFaces].
  apply (forall2_perm _ _ describes _ (innerOf (inters e) ++ outerOf (inters e))).
  - apply Forall2_app; [apply describes_all|apply describes_map].
  - apply split_intersections.
Qed.

(** If the neighbours are different cells then the degrees of freedom are different. *)
Theorem C61_no_degree_of_freedom_twice : forall cs e d1 d2 g,
  let s := history inters (cs ++ [Update e]) in
  (forall a b, mapper a = mapper b -> a = b) ->
  NoDup (behind (inters e)) -> ~ In e (behind (inters e)) ->
  globalSpaceIndex mapper s d1 = Some g -> globalSpaceIndex mapper s d2 = Some g -> d1 = d2.
Proof.
  intros cs e d1 d2 g s HM HN HE. unfold s, history. rewrite fold_left_app. cbn [fold_left perform].
  rewrite update_result. unfold globalSpaceIndex, element. cbn [elements].
  intros H1 H2.
  assert (ND : NoDup (e :: behind (inters e))) by (constructor; auto).
  destruct (nth_error (e :: behind (inters e)) d1) as [a|] eqn:E1; [|discriminate].
  destruct (nth_error (e :: behind (inters e)) d2) as [b|] eqn:E2; [|discriminate].
  cbn [option_map] in *. assert (a = b) by (apply HM; congruence). subst b.
  apply (proj1 (NoDup_nth_error _) ND); [|congruence].
  apply nth_error_Some. congruence.
Qed.

(** Two cells are neighbours in one stencil as often as in the other if the grid has the
    intersections in pairs. *)
Theorem C61_neighbours_are_mutual : forall cs1 cs2 a b,
  (forall x y, count_occ Nat.eq_dec (behind (inters x)) y
               = count_occ Nat.eq_dec (behind (inters y)) x) ->
  (exists d, element (history inters (cs1 ++ [Update a])) d = Some b) <->
  (exists d, element (history inters (cs2 ++ [Update b])) d = Some a).
Proof.
  intros cs1 cs2 a b HS.
  assert (G : forall cs x y, (exists d, element (history inters (cs ++ [Update x])) d = Some y)
              <-> (y = x \/ In y (behind (inters x)))).
  { intros cs x y. unfold history. rewrite fold_left_app. cbn [fold_left perform].
    rewrite update_result. unfold element. cbn [elements]. split.
    - intros [d H]. apply nth_error_In in H. destruct H; auto.
    - intros H. apply In_nth_error. destruct H; [left|right]; auto. }
  rewrite !G.
  assert (S1 : In b (behind (inters a)) <-> In a (behind (inters b))).
  { rewrite !(count_occ_In Nat.eq_dec). rewrite (HS a b). reflexivity. }
  rewrite S1. intuition.
Qed.

(** The light-weight update for a cell leaves the faces of an earlier cell in the stencil. *)
Theorem C61_primary_update_partial : forall cs e,
  let s := history inters (cs ++ [UpdatePrimary e]) in
  numDof s = 1%nat /\ element s 0 = Some e /\
  interiorFaces s = interiorFaces (history inters cs) /\
  boundaryFaces s = boundaryFaces (history inters cs).
Proof.
  intros cs e s. unfold s, history. rewrite fold_left_app. cbn. auto.
Qed.
End Statements.

Print Assumptions C61_degrees_of_freedom.
Print Assumptions C61_interior_faces.
Print Assumptions C61_faces_are_the_intersections.
Print Assumptions C61_no_degree_of_freedom_twice.
Print Assumptions C61_neighbours_are_mutual.
Print Assumptions C61_primary_update_partial.

(** A row of three cells; the middle one has two neighbours, the others one and a boundary. *)
Definition rowInters (e : nat) : list intersection :=
  match e with
  | 0%nat => [mkIntersection None 1 0; mkIntersection (Some 1%nat) 1 1]
  | 1%nat => [mkIntersection (Some 0%nat) 1 0; mkIntersection (Some 2%nat) 1 1]
  | 2%nat => [mkIntersection (Some 1%nat) 1 0; mkIntersection None 2 1]
  | _ => []
  end.

Example row_middle :
  let s := history rowInters [Update 0%nat; UpdatePrimary 2%nat; Update 1%nat] in
  map (globalSpaceIndex (fun e => 10 + e)%nat s) [0; 1; 2; 3]%nat
  = [Some 11%nat; Some 10%nat; Some 12%nat; None] /\
  map exteriorIdx (interiorFaces s) = [1; 2]%Z /\ boundaryFaces s = [].
Proof. repeat split. Qed.

Example row_is_mutual : forall x y,
  count_occ Nat.eq_dec (behind (rowInters x)) y = count_occ Nat.eq_dec (behind (rowInters y)) x.
Proof. intros [|[|[|x]]] [|[|[|y]]]; reflexivity. Qed.

(** After the light-weight update for a cell with a boundary the stencil still has the two
    interior faces of the cell before, and they refer to degrees of freedom that do not
    exist. *)
Theorem C61_faces_after_primary_update_refuted :
  exists inters cs e,
    let s := history inters (cs ++ [UpdatePrimary e]) in
    numInteriorFaces s <> length (innerOf (inters e)) /\
    exists f, interiorFace s 1 = Some f /\ element s (Z.to_nat (exteriorIdx f)) = None.
Proof.
  exists rowInters, [Update 1%nat], 2%nat. split; [cbn; lia|].
  exists (mkFace 2 1 1). split; reflexivity.
Qed.
Print Assumptions C61_faces_after_primary_update_refuted.

(** With 65536 neighbours the last face refers to the cell itself. *)
Theorem C61_many_neighbours_refuted :
  exists inters f, interiorFace (history inters [Update 0%nat]) (N.to_nat 65535) = Some f /\
    exteriorIdx f = interiorIndex f.
Proof.
  exists (fun e => repeat (mkIntersection (Some (S e)) 1 0) (N.to_nat 65536)),
         (newFace (mkIntersection (Some 1%nat) 1 0) (1 + Z.of_nat (N.to_nat 65535))).
  split; [|unfold exteriorIdx, newFace; rewrite N_nat_Z; reflexivity].
  unfold history. cbn [fold_left perform]. rewrite update_result. unfold interiorFace.
  cbn [interiorFaces]. apply facesFrom_nth.
  assert (R : forall n, innerOf (repeat (mkIntersection (Some 1%nat) 1 0) n)
                        = repeat (mkIntersection (Some 1%nat) 1 0) n).
  { induction n as [|n IH]; cbn [repeat]; auto. unfold innerOf in *. cbn [filter inner outside].
    now rewrite IH. }
  rewrite R. apply nth_error_repeat. lia.
Qed.
Print Assumptions C61_many_neighbours_refuted.
