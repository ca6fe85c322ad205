From Verif Require Import VcfvModel VcfvSpec VcfvPoints.
From Coq Require Import Setoid Morphisms Lqa.
Arguments corner : simpl never. Arguments edgeCoord : simpl never. Arguments faceCoord : simpl never.
Arguments elementGlobal : simpl never. Arguments global : simpl never.

(** ** Area vectors *)
Lemma dot_zero v : dot3 v v == 0 -> eq3 v zero3.
Proof.
  intros H. unfold dot3 in H.
  assert (forall x : Q, x * x == 0 -> x == 0) as Z by (intros x E; destruct (Qmult_integral _ _ E); assumption).
  assert (forall x : Q, 0 <= x * x) as N by (intros x; nra).
  pose proof (N (px v)); pose proof (N (py v)); pose proof (N (pz v)).
  repeat split; cbn; apply Z; lra.
Qed.
Lemma with_area norm i j l g v : definite norm -> eq3 (vectorOf (withArea norm i j l g v)) v.
Proof.
  intros D. unfold vectorOf, withArea; cbn [f_normal f_area].
  destruct (Qeq_dec (norm (dot3 v v)) 0) as [E|E].
  - destruct (dot_zero v (D _ E)) as (X & Y & W). cbn [px py pz zero3] in *. generalize (/ norm (dot3 v v)), (norm (dot3 v v)). intros a b.
    repeat split; cbn [px py pz scale3]; [rewrite X|rewrite Y|rewrite W]; ring.
  - repeat split; cbn [px py pz scale3]; now field.
Qed.
Lemma with_area_dir norm i j l g v d : 0 < norm (dot3 v v) -> (0 < dot3 (f_normal (withArea norm i j l g v)) d <-> 0 < dot3 v d).
Proof.
  intros N. cbn [withArea f_normal]. set (a := norm (dot3 v v)) in *.
  assert (0 < / a) as I by now apply Qinv_lt_0_compat.
  assert (dot3 (scale3 v (/ a)) d == dot3 v d * / a) as -> by (unfold dot3; cbn; ring).
  split; intros H.
  - rewrite <- (Qmult_lt_r 0 _ _ I). now rewrite Qmult_0_l.
  - rewrite <- (Qmult_lt_r 0 _ _ I) in H. now rewrite Qmult_0_l in H.
Qed.

(** The area vectors of the interior faces. *)
Definition edgeFaces (s : shape) (k : nat) : nat * nat := faceIndices s k.
Definition spaceVector (s : shape) (P : nat -> v3) (k : nat) : v3 :=
  let e := nth k (refEdges s) (0, 0)%nat in let '(lft, rgt) := faceIndices s k in
  areaVector (mid (P (fst e)) (P (snd e))) (mean P (faceVerts s rgt)) (mean P (seq 0 (numVertices s))) (mean P (faceVerts s lft)).
Lemma face_indices s k : dim s = 3%nat -> (k < length (refEdges s))%nat ->
  (fst (faceIndices s k) < length (refFaces s))%nat /\ (snd (faceIndices s k) < length (refFaces s))%nat.
Proof. destruct s; try discriminate; intros _ H; cbn in H; do 12 (destruct k as [|k]; [cbn; lia|]); lia. Qed.
Lemma space_face norm s P k : definite norm -> dim s = 3%nat -> (k < length (refEdges s))%nat ->
  eq3 (vectorOf (interiorFace norm s P k)) (spaceVector s P k) /\
  f_i (interiorFace norm s P k) = fst (nth k (refEdges s) (0, 0)%nat) /\ f_j (interiorFace norm s P k) = snd (nth k (refEdges s) (0, 0)%nat).
Proof.
  intros D S K. pose proof (face_indices s k S K) as (L & R).
  unfold interiorFace, spaceVector.
  assert (length (refEdges s) =? 4 = false)%nat as -> by (destruct s; try discriminate; reflexivity). cbn [andb].
  destruct (nth k (refEdges s) (0, 0)%nat) as [i j] eqn:E. rewrite S. destruct (faceIndices s k) as [lft rgt]. cbn [fst snd] in *.
  split; [|split; reflexivity].
  rewrite with_area by assumption. unfold normalOfQuadrilateral3D, areaVector.
  rewrite edge_at by assumption. rewrite E. cbn [fst snd]. rewrite !face_at by assumption. now rewrite center_at.
Qed.

Lemma sum3_ext {A} (f g : A -> v3) l : (forall x, In x l -> eq3 (f x) (g x)) -> eq3 (sum3 (map f l)) (sum3 (map g l)).
Proof.
  unfold sum3. induction l as [|x l IH]; intros H; [reflexivity|]. cbn [map fold_right].
  rewrite (H x) by now left. rewrite IH; [reflexivity|intros; apply H; now right].
Qed.
Lemma sumQ_ext {A} (f g : A -> Q) l : (forall x, In x l -> f x == g x) -> sumQ (map f l) == sumQ (map g l).
Proof.
  unfold sumQ. induction l as [|x l IH]; intros H; [reflexivity|]. cbn [map fold_right].
  rewrite (H x) by now left. rewrite IH; [reflexivity|intros; apply H; now right].
Qed.
Definition spaceOut (s : shape) (P : nat -> v3) (v : nat) : v3 :=
  sum3 (map (fun k => let e := nth k (refEdges s) (0, 0)%nat in
                      if (fst e =? v)%nat then spaceVector s P k
                      else if (snd e =? v)%nat then scale3 (spaceVector s P k) (- (1)) else zero3)
            (seq 0 (length (refEdges s)))).
Lemma space_out norm s P v : definite norm -> dim s = 3%nat ->
  eq3 (outflow (map (interiorFace norm s P) (seq 0 (length (refEdges s)))) v) (spaceOut s P v).
Proof.
  intros D S. unfold outflow, spaceOut. rewrite map_map. apply sum3_ext. intros k K. apply in_seq in K.
  destruct (space_face norm s P k D S (proj2 K)) as (E & -> & ->). cbv zeta.
  destruct (Nat.eqb _ _); [exact E|]. destruct (Nat.eqb _ _); [now rewrite E|reflexivity].
Qed.
Ltac explode := cbn [spaceOut sum3 map seq length refEdges nth fst snd Nat.eqb spaceVector faceIndices faceVerts refFaces
  areaVector mid mean mean4 fold_right numVertices refCorners facesOf numFaces filter existsb orb patch patchCenter faceVector outside next prev
  after hd rev app px py pz add3 sub3 scale3 zero3 cross3 dot3 sumQ Z.of_nat Pos.of_succ_nat Pos.succ inject_Z Nat.add].
Lemma space_closed s P v : s = Tetrahedron \/ s = Hexahedron -> (v < numVertices s)%nat ->
  eq3 (add3 (spaceOut s P v) (sum3 (map (fun f => patch s P f v) (facesOf s v)))) zero3.
Proof.
  intros [-> | ->] V; cbn in V; do 8 (destruct v as [|v]; [first [lia | unfold spaceOut, spaceVector, patch, facesOf, faceVerts, areaVector, mid, mean; explode; repeat split; explode; field]|]); lia.
Qed.
