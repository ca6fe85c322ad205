From Verif Require Import VcfvModel VcfvSpec VcfvPoints VcfvProofs.
From Coq Require Import Setoid Morphisms Lqa.

(** ** Integration points *)
Definition spaceCenter (s : shape) (P : nat -> v3) (k : nat) : v3 :=
  let e := nth k (refEdges s) (0, 0)%nat in let '(lft, rgt) := faceIndices s k in
  mean4 (mid (P (fst e)) (P (snd e))) (mean P (faceVerts s rgt)) (mean P (seq 0 (numVertices s))) (mean P (faceVerts s lft)).
Ltac eval_point4 :=
  rewrite global_red;
  match goal with |- eq3 (combo ?ws _) _ => let w := eval vm_compute in ws in change ws with w end;
  unfold combo, mean4, mean, mid; explode; cbn [fold_left];
  repeat split; explode; field.
Lemma space_center norm s P k : s = Tetrahedron \/ s = Hexahedron -> (k < length (refEdges s))%nat ->
  eq3 (f_global (interiorFace norm s P k)) (spaceCenter s P k).
Proof.
  unfold interiorFace, spaceCenter, withArea.
  intros [-> | ->] K; cbn in K; do 12 (destruct k as [|k]; [first [lia | cbn [f_global dim refEdges nth faceIndices]; explode; cbn [Nat.eqb andb f_global]; eval_point4]|]); lia.
Qed.

(** ** The enclosed volumes *)
Definition spaceEnclosed (s : shape) (P : nat -> v3) (v : nat) : Q :=
  (1 # 3) * (sumQ (map (fun k => let e := nth k (refEdges s) (0, 0)%nat in
                      if (fst e =? v)%nat then dot3 (spaceCenter s P k) (spaceVector s P k)
                      else if (snd e =? v)%nat then - dot3 (spaceCenter s P k) (spaceVector s P k) else 0)
            (seq 0 (length (refEdges s))))
          + sumQ (map (fun f => dot3 (patchCenter s P f v) (patch s P f v)) (facesOf s v))).
Lemma space_enclosed norm s P v : definite norm -> s = Tetrahedron \/ s = Hexahedron ->
  enclosed s P (map (interiorFace norm s P) (seq 0 (length (refEdges s)))) v == spaceEnclosed s P v.
Proof.
  intros D S. unfold enclosed, spaceEnclosed. rewrite map_map.
  rewrite (sumQ_ext _ (fun k => let e := nth k (refEdges s) (0, 0)%nat in
                      if (fst e =? v)%nat then dot3 (spaceCenter s P k) (spaceVector s P k)
                      else if (snd e =? v)%nat then - dot3 (spaceCenter s P k) (spaceVector s P k) else 0)); [reflexivity|].
  intros k K. apply in_seq in K.
  assert (dim s = 3%nat) as T by (destruct S as [-> | ->]; reflexivity).
  destruct (space_face norm s P k D T (proj2 K)) as (E & -> & ->). cbv zeta.
  pose proof (space_center norm s P k S (proj2 K)) as C.
  destruct (Nat.eqb _ _); [now rewrite E, C|]. destruct (Nat.eqb _ _); [now rewrite E, C|reflexivity].
Qed.
Ltac geo := unfold spaceEnclosed, spaceCenter, spaceVector, patch, patchCenter, facesOf, faceVerts, areaVector, mean4, mid, mean,
  tetVolume, hexVolume, faceVector, triple, mean; explode; unfold dot3; explode.
Lemma tet_enclosed P v : (v < 4)%nat -> spaceEnclosed Tetrahedron P v == tetVolume P * (1 # 4).
Proof. intros V; do 4 (destruct v as [|v]; [geo; field|]); lia. Qed.
Lemma hex_enclosed P : sumQ (map (spaceEnclosed Hexahedron P) (seq 0 8)) == hexVolume P.
Proof.  cbn [map seq]. unfold sumQ; cbn [fold_right]. geo. field. Qed.
