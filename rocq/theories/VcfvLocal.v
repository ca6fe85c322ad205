From Verif Require Import VcfvModel VcfvSpec VcfvPoints VcfvProofs VcfvVolumes VcfvHex VcfvPlane.
From Coq Require Import Setoid Morphisms Lqa.

(** ** Boundary segments *)
Definition bodily (s : shape) : Prop := s = Tetrahedron \/ s = Hexahedron.
Lemma segment_vector s P f v : bodily s -> (f < numFaces s)%nat -> In v (faceVerts s f) ->
  let '(lft, rgt) := edgeIndices s f v in
  let n := normalOfQuadrilateral3D (corner s P v) (edgeCoord s P rgt) (faceCoord s P f) (edgeCoord s P lft) in
  eq3 n (patch s P f v) \/ eq3 n (scale3 (patch s P f v) (- (1))).
Proof.
  intros S F I.
  destruct S as [-> | ->]; cbn in F; do 6 (destruct f as [|f]; [first [lia | 
    cbn in I; repeat (destruct I as [<-|I]; [cbn [edgeIndices nth]; rewrite ?corner_at, ?edge_at, ?face_at by (cbn; lia);
    unfold normalOfQuadrilateral3D, patch, areaVector, mid, mean, faceVerts; explode;
    first [left; solve [repeat split; explode; field] | right; solve [repeat split; explode; field]]|]); destruct I]|]); lia.
Qed.
Lemma segment_area norm s P f v it : bodily s -> (f < numFaces s)%nat -> In v (faceVerts s f) -> is_face it = f ->
  exists q, f_area (boundaryFace norm s P it v) = norm q /\ q == dot3 (patch s P f v) (patch s P f v).
Proof.
  intros S F I E. pose proof (segment_vector s P f v S F I) as H. unfold boundaryFace. cbn [f_area]. rewrite E.
  assert (dim s = 3%nat) as -> by (destruct S as [-> | ->]; reflexivity).
  destruct (edgeIndices s f v) as [lft rgt]. cbv zeta in H. eexists; split; [reflexivity|].
  destruct H as [H|H]; rewrite H; [reflexivity|]. unfold dot3; cbn; ring.
Qed.
Lemma segment_center norm s P f v it : bodily s -> (f < numFaces s)%nat -> In v (faceVerts s f) -> is_face it = f ->
  eq3 (f_global (boundaryFace norm s P it v)) (patchCenter s P f v).
Proof.
  intros S F I E. unfold boundaryFace. cbn [f_global]. rewrite E.
  destruct S as [-> | ->]; cbn in F; do 6 (destruct f as [|f]; [first [lia | 
    cbn in I; repeat (destruct I as [<-|I]; [cbn [dim edgeIndices nth]; unfold patchCenter; eval_point4|]); destruct I]|]); lia.
Qed.
Lemma patches s P f : bodily s -> (f < numFaces s)%nat -> eq3 (sum3 (map (patch s P f) (faceVerts s f))) (faceVector s P f).
Proof.
  intros S F. destruct S as [-> | ->]; cbn in F; do 6 (destruct f as [|f]; [first [lia |
    unfold patch, areaVector, mid, mean, faceVerts, faceVector; explode; repeat split; explode; unfold areaVector; explode; field]|]); lia.
Qed.

(** ** Local geometries *)
Definition bernstein (i : nat) (x : Q) : Q := match i with 0%nat => (1 - x) * (1 - x) | 1%nat => 2 * (x * (1 - x)) | _ => x * x end.
Definition indices : list (nat * nat * nat) := (list_prod (list_prod [0; 1; 2] [0; 1; 2]) [0; 1; 2])%nat.
Definition bernSum (cs : list Q) (l : v3) : Q :=
  sumQ (map (fun p => let '(c, (i, j, k)) := p in c * (bernstein i (px l) * bernstein j (py l) * bernstein k (pz l))) (combine cs indices)).
Lemma bernstein_pos i x : 0 <= x <= 1 -> 0 <= bernstein i x.
Proof. intros H. destruct i as [|[|i]]; cbn; nra. Qed.
Lemma bernSum_pos l cs : inUnit l -> Forall (fun c => 0 <= c) cs -> 0 <= bernSum cs l.
Proof.
  intros (X & Y & Z) H. unfold bernSum. generalize indices. revert H. 
  induction cs as [|c cs IH]; intros H ix; [cbn; lra|]. destruct ix as [|[[i j] k] ix]; [cbn; lra|].
  inversion H; subst. cbn [combine map]. unfold sumQ in *. cbn [fold_right].
  specialize (IH ltac:(assumption) ix).
  pose proof (bernstein_pos i _ X). pose proof (bernstein_pos j _ Y). pose proof (bernstein_pos k _ Z).
  assert (0 <= c * (bernstein i (px l) * bernstein j (py l) * bernstein k (pz l))); [|lra].
  apply Qmult_le_0_compat; [assumption|]. apply Qmult_le_0_compat; [apply Qmult_le_0_compat; assumption|assumption].
Qed.
Definition bern0 : list Q := [1 # 8; 1 # 12; 1 # 18; 1 # 12; 31 # 576; 5 # 144; 1 # 18; 5 # 144; 1 # 48; 1 # 12; 31 # 576; 5 # 144; 31 # 576; 59 # 1728; 19 # 864; 5 # 144; 19 # 864; 1 # 72; 1 # 18; 5 # 144; 1 # 48; 5 # 144; 19 # 864; 1 # 72; 1 # 48; 1 # 72; 1 # 108].
Definition bern1 : list Q := [1 # 18; 5 # 144; 1 # 48; 5 # 144; 19 # 864; 1 # 72; 1 # 48; 1 # 72; 1 # 108; 1 # 12; 31 # 576; 5 # 144; 31 # 576; 59 # 1728; 19 # 864; 5 # 144; 19 # 864; 1 # 72; 1 # 8; 1 # 12; 1 # 18; 1 # 12; 31 # 576; 5 # 144; 1 # 18; 5 # 144; 1 # 48].
Definition bern2 : list Q := [1 # 18; 5 # 144; 1 # 48; 1 # 12; 31 # 576; 5 # 144; 1 # 8; 1 # 12; 1 # 18; 5 # 144; 19 # 864; 1 # 72; 31 # 576; 59 # 1728; 19 # 864; 1 # 12; 31 # 576; 5 # 144; 1 # 48; 1 # 72; 1 # 108; 5 # 144; 19 # 864; 1 # 72; 1 # 18; 5 # 144; 1 # 48].
Definition bern3 : list Q := [1 # 18; 1 # 12; 1 # 8; 5 # 144; 31 # 576; 1 # 12; 1 # 48; 5 # 144; 1 # 18; 5 # 144; 31 # 576; 1 # 12; 19 # 864; 59 # 1728; 31 # 576; 1 # 72; 19 # 864; 5 # 144; 1 # 48; 5 # 144; 1 # 18; 1 # 72; 19 # 864; 5 # 144; 1 # 108; 1 # 72; 1 # 48].
Definition bernOf (v : nat) : list Q := match v with 0 => bern0 | 1 => bern1 | 2 => bern2 | _ => bern3 end%nat.
Ltac polys := unfold integrationElement, determinant, quadJacobian, bernSum; cbn [scvCorners seq Nat.pow Nat.mul Nat.add fold_left nth Nat.testbit Nat.odd Nat.even negb Nat.div2 Nat.eqb bit
   map combine indices list_prod app sumQ fold_right bernstein]; unfold dot3, bit; cbn [Nat.testbit Nat.odd Nat.even negb Nat.div2 px py pz add3 scale3 zero3 cross3]; unfold h, t, q4.
Lemma tet_element v l : (v < 4)%nat -> integrationElement 3 (scvCorners Tetrahedron v) l == bernSum (bernOf v) l.
Proof.
  intros V. do 4 (destruct v as [|v]; [destruct l as [x y z]; cbn [bernOf]; unfold bern0, bern1, bern2, bern3; polys; unfold sumQ; cbn [fold_right]; field|]); lia.
Qed.
