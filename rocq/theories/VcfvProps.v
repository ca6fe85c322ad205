(** C78, C79: the finite volume geometry of the elements of the vertex-centred scheme. *)
From Verif Require Import VcfvModel VcfvSpec VcfvPoints VcfvProofs VcfvVolumes VcfvHex VcfvPlane VcfvLocal.
From Coq Require Import Setoid Morphisms Lqa.

Lemma updated norm s P V its st : update norm s P V its = Some st ->
  st_volume st = scvVolume s P V /\ st_faces st = map (interiorFace norm s P) (seq 0 (length (refEdges s))) /\
  st_boundary st = boundaryFaces norm s P its /\ st_geometry st = scvCorners s.
Proof. unfold update. intros H. destruct s; try discriminate; injection H as <-; repeat split. Qed.

(** ** C78 *)
(** Elements are supported unless they are pyramids or prisms. *)
Theorem C78_supported_elements norm s P V its :
  update norm s P V its = None <-> s = Pyramid \/ s = Prism.
Proof. unfold update. destruct s; split; try discriminate; try tauto; intros [H|H]; discriminate. Qed.

(** In the plane: the sub-control volumes of a convex element have the areas of the polygons of the vertex, the
    middles of its edges and the centre of the element, and they make up the element. *)
Theorem C78_plane_volumes norm sigma s P V its st : s = Triangle \/ s = Quadrilateral -> convex sigma s P ->
  V == polygonArea (map P (around s)) -> update norm s P V its = Some st ->
  sumQ (map (st_volume st) (seq 0 (numVertices s))) == V /\
  forall v, In v (around s) -> st_volume st v ==
    polygonArea [P v; mid (P v) (P (next (around s) v)); mean P (seq 0 (numVertices s)); mid (P v) (P (prev (around s) v))].
Proof.
  intros S C E U. destruct (updated _ _ _ _ _ _ U) as (-> & _). split; [exact (plane_volume_sum sigma s P V S C E)|].
  intros v I. apply (plane_volumes sigma s P V v S C E). destruct S as [-> | ->]; cbn in I |- *; lia.
Qed.
(** On a line. *)
Theorem C78_line_volumes norm P V its st : update norm Line P V its = Some st ->
  st_volume st 0 + st_volume st 1 == V /\ st_volume st 0 == st_volume st 1.
Proof. intros U. destruct (updated _ _ _ _ _ _ U) as (-> & _). cbn. split; [ring|reflexivity]. Qed.
(** Tetrahedra: the sub-control volumes have the volumes which their faces enclose, and make up the element. *)
Theorem C78_tetrahedron_volumes norm P V its st : definite norm -> V == Qabs (tetVolume P) ->
  update norm Tetrahedron P V its = Some st ->
  sumQ (map (st_volume st) (seq 0 4)) == V /\
  forall v, (v < 4)%nat -> st_volume st v == Qabs (enclosed Tetrahedron P (st_faces st) v).
Proof.
  intros D E U. destruct (updated _ _ _ _ _ _ U) as (-> & -> & _). split; [cbn; field|].
  intros v L. rewrite space_enclosed by tauto. rewrite tet_enclosed by assumption. cbn [scvVolume].
  rewrite Qmult_comm, abs_scaled by lra. rewrite E. field.
Qed.
(** Hexahedra: what the interior and the boundary faces of all sub-control volumes enclose is the element, for all
    hexahedra. That the sub-control volumes have these volumes is proved if the hexahedron is a plane convex
    quadrilateral which is moved along a vector (this includes all parallelepipeds). *)
Theorem C78_hexahedron_enclosed norm P V its st : definite norm -> update norm Hexahedron P V its = Some st ->
  sumQ (map (enclosed Hexahedron P (st_faces st)) (seq 0 8)) == hexVolume P.
Proof.
  intros D U. destruct (updated _ _ _ _ _ _ U) as (_ & -> & _).
  rewrite <- (hex_enclosed P). apply sumQ_ext. intros v _. apply space_enclosed; tauto.
Qed.
Theorem C78_hexahedron_volumes_partial norm o a b w x y V its st : definite norm -> 0 < x -> 0 < y -> 1 < x + y ->
  update norm Hexahedron (extruded o a b w x y) V its = Some st ->
  sumQ (map (st_volume st) (seq 0 8)) == Qabs (hexVolume (extruded o a b w x y)) /\
  forall v, (v < 8)%nat -> st_volume st v == Qabs (enclosed Hexahedron (extruded o a b w x y) (st_faces st) v).
Proof.
  intros D X Y XY U. destruct (updated _ _ _ _ _ _ U) as (-> & -> & _).
  set (tot := fold_right (fun v q => fst (share v x y) + snd (share v x y) + q) 0 (seq 0 8)).
  assert (forall v, (v < 8)%nat -> 0 <= fst (share v x y) + snd (share v x y)) as SP.
  { intros v L. do 8 (destruct v as [|v]; [cbn; lra|]); lia. }
  split.
  - rewrite <- (hex_enclosed (extruded o a b w x y)).
    assert (sumQ (map (scvVolume Hexahedron (extruded o a b w x y) V) (seq 0 8)) == tot * Qabs (triple a b w)) as ->.
    { cbn [map seq]. unfold sumQ. cbn [fold_right]. rewrite !hex_share by (assumption || lia). unfold tot. cbn [seq fold_right]. ring. }
    assert (sumQ (map (spaceEnclosed Hexahedron (extruded o a b w x y)) (seq 0 8)) == tot * triple a b w) as ->.
    { cbn [map seq]. unfold sumQ. cbn [fold_right]. rewrite !hex_enclosed_share by lia. unfold tot. cbn [seq fold_right]. ring. }
    rewrite abs_scaled; [reflexivity|].
    unfold tot. cbn [seq fold_right].
    pose proof (SP 0%nat ltac:(lia)); pose proof (SP 1%nat ltac:(lia)); pose proof (SP 2%nat ltac:(lia)); pose proof (SP 3%nat ltac:(lia)).
    pose proof (SP 4%nat ltac:(lia)); pose proof (SP 5%nat ltac:(lia)); pose proof (SP 6%nat ltac:(lia)); pose proof (SP 7%nat ltac:(lia)). lra.
  - intros v L. rewrite hex_share by assumption. rewrite space_enclosed by tauto. rewrite hex_enclosed_share by assumption.
    now rewrite abs_scaled by now apply SP.
Qed.
(** Hexahedra with four parallel pillars of any lengths over a plane convex quadrilateral: the sub-control volumes make up
    the element. *)
Theorem C78_hexahedron_pillars_partial norm o a b w x y lower upper V its st : 0 < x -> 0 < y -> 1 < x + y ->
  (forall u, (u < 4)%nat -> lower u < upper u) ->
  update norm Hexahedron (pillars o a b w x y lower upper) V its = Some st ->
  sumQ (map (st_volume st) (seq 0 8)) == Qabs (hexVolume (pillars o a b w x y lower upper)).
Proof.
  intros X Y XY D U. destruct (updated _ _ _ _ _ _ U) as (-> & _). rewrite pillar_total.
  assert (forall v, (v < 8)%nat -> 0 <= fst (pillarShare (fun u => upper u - lower u) v x y) + snd (pillarShare (fun u => upper u - lower u) v x y)) as SP.
  { intros v L. destruct (pillar_pos (fun u => upper u - lower u) v x y) as (A & B); try assumption; [|lra].
    intros u H. pose proof (D u H). lra. }
  rewrite abs_scaled.
  - cbn [map seq]. unfold sumQ. cbn [fold_right]. rewrite !pillar_volume by (assumption || lia). ring.
  - cbn [map seq]. unfold sumQ. cbn [fold_right].
    pose proof (SP 0%nat ltac:(lia)); pose proof (SP 1%nat ltac:(lia)); pose proof (SP 2%nat ltac:(lia)); pose proof (SP 3%nat ltac:(lia)).
    pose proof (SP 4%nat ltac:(lia)); pose proof (SP 5%nat ltac:(lia)); pose proof (SP 6%nat ltac:(lia)); pose proof (SP 7%nat ltac:(lia)). lra.
Qed.
(** A hexahedron with one corner out of place: all corners are regular, but the sub-control volumes do not make up the
    element (neither do they have the volumes which their faces enclose). *)
Definition bent (v : nat) : v3 :=
  nth v [mk3 0 0 0; mk3 1 0 0; mk3 0 1 0; mk3 1 1 0; mk3 0 0 1; mk3 1 0 1; mk3 0 1 1; mk3 (3 # 2) 1 1] zero3.
Lemma bent_regular : forall v, (v < 8)%nat ->
     let e b := sub3 (bent (Nat.lxor v b)) (bent v) in
     0 < (if Nat.even (length (filter (Nat.testbit v) [0; 1; 2]%nat)) then 1 else - (1)) * triple (e 1%nat) (e 2%nat) (e 4%nat).
Proof. intros v L. do 8 (destruct v as [|v]; [vm_compute; reflexivity|]); lia. Qed.
Lemma bent_sum : sumQ (map (scvVolume Hexahedron bent (9 # 8)) (seq 0 8)) == 109 # 96.
Proof. vm_compute. reflexivity. Qed.
Theorem C78_hexahedron_volumes_refuted : exists norm P V st, definite norm /\ V == hexVolume P /\
  (forall v, (v < 8)%nat ->
     let e b := sub3 (P (Nat.lxor v b)) (P v) in
     0 < (if Nat.even (length (filter (Nat.testbit v) [0; 1; 2]%nat)) then 1 else - (1)) * triple (e 1%nat) (e 2%nat) (e 4%nat)) /\
  update norm Hexahedron P V [] = Some st /\
  ~ sumQ (map (st_volume st) (seq 0 8)) == V.
Proof.
  exists (fun q => q), bent, (9 # 8). eexists.
  split; [intros q H; exact H|]. split; [vm_compute; reflexivity|]. split; [exact bent_regular|].
  split; [unfold update; reflexivity|]. cbn [st_volume].
  pose proof bent_sum as B. intros H. assert (9 # 8 == 109 # 96) as K by exact (Qeq_trans _ _ _ (Qeq_sym _ _ H) B). clear - K. vm_compute in K. discriminate K.
Qed.

(** The faces of a sub-control volume close it: in the plane, the interior faces and the two halves of the edges of the
    element (with outer normals). *)
Theorem C78_plane_closed norm sigma s P V its st v : definite norm -> s = Triangle \/ s = Quadrilateral -> convex sigma s P ->
  update norm s P V its = Some st -> In v (around s) ->
  eq3 (add3 (outflow (st_faces st) v)
            (scale3 (add3 (outerEdge (mid (P (prev (around s) v)) (P v)) (P v))
                          (outerEdge (P v) (mid (P v) (P (next (around s) v))))) sigma)) zero3.
Proof.
  intros D S C U I. destruct (updated _ _ _ _ _ _ U) as (_ & -> & _). rewrite (plane_out norm sigma s P v D S C).
  apply plane_closed; [exact S|]. destruct S as [-> | ->]; cbn in I |- *; lia.
Qed.
(** In space: the interior faces and the parts of the faces of the element, for all tetrahedra and hexahedra. *)
Theorem C78_space_closed norm s P V its st v : definite norm -> s = Tetrahedron \/ s = Hexahedron ->
  update norm s P V its = Some st -> (v < numVertices s)%nat ->
  eq3 (add3 (outflow (st_faces st) v) (sum3 (map (fun f => patch s P f v) (facesOf s v)))) zero3.
Proof.
  intros D S U L. destruct (updated _ _ _ _ _ _ U) as (_ & -> & _).
  rewrite space_out; [|exact D|destruct S as [-> | ->]; reflexivity]. now apply space_closed.
Qed.

(** There is one interior face for each edge of the element. *)
Theorem C78_one_face_per_edge norm s P V its st : update norm s P V its = Some st ->
  Forall2 (fun f e => (f_i f, f_j f) = e \/ (f_j f, f_i f) = e) (st_faces st) (refEdges s).
Proof.
  intros U. destruct (updated _ _ _ _ _ _ U) as (_ & -> & _).
  destruct s; try discriminate; cbn [refEdges length seq map]; repeat (constructor; [cbn; tauto|]); constructor.
Qed.
(** Normals point from the first to the second vertex: in the plane for all convex elements. *)
Theorem C78_plane_normals norm sigma s P V its st f : definite norm ->
  s = Triangle \/ s = Quadrilateral -> convex sigma s P -> update norm s P V its = Some st -> In f (st_faces st) ->
  0 < dot3 (vectorOf f) (sub3 (P (f_j f)) (P (f_i f))).
Proof.
  intros D S C U I. destruct (updated _ _ _ _ _ _ U) as (_ & F & _). rewrite F in I. apply in_map_iff in I as (k & <- & K).
  apply in_seq in K. destruct (plane_face norm sigma s P k D S C (proj2 K)) as (E & G).
  pose proof (plane_turn sigma s P k S C (proj2 K)) as T. rewrite E. clear E. unfold planeVector.
  rewrite <- G in T |- *. 
  refine (Qlt_le_trans _ _ _ T _). apply Qle_lteq; right. unfold turn, dot3. cbn. ring.
Qed.
(** Tetrahedra and parallelepipeds: exactly if the corners are positively oriented. *)
Theorem C78_space_normals norm s P V its st f : definite norm ->
  s = Tetrahedron \/ (s = Hexahedron /\ exists o a b w, P = extruded o a b w 1 1) ->
  update norm s P V its = Some st -> In f (st_faces st) ->
  (0 < dot3 (vectorOf f) (sub3 (P (f_j f)) (P (f_i f))) <->
   0 < triple (sub3 (P 1%nat) (P 0%nat)) (sub3 (P 2%nat) (P 0%nat)) (sub3 (P (match s with Tetrahedron => 3 | _ => 4 end)%nat) (P 0%nat))).
Proof.
  intros D S U I. destruct (updated _ _ _ _ _ _ U) as (_ & F & _). rewrite F in I. apply in_map_iff in I as (k & <- & K).
  apply in_seq in K. destruct K as (_ & K). cbn [Nat.add] in K.
  assert (dim s = 3%nat) as T by (destruct S as [-> | (-> & _)]; reflexivity).
  destruct (space_face norm s P k D T K) as (E & -> & ->). rewrite E. clear E F U T.
  destruct S as [-> | (-> & o & a & b & w & ->)]; cbn in K.
  - match goal with |- _ <-> 0 < ?T => set (Tr := T) end.
    assert (dot3 (spaceVector Tetrahedron P k) (sub3 (P (snd (nth k (refEdges Tetrahedron) (0, 0)%nat))) (P (fst (nth k (refEdges Tetrahedron) (0, 0)%nat)))) == (1 # 12) * Tr) as ->; [|lra].
    unfold Tr. clear Tr. do 6 (destruct k as [|k]; [geo; field|]); lia.
  - match goal with |- _ <-> 0 < ?T => set (Tr := T) end.
    assert (dot3 (spaceVector Hexahedron (extruded o a b w 1 1) k) (sub3 (extruded o a b w 1 1 (snd (nth k (refEdges Hexahedron) (0, 0)%nat))) (extruded o a b w 1 1 (fst (nth k (refEdges Hexahedron) (0, 0)%nat)))) == (1 # 4) * Tr) as ->; [|lra].
    unfold Tr. clear Tr. do 12 (destruct k as [|k]; [geo; unfold extruded; explode; cbn [Nat.ltb Nat.leb Nat.sub]; explode; field|]); lia.
Qed.

(** A mirrored tetrahedron: the normals point from the second to the first vertex. *)
Definition mirrored (v : nat) : v3 := nth v [mk3 0 0 0; mk3 (- (1)) 0 0; mk3 0 1 0; mk3 0 0 1] zero3.
Theorem C78_space_normals_refuted : exists norm P V st f, definite norm /\ V == Qabs (tetVolume P) /\ 0 < V /\
  update norm Tetrahedron P V [] = Some st /\ In f (st_faces st) /\
  dot3 (vectorOf f) (sub3 (P (f_j f)) (P (f_i f))) < 0.
Proof.
  exists (fun q => q), mirrored, (1 # 6). eexists. exists (interiorFace (fun q => q) Tetrahedron mirrored 0).
  split; [intros q H; exact H|]. split; [vm_compute; reflexivity|]. split; [reflexivity|].
  split; [reflexivity|]. split; [now left|]. vm_compute. reflexivity.
Qed.

(** ** C79 *)
(** The integration points of the interior faces are the means of their corners. *)
Theorem C79_interior_points norm s P V its st k f : update norm s P V its = Some st -> nth_error (st_faces st) k = Some f ->
  let e := nth k (refEdges s) (0, 0)%nat in
  match s with
  | Line => eq3 (f_global f) (mid (P 0%nat) (P 1%nat))
  | Triangle | Quadrilateral => eq3 (f_global f) (mid (mid (P (fst e)) (P (snd e))) (mean P (seq 0 (numVertices s))))
  | _ => exists l r, (l < numFaces s)%nat /\ (r < numFaces s)%nat /\ l <> r /\
      (forall u, In u [fst e; snd e] -> In u (faceVerts s l) /\ In u (faceVerts s r)) /\
      eq3 (f_global f) (mean4 (mid (P (fst e)) (P (snd e))) (mean P (faceVerts s r)) (mean P (seq 0 (numVertices s))) (mean P (faceVerts s l)))
  end.
Proof.
  intros U K. destruct (updated _ _ _ _ _ _ U) as (_ & F & _). rewrite F in K.
  assert (k < length (refEdges s))%nat as L.
  { apply nth_error_Some_lt in K || (assert (nth_error (map (interiorFace norm s P) (seq 0 (length (refEdges s)))) k <> None) as Z by congruence;
    apply nth_error_Some in Z; rewrite map_length, seq_length in Z; exact Z). }
  rewrite nth_error_map in K.
  assert (nth_error (seq 0 (length (refEdges s))) k = Some k) as N.
  { rewrite (nth_error_nth' _ 0%nat) by now rewrite seq_length. now rewrite seq_nth. }
  rewrite N in K. cbn [option_map] in K. injection K as <-. cbv zeta.
  destruct s; try discriminate; cbn in L.
  - do 1 (destruct k as [|k]; [unfold interiorFace; cbn [dim refEdges nth length Nat.eqb andb f_global]; eval_point4|]); lia.
  - do 3 (destruct k as [|k]; [unfold interiorFace, withArea; cbn [dim refEdges nth length Nat.eqb andb f_global fst snd orb]; eval_point4|]); lia.
  - do 4 (destruct k as [|k]; [unfold interiorFace, withArea; cbn [dim refEdges nth length Nat.eqb andb f_global fst snd orb]; eval_point4|]); lia.
  - pose proof (space_center norm Tetrahedron P k ltac:(tauto) L) as C. unfold spaceCenter in C.
    exists (fst (faceIndices Tetrahedron k)), (snd (faceIndices Tetrahedron k)).
    destruct (face_indices Tetrahedron k eq_refl L) as (A & B). destruct (faceIndices Tetrahedron k) as [lft rgt] eqn:E. cbn [fst snd] in *.
    split; [exact A|]. split; [exact B|]. split; [|split; [|exact C]].
    + clear - E L. do 6 (destruct k as [|k]; [injection E as <- <-; discriminate|]); lia.
    + clear - E L. do 6 (destruct k as [|k]; [injection E as <- <-; cbn; intuition lia|]); lia.
  - pose proof (space_center norm Hexahedron P k ltac:(tauto) L) as C. unfold spaceCenter in C.
    exists (fst (faceIndices Hexahedron k)), (snd (faceIndices Hexahedron k)).
    destruct (face_indices Hexahedron k eq_refl L) as (A & B). destruct (faceIndices Hexahedron k) as [lft rgt] eqn:E. cbn [fst snd] in *.
    split; [exact A|]. split; [exact B|]. split; [|split; [|exact C]].
    + clear - E L. do 12 (destruct k as [|k]; [injection E as <- <-; discriminate|]); lia.
    + clear - E L. do 12 (destruct k as [|k]; [injection E as <- <-; cbn; intuition lia|]); lia.
Qed.

(** The boundary: one segment for each vertex of each intersection on the boundary, with the normal of the intersection. *)
Theorem C79_boundary_segments norm s P V its st : update norm s P V its = Some st ->
  map (fun f => (f_i f, f_j f, f_normal f)) (st_boundary st) =
  flat_map (fun it => map (fun v => (v, v, is_normal it)) (faceVerts s (is_face it))) (filter is_boundary its).
Proof.
  intros U. destruct (updated _ _ _ _ _ _ U) as (_ & _ & -> & _). unfold boundaryFaces. clear U.
  induction its as [|it its IH]; [reflexivity|]. cbn [flat_map filter]. rewrite map_app, IH.
  destruct (is_boundary it); [|reflexivity]. cbn [flat_map]. f_equal. rewrite map_map. reflexivity.
Qed.
(** Areas and integration points. *)
Theorem C79_boundary_geometry norm s P V its st g : update norm s P V its = Some st ->
  Forall (fun it => (is_face it < numFaces s)%nat) its -> In g (st_boundary st) ->
  exists it, In it its /\ is_boundary it = true /\ In (f_i g) (faceVerts s (is_face it)) /\ f_normal g = is_normal it /\
  match s with
  | Line => f_area g == 1 /\ eq3 (f_global g) (P (f_i g))
  | Triangle | Quadrilateral =>
      f_area g == (1 # 2) * is_volume it /\ eq3 (f_global g) (mid (P (f_i g)) (mean P (faceVerts s (is_face it))))
  | _ => (exists q, f_area g = norm q /\ q == dot3 (patch s P (is_face it) (f_i g)) (patch s P (is_face it) (f_i g))) /\
         eq3 (f_global g) (patchCenter s P (is_face it) (f_i g))
  end.
Proof.
  intros U W I. destruct (updated _ _ _ _ _ _ U) as (_ & _ & E & _). rewrite E in I. unfold boundaryFaces in I.
  apply in_flat_map in I as (it & J & I). destruct (is_boundary it) eqn:B; [|destruct I].
  apply in_map_iff in I as (v & <- & I). exists it. split; [exact J|]. split; [exact B|].
  rewrite Forall_forall in W. specialize (W it J).
  change (f_i (boundaryFace norm s P it v)) with v. split; [exact I|]. split; [reflexivity|].
  destruct s; try discriminate.
  - split; [reflexivity|]. unfold boundaryFace. cbn [f_global dim]. apply (corner_at Line).
    destruct (is_face it) as [|[|f]]; cbn in *; lia.
  - split; [reflexivity|]. unfold boundaryFace. cbn [f_global dim].
    destruct (is_face it) as [|[|[|f]]]; cbn in W; try lia; cbn in I; repeat (destruct I as [<-|I]; [unfold faceVerts; eval_point4|]); destruct I.
  - split; [reflexivity|]. unfold boundaryFace. cbn [f_global dim].
    destruct (is_face it) as [|[|[|[|f]]]]; cbn in W; try lia; cbn in I; repeat (destruct I as [<-|I]; [unfold faceVerts; eval_point4|]); destruct I.
  - split; [now apply segment_area; [left| | |]|now apply segment_center; [left| | |]].
  - split; [now apply segment_area; [right| | |]|now apply segment_center; [right| | |]].
Qed.
(** The parts of a face of the element make up the face. *)
Lemma parts_of_faces s P f : s = Tetrahedron \/ s = Hexahedron -> (f < numFaces s)%nat ->
  eq3 (sum3 (map (patch s P f) (faceVerts s f))) (faceVector s P f).
Proof. intros S F. now apply patches. Qed.
(** If the whole surface of the element is on the boundary and each part of each face is a positive multiple of the outer
    normal which the grid gives, the interior faces and the boundary segments together close each sub-control volume. *)
Theorem C79_closed_with_boundary norm s P V st vol nrm v : definite norm -> s = Tetrahedron \/ s = Hexahedron ->
  update norm s P V (map (fun f => mkIs f true (vol f) (nrm f)) (seq 0 (numFaces s))) = Some st -> (v < numVertices s)%nat ->
  (forall f, In f (facesOf s v) -> exists a, eq3 (patch s P f v) (scale3 (nrm f) a) /\
     forall q, q == dot3 (patch s P f v) (patch s P f v) -> norm q == a) ->
  eq3 (add3 (outflow (st_faces st) v) (sum3 (map vectorOf (filter (fun g => (f_i g =? v)%nat) (st_boundary st))))) zero3.
Proof.
  intros D S U L H. rewrite <- (C78_space_closed norm s P V _ st v D S U L). apply add3_proper; [reflexivity|].
  destruct (updated _ _ _ _ _ _ U) as (_ & _ & -> & _).
  assert (filter (fun g => (f_i g =? v)%nat) (boundaryFaces norm s P (map (fun f => mkIs f true (vol f) (nrm f)) (seq 0 (numFaces s)))) =
          map (fun f => boundaryFace norm s P (mkIs f true (vol f) (nrm f)) v) (facesOf s v)) as ->.
  { clear - S L. destruct S as [-> | ->]; cbn in L; do 8 (destruct v as [|v]; [first [lia | reflexivity]|]); lia. }
  rewrite map_map. apply sum3_ext. intros f F. destruct (H f F) as (a & E & N).
  unfold facesOf in F. apply filter_In in F as (F & X). apply in_seq in F.
  apply existsb_exists in X as (u & X & Y). apply Nat.eqb_eq in Y. subst u.
  destruct (segment_area norm s P f v (mkIs f true (vol f) (nrm f)) S (proj2 F) X eq_refl) as (q & A & Q).
  unfold vectorOf. rewrite A. change (f_normal (boundaryFace norm s P (mkIs f true (vol f) (nrm f)) v)) with (nrm f).
  rewrite (N q Q). now rewrite E.
Qed.

(** The local geometries: their corners are the centres of the vertex, of the edges and faces at the vertex and of the
    element. *)
Definition sameCorners (s : shape) (v : nat) : bool :=
  let close a b := Qeq_bool (px a) (px b) && Qeq_bool (py a) (py b) && Qeq_bool (pz a) (pz b) in
  (length (scvCorners s v) =? length (cornersAround s v))%nat &&
  forallb (fun W => existsb (fun c => close c (refPos s W)) (scvCorners s v)) (cornersAround s v) &&
  forallb (fun c => existsb (fun W => close c (refPos s W)) (cornersAround s v)) (scvCorners s v).
Theorem C79_local_corners norm s P V its st v : update norm s P V its = Some st -> (v < numVertices s)%nat ->
  length (st_geometry st v) = length (cornersAround s v) /\
  (forall W, In W (cornersAround s v) -> exists c, In c (st_geometry st v) /\ eq3 c (refPos s W)) /\
  (forall c, In c (st_geometry st v) -> exists W, In W (cornersAround s v) /\ eq3 c (refPos s W)).
Proof.
  intros U L. destruct (updated _ _ _ _ _ _ U) as (_ & _ & _ & ->).
  assert (sameCorners s v = true) as B.
  { destruct s; try discriminate; cbn in L; do 8 (destruct v as [|v]; [first [lia | vm_compute; reflexivity]|]); lia. }
  unfold sameCorners in B. apply andb_prop in B as (B & B2). apply andb_prop in B as (B0 & B1).
  split; [now apply Nat.eqb_eq|].
  assert (forall a b, Qeq_bool (px a) (px b) && Qeq_bool (py a) (py b) && Qeq_bool (pz a) (pz b) = true -> eq3 a b) as K.
  { intros a b H. apply andb_prop in H as (H & Z). apply andb_prop in H as (X & Y). repeat split; now apply Qeq_bool_eq. }
  rewrite forallb_forall in B1, B2. split.
  - intros W I. specialize (B1 W I). apply existsb_exists in B1 as (c & J & H). exists c. split; [exact J|now apply K].
  - intros c I. specialize (B2 c I). apply existsb_exists in B2 as (W & J & H). exists W. split; [exact J|now apply K].
Qed.
(** Lines, quadrilaterals and hexahedra: the geometry of a vertex is its part of the reference element. *)
Theorem C79_cube_geometries norm s P V its st v l : isCube s -> update norm s P V its = Some st -> (v < numVertices s)%nat ->
  (dim s = 1%nat -> py l == 0) -> (dim s < 3)%nat /\ pz l == 0 \/ dim s = 3%nat ->
  eq3 (quadGlobal (dim s) (st_geometry st v) l) (mid (refPos s [v]) l) /\
  integrationElement (dim s) (st_geometry st v) l == (1 # 2) ^ Z.of_nat (dim s).
Proof.
  intros S U L Y Z. destruct (updated _ _ _ _ _ _ U) as (_ & _ & _ & ->). destruct l as [x y z]. cbn [px py pz] in *.
  destruct S as [-> | [-> | ->]]; cbn in L; do 8 (destruct v as [|v]; [first [lia |
    split; [unfold quadGlobal, cornerWeight, mid, refPos; cbn [dim scvCorners seq Nat.pow Nat.mul Nat.add fold_left nth refCorners length Z.of_nat Pos.of_succ_nat];
            unfold bit; cbn [Nat.testbit Nat.odd Nat.even negb Nat.div2 px py pz add3 scale3 zero3]; unfold h;
            repeat split; cbn [px py pz add3 scale3 zero3]; try field; try (rewrite Y by reflexivity; field); (destruct Z as [(_ & Z)|Z]; [rewrite Z; field|discriminate])
           |cbn [dim]; polys; change ((1 # 2) ^ Z.of_nat 1) with (1 # 2); change ((1 # 2) ^ Z.of_nat 2) with (1 # 4); change ((1 # 2) ^ Z.of_nat 3) with (1 # 8); field]]|]); lia.
Qed.
(** Tetrahedra: regular everywhere, with a quarter of the volume of the reference element each. *)
Theorem C79_tetrahedron_geometries norm P V its st v l : update norm Tetrahedron P V its = Some st -> (v < 4)%nat -> inUnit l ->
  1 # 108 <= integrationElement 3 (st_geometry st v) l <= 1 # 8 /\
  cubeIntegral (integrationElement 3 (st_geometry st v)) == refVolume Tetrahedron / 4.
Proof.
  intros U L I. destruct (updated _ _ _ _ _ _ U) as (_ & _ & _ & ->).
  assert (forall d, bernSum (map (fun c => c + d) (bernOf v)) l == bernSum (bernOf v) l + d) as Sh.
  { intros d. destruct l as [x y z]. do 4 (destruct v as [|v]; [cbn [bernOf]; unfold bern0, bern1, bern2, bern3, bernSum, indices, sumQ;
      cbn [map combine list_prod app fold_right bernstein px py pz]; field|]); lia. }
  assert (bernSum (map (fun c => - c) (bernOf v)) l == - bernSum (bernOf v) l) as Ng.
  { clear. unfold bernSum. generalize indices. generalize (bernOf v). intros cs. unfold sumQ. induction cs as [|c cs IH]; intros ix; [reflexivity|].
    destruct ix as [|[[i j] k] ix]; [reflexivity|]. cbn [map combine fold_right]. rewrite IH. ring. }
  split; [|do 4 (destruct v as [|v]; [vm_compute; reflexivity|]); lia].
  rewrite tet_element by assumption. split.
  - assert (0 <= bernSum (map (fun c => c + - (1 # 108)) (bernOf v)) l) as A.
    { apply bernSum_pos; [exact I|]. do 4 (destruct v as [|v]; [vm_compute; repeat (constructor; [discriminate|]); constructor|]); lia. }
    rewrite Sh in A. lra.
  - assert (0 <= bernSum (map (fun c => - (c + - (1 # 8))) (bernOf v)) l) as A.
    { apply bernSum_pos; [exact I|]. do 4 (destruct v as [|v]; [vm_compute; repeat (constructor; [discriminate|]); constructor|]); lia. }
    rewrite <- (map_map (fun c => c + - (1 # 8)) (fun c => - c)) in A.
    assert (bernSum (map (fun c => - c) (map (fun c => c + - (1 # 8)) (bernOf v))) l == - bernSum (map (fun c => c + - (1 # 8)) (bernOf v)) l) as N2.
    { clear. unfold bernSum. generalize indices. generalize (map (fun c => c + - (1 # 8)) (bernOf v)). intros cs. unfold sumQ. induction cs as [|c cs IH]; intros ix; [reflexivity|].
      destruct ix as [|[[i j] k] ix]; [reflexivity|]. cbn [map combine fold_right]. rewrite IH. ring. }
    rewrite N2, Sh in A. lra.
Qed.
(** Triangles: so for the second and the third vertex. *)
Theorem C79_triangle_geometries_partial norm P V its st v l : update norm Triangle P V its = Some st -> v = 1%nat \/ v = 2%nat -> inUnit l ->
  1 # 12 <= integrationElement 2 (st_geometry st v) l <= 1 # 4 /\
  cubeIntegral (integrationElement 2 (st_geometry st v)) == refVolume Triangle / 3.
Proof.
  intros U L (X & Y & _). destruct (updated _ _ _ _ _ _ U) as (_ & _ & _ & ->).
  split; [|destruct L as [-> | ->]; vm_compute; reflexivity].
  destruct l as [x y z]. cbn [px py pz] in *.
  destruct L as [-> | ->]; polys.
  - match goal with |- _ <= ?e <= _ => assert (e == (1 # 6) + (1 # 12) * x - (1 # 12) * y) as -> by field end. lra.
  - match goal with |- _ <= ?e <= _ => assert (e == (1 # 6) - (1 # 12) * x + (1 # 12) * y) as -> by field end. lra.
Qed.
(** The geometry of the first vertex is twisted. *)
Theorem C79_triangle_geometries_refuted : exists norm P V st l, update norm Triangle P V [] = Some st /\ inUnit l /\
  integrationElement 2 (st_geometry st 0%nat) l < 0 /\
  ~ cubeIntegral (integrationElement 2 (st_geometry st 0%nat)) == refVolume Triangle / 3.
Proof.
  exists (fun q => q), (fun v => nth v (refCorners Triangle) zero3), (1 # 2). eexists. exists (mk3 1 1 0).
  split; [reflexivity|]. split; [repeat split; vm_compute; discriminate|]. split; [vm_compute; reflexivity|vm_compute; discriminate].
Qed.

(** The gradients of the shape functions at the centres of the sub-control volumes: they reproduce linear functions on
    parallelograms. *)
Theorem C79_center_gradients_partial o a b scv c g : ~ turn a b == 0 ->
  pz o == 0 -> pz a == 0 -> pz b == 0 -> pz g == 0 ->
  let P v := extruded o a b zero3 1 1 v in
  eq3 (sum3 (map (fun v => scale3 (centerGradient P scv v) (linear c g (P v))) (seq 0 4))) g.
Proof.
  intros T O A B G P. unfold centerGradient. cbv zeta. generalize (global Quadrilateral P (quadCenter (scvCorners Quadrilateral scv))). intros gp.
  generalize (quadCenter (scvCorners Quadrilateral scv)). intros l. unfold P; clear P.
  destruct o as [ox oy oz], a as [ax ay az], b as [bx b_y bz], g as [gx gy gz], gp as [qx qy qz], l as [lx ly lz]. cbn [px py pz] in *.
  unfold turn in T. cbn [px py] in T.
  unfold sum3, jacInvT, jacRow, localGradient, linear, bit, dot3, extruded. cbn [map seq fold_right fold_left].
  cbn [Nat.ltb Nat.leb Nat.sub Nat.testbit Nat.odd Nat.even negb Nat.div2 px py pz add3 scale3 zero3].
  repeat split; cbn [px py pz add3 scale3 zero3]; try (rewrite G; reflexivity || ring).
  - rewrite O, A, B. field. intros H. apply T. rewrite <- H. ring.
  - rewrite O, A, B. field. intros H. apply T. rewrite <- H. ring.
Qed.
(** On parallelograms they are the gradients of the shape functions: along both edges the shape function of a vertex
    changes from the centre of the sub-control volume as its gradient says. *)
Definition quarter (v k : nat) : Q := if Nat.testbit v k then 3 # 4 else 1 # 4.
Theorem C79_center_gradients_of_shape_functions_partial o a b scv v t : ~ turn a b == 0 ->
  pz o == 0 -> pz a == 0 -> pz b == 0 -> (scv < 4)%nat -> (v < 4)%nat ->
  let P w := extruded o a b zero3 1 1 w in
  let x := quarter scv 0 in let y := quarter scv 1 in
  dot3 (centerGradient P scv v) a * t == weight Quadrilateral v (mk3 (x + t) y 0) - weight Quadrilateral v (mk3 x y 0) /\
  dot3 (centerGradient P scv v) b * t == weight Quadrilateral v (mk3 x (y + t) 0) - weight Quadrilateral v (mk3 x y 0).
Proof.
  intros T O A B SL VL P x y. unfold centerGradient. cbv zeta. generalize (global Quadrilateral P (quadCenter (scvCorners Quadrilateral scv))). intros gp.
  assert (CE : eq3 (quadCenter (scvCorners Quadrilateral scv)) (mk3 x y 0)).
  { unfold x, y. destruct scv as [|[|[|[|scv]]]]; try lia; repeat split; vm_compute; reflexivity. }
  revert CE. generalize (quadCenter (scvCorners Quadrilateral scv)). intros l CE. unfold P; clear P.
  generalize dependent y. generalize dependent x. intros x y CE.
  destruct o as [ox oy oz], a as [ax ay az], b as [bx b_y bz], gp as [qx qy qz], l as [lx ly lz]. cbn [px py pz] in *.
  unfold turn in T. cbn [px py] in T. destruct CE as (CX & CY & _). cbn [px py pz] in CX, CY.
  destruct v as [|[|[|[|v]]]]; try lia; unfold weight, jacInvT, jacRow, localGradient, bit, dot3, extruded; cbn [map seq fold_right fold_left];
  cbn [Nat.ltb Nat.leb Nat.sub Nat.testbit Nat.odd Nat.even negb Nat.div2 px py pz add3 scale3 zero3];
  (split; rewrite ?O, ?A, ?B, CX, CY; field; intros H; apply T; rewrite <- H; ring).
Qed.
(** In general they do not: the Jacobian is evaluated at a global position. *)
Definition trapezoid (v : nat) : v3 := nth v [mk3 0 0 0; mk3 4 0 0; mk3 0 2 0; mk3 2 2 0] zero3.
Theorem C79_center_gradients_refuted : exists P scv c g, convex 1 Quadrilateral P /\ pz g == 0 /\
  ~ eq3 (sum3 (map (fun v => scale3 (centerGradient P scv v) (linear c g (P v))) (seq 0 4))) g.
Proof.
  exists trapezoid, 0%nat, 0, (mk3 1 1 0). split; [|split; [reflexivity|]].
  - split; [now left|]. intros v I. cbn in I. repeat (destruct I as [<-|I]; [vm_compute; reflexivity|]). destruct I.
  - intros (X & Y & _). vm_compute in X, Y. discriminate.
Qed.

(** ** The hypotheses can be met *)
Definition unitCube (v : nat) : v3 := nth v (refCorners Hexahedron) zero3.
Definition sampleNorm (q : Q) : Q := if Qeq_bool q (1 # 16) then 1 # 4 else q.
Example sampleNorm_definite : definite sampleNorm.
Proof. intros q. unfold sampleNorm. destruct (Qeq_bool q (1 # 16)); [discriminate|exact (fun H => H)]. Qed.
Example convex_trapezoid : convex 1 Quadrilateral trapezoid.
Proof. split; [now left|]. intros v I. cbn in I. repeat (destruct I as [<-|I]; [vm_compute; reflexivity|]). destruct I. Qed.
Example convex_clockwise : convex (- (1)) Triangle (fun v => nth v [mk3 0 0 0; mk3 0 1 0; mk3 2 0 0] zero3).
Proof. split; [now right|]. intros v I. cbn in I. repeat (destruct I as [<-|I]; [vm_compute; reflexivity|]). destruct I. Qed.
Example trapezoid_volumes : exists st, update sampleNorm Quadrilateral trapezoid 6 [] = Some st /\
  6 == polygonArea (map trapezoid (around Quadrilateral)) /\ st_volume st 0 == 7 # 4 /\ st_volume st 3 == 5 # 4.
Proof. eexists. split; [reflexivity|]. repeat split; vm_compute; reflexivity. Qed.
Definition sampleNormals (f : nat) : v3 :=
  nth f [mk3 (- (1)) 0 0; mk3 1 0 0; mk3 0 (- (1)) 0; mk3 0 1 0; mk3 0 0 (- (1)); mk3 0 0 1] zero3.
Example cube_closed : exists st,
  update sampleNorm Hexahedron unitCube 1 (map (fun f => mkIs f true 1 (sampleNormals f)) (seq 0 6)) = Some st /\
  length (st_boundary st) = 24%nat /\ length (st_faces st) = 12%nat /\
  forall v, (v < 8)%nat ->
  forall f, In f (facesOf Hexahedron v) -> exists a, eq3 (patch Hexahedron unitCube f v) (scale3 (sampleNormals f) a) /\
     forall q, q == dot3 (patch Hexahedron unitCube f v) (patch Hexahedron unitCube f v) -> sampleNorm q == a.
Proof.
  eexists. split; [reflexivity|]. split; [reflexivity|]. split; [reflexivity|].
  intros v L f F. exists (1 # 4). 
  assert (eq3 (patch Hexahedron unitCube f v) (scale3 (sampleNormals f) (1 # 4)) /\
          dot3 (patch Hexahedron unitCube f v) (patch Hexahedron unitCube f v) == 1 # 16) as (A & B).
  { do 8 (destruct v as [|v]; [cbn in F; repeat (destruct F as [<-|F]; [repeat split; vm_compute; reflexivity|]); destruct F|]); lia. }
  split; [exact A|]. intros q Hq. unfold sampleNorm. rewrite B in Hq.
  assert (Qeq_bool q (1 # 16) = true) as -> by now apply Qeq_bool_iff. reflexivity.
Qed.
Example pillar_cell : exists st, update sampleNorm Hexahedron
    (pillars zero3 (mk3 1 0 0) (mk3 0 1 0) (mk3 0 0 1) 1 1 (fun u => nth u [0; 0; 0; 1 # 2] 0) (fun u => nth u [1; 2; 1; 1] 0)) 1 [] = Some st /\
  sumQ (map (st_volume st) (seq 0 8)) == 9 # 8.
Proof. eexists. split; [reflexivity|]. vm_compute. reflexivity. Qed.

Print Assumptions C78_supported_elements.
Print Assumptions C78_plane_volumes.
Print Assumptions C78_line_volumes.
Print Assumptions C78_tetrahedron_volumes.
Print Assumptions C78_hexahedron_enclosed.
Print Assumptions C78_hexahedron_volumes_partial.
Print Assumptions C78_hexahedron_pillars_partial.
Print Assumptions C78_hexahedron_volumes_refuted.
Print Assumptions C78_plane_closed.
Print Assumptions C78_space_closed.
Print Assumptions C78_one_face_per_edge.
Print Assumptions C78_plane_normals.
Print Assumptions C78_space_normals.
Print Assumptions C78_space_normals_refuted.
Print Assumptions C79_interior_points.
Print Assumptions C79_boundary_segments.
Print Assumptions C79_boundary_geometry.
Print Assumptions C79_closed_with_boundary.
Print Assumptions C79_local_corners.
Print Assumptions C79_cube_geometries.
Print Assumptions C79_tetrahedron_geometries.
Print Assumptions C79_triangle_geometries_partial.
Print Assumptions C79_triangle_geometries_refuted.
Print Assumptions C79_center_gradients_partial.
Print Assumptions C79_center_gradients_of_shape_functions_partial.
Print Assumptions C79_center_gradients_refuted.
