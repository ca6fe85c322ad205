From Verif Require Import VcfvModel VcfvSpec VcfvPoints VcfvProofs VcfvVolumes VcfvHex.
From Coq Require Import Setoid Morphisms Lqa.

Definition planar (s : shape) : Prop := s = Triangle \/ s = Quadrilateral.
Definition cornerTurn (s : shape) (P : nat -> v3) (v : nat) : Q :=
  turn (sub3 (P (next (around s) v)) (P v)) (sub3 (P (prev (around s) v)) (P v)).
Definition cellPolygon (s : shape) (P : nat -> v3) (v : nat) : list v3 :=
  [P v; mid (P v) (P (next (around s) v)); mean P (seq 0 (numVertices s)); mid (P v) (P (prev (around s) v))].
Ltac flat2 := unfold cellPolygon, cornerTurn, shoelace, turn, mean, mid, outerEdge; cbn [around hd map]; explode.

Lemma sigma_abs sigma q : sigma = 1 \/ sigma = - (1) -> 0 < sigma * q -> Qabs q == sigma * q.
Proof.
  intros [-> | ->] H.
  - rewrite Qabs_pos by lra. ring.
  - rewrite Qabs_neg by lra. ring.
Qed.
Lemma triangle_cell P v : (v < 3)%nat ->
  shoelace (P v) (cellPolygon Triangle P v) == (1 # 3) * shoelace (P 0%nat) (map P (around Triangle)).
Proof. intros V. do 3 (destruct v as [|v]; [flat2; field|]); lia. Qed.
Lemma quad_cell P v : (v < 4)%nat ->
  shoelace (P v) (cellPolygon Quadrilateral P v) ==
  (1 # 8) * (2 * cornerTurn Quadrilateral P v + cornerTurn Quadrilateral P (next (around Quadrilateral) v) + cornerTurn Quadrilateral P (prev (around Quadrilateral) v)).
Proof. intros V. do 4 (destruct v as [|v]; [flat2; field|]); lia. Qed.
Lemma quad_total P : shoelace (P 0%nat) (map P (around Quadrilateral)) ==
  (1 # 2) * (cornerTurn Quadrilateral P 0 + cornerTurn Quadrilateral P 1 + cornerTurn Quadrilateral P 2 + cornerTurn Quadrilateral P 3).
Proof. flat2. field. Qed.
Lemma quad_volume P V v : (v < 4)%nat ->
  scvVolume Quadrilateral P V v == polygonArea (cellPolygon Quadrilateral P v).
Proof.
  intros L. unfold polygonArea.
  do 4 (destruct v as [|v]; [cbn [scvVolume]; rewrite ?corner_at, ?edge_at, ?center_at by (cbn; lia); unfold quadrilateralArea;
    rewrite <- Qabs_opp; apply Qmult_comp; [reflexivity|]; apply Qabs_wd; flat2; field|]); lia.
Qed.
Lemma plane_volumes sigma s P V v : planar s -> convex sigma s P -> V == polygonArea (map P (around s)) -> (v < numVertices s)%nat ->
  scvVolume s P V v == polygonArea (cellPolygon s P v).
Proof.
  intros [-> | ->] C E L.
  - unfold polygonArea in *. cbn [hd cellPolygon] in *. cbn [scvVolume]. rewrite (triangle_cell P v L), E, abs_scaled by lra.
    cbn [around hd map]. field.
  - now apply quad_volume.
Qed.
Lemma plane_volume_sum sigma s P V : planar s -> convex sigma s P -> V == polygonArea (map P (around s)) ->
  sumQ (map (scvVolume s P V) (seq 0 (numVertices s))) == V.
Proof.
  intros [-> | ->] C E.
  - cbn. field.
  - destruct C as (S & C).
    assert (forall v, In v (around Quadrilateral) -> 0 < sigma * cornerTurn Quadrilateral P v) as T by exact C.
    assert (forall v, (v < 4)%nat -> polygonArea (cellPolygon Quadrilateral P v) == sigma * ((1 # 2) * shoelace (P v) (cellPolygon Quadrilateral P v))) as A.
    { intros v L. unfold polygonArea. cbn [hd cellPolygon]. rewrite (sigma_abs sigma); [ring|assumption|].
      rewrite quad_cell by assumption.
      pose proof (T 0%nat ltac:(cbn; tauto)). pose proof (T 1%nat ltac:(cbn; tauto)). pose proof (T 2%nat ltac:(cbn; tauto)). pose proof (T 3%nat ltac:(cbn; tauto)).
      do 4 (destruct v as [|v]; [cbn [next prev around after hd Nat.eqb rev app]; lra|]); lia. }
    cbn [numVertices refCorners length seq map sumQ fold_right].
    unfold sumQ; cbn [fold_right]. rewrite !quad_volume, !A, !quad_cell by lia. rewrite E. unfold polygonArea. cbn [hd map around].
    pose proof (quad_total P) as Q. cbn [map around] in Q. rewrite (sigma_abs sigma); [|assumption|rewrite Q]. 
    + rewrite Q. cbn [next prev around after hd Nat.eqb rev app]. field.
    + pose proof (T 0%nat ltac:(cbn; tauto)). pose proof (T 1%nat ltac:(cbn; tauto)). pose proof (T 2%nat ltac:(cbn; tauto)). pose proof (T 3%nat ltac:(cbn; tauto)). lra.
Qed.

(** ** Faces *)
Definition planeEdge (s : shape) (k : nat) : nat * nat :=
  match s with Triangle => nth k [(0, 1); (0, 2); (1, 2)] (0, 0) | _ => nth k [(2, 0); (1, 3); (0, 1); (3, 2)] (0, 0) end%nat.
Definition planeSign (s : shape) (k : nat) : Q :=
  match s, k with Triangle, 1%nat => - (1) | _, _ => 1 end.
Definition planeVector (sigma : Q) (s : shape) (P : nat -> v3) (k : nat) : v3 :=
  let '(i, j) := planeEdge s k in
  let d := sub3 (mean P (seq 0 (numVertices s))) (mid (P i) (P j)) in
  scale3 (mk3 (py d) (- px d) 0) (sigma * planeSign s k).
Definition turned (d e : v3) : v3 :=
  let n := mk3 (py d) (- px d) 0 in
  if Qlt_le_dec (dot3 n e) 0 then scale3 n (- (1)) else n.
Lemma turned_sign sigma d e : sigma = 1 \/ sigma = - (1) -> 0 < sigma * turn e d -> eq3 (turned d e) (scale3 (mk3 (py d) (- px d) 0) sigma).
Proof.
  intros S H. unfold turned.
  assert (dot3 (mk3 (py d) (- px d) 0) e == turn e d) as E by (unfold dot3, turn; cbn; ring).
  destruct (Qlt_le_dec _ 0) as [L|L]; rewrite E in L; destruct S as [-> | ->]; try lra; comp3.
Qed.
#[export] Instance turn_proper : Proper (eq3 ==> eq3 ==> Qeq) turn.
Proof. intros a a' A b b' B. unfold turn. now rewrite A, B. Qed.
Lemma plane_turn sigma s P k : planar s -> convex sigma s P -> (k < length (refEdges s))%nat ->
  let '(i, j) := planeEdge s k in
  0 < (sigma * planeSign s k) * turn (sub3 (P j) (P i)) (sub3 (mean P (seq 0 (numVertices s))) (mid (P i) (P j))).
Proof.
  intros S (_ & C) K.
  assert (forall v, In v (around s) -> 0 < sigma * cornerTurn s P v) as T by exact C. clear C.
  pose proof (T 0%nat ltac:(destruct S as [-> | ->]; cbn; tauto)) as T0.
  pose proof (T 1%nat ltac:(destruct S as [-> | ->]; cbn; tauto)) as T1.
  pose proof (T 2%nat ltac:(destruct S as [-> | ->]; cbn; tauto)) as T2.
  destruct S as [-> | ->]; cbn in K.
  - assert (0 < (1 # 3) * (sigma * cornerTurn Triangle P 0)) as Z by lra.
    do 3 (destruct k as [|k]; [cbn [planeEdge planeSign nth]; refine (Qlt_le_trans _ _ _ Z _); apply Qle_lteq; right; flat2; field|]); lia.
  - pose proof (T 3%nat ltac:(cbn; tauto)) as T3.
    assert (forall u v, In u (around Quadrilateral) -> In v (around Quadrilateral) ->
      0 < (1 # 4) * (sigma * cornerTurn Quadrilateral P u + sigma * cornerTurn Quadrilateral P v)) as Z.
    { intros u v U V. pose proof (T u U). pose proof (T v V). lra. }
    do 4 (destruct k as [|k]; [cbn [planeEdge planeSign nth];
      match goal with |- 0 < _ * turn (sub3 (P ?j) (P ?i)) _ =>
        refine (Qlt_le_trans _ _ _ (Z i j ltac:(cbn; tauto) ltac:(cbn; tauto)) _) end; apply Qle_lteq; right; flat2; field|]); lia.
Qed.
Lemma plane_form norm s P k : planar s -> (k < length (refEdges s))%nat ->
  exists l g, let '(i, j) := planeEdge s k in interiorFace norm s P k =
    withArea norm i j l g (turned (sub3 (elementGlobal s P) (edgeCoord s P k)) (sub3 (corner s P j) (corner s P i))).
Proof.
  intros S K. unfold interiorFace.
  set (e := nth k (refEdges s) (0, 0)%nat).
  assert ((if (length (refEdges s) =? 4)%nat && ((fst e =? 2)%nat || (snd e =? 2)%nat) then (snd e, fst e) else e) = planeEdge s k) as ->.
  { unfold e. destruct S as [-> | ->]; cbn in K; do 4 (destruct k as [|k]; [first [lia | reflexivity]|]); lia. }
  assert (dim s = 2%nat) as -> by (destruct S as [-> | ->]; reflexivity).
  destruct (planeEdge s k) as [i j]. eexists _, _. unfold turned. reflexivity.
Qed.
Lemma plane_face norm sigma s P k : definite norm -> planar s -> convex sigma s P -> (k < length (refEdges s))%nat ->
  eq3 (vectorOf (interiorFace norm s P k)) (planeVector sigma s P k) /\
  (f_i (interiorFace norm s P k), f_j (interiorFace norm s P k)) = planeEdge s k.
Proof.
  intros D S C K. pose proof (plane_turn sigma s P k S C K) as T. unfold planeVector.
  destruct (plane_form norm s P k S K) as (l & g & F).
  destruct (planeEdge s k) as [i j] eqn:E.
  assert (i < numVertices s /\ j < numVertices s)%nat as (I & J).
  { destruct S as [-> | ->]; cbn in K; do 4 (destruct k as [|k]; [first [lia | injection E as <- <-; cbn; lia]|]); lia. }
  assert (eq3 (sub3 (elementGlobal s P) (edgeCoord s P k)) (sub3 (mean P (seq 0 (numVertices s))) (mid (P i) (P j)))) as Hd.
  { rewrite center_at, edge_at by assumption. apply sub3_proper; [reflexivity|].
    destruct S as [-> | ->]; cbn in K; do 4 (destruct k as [|k]; [first [lia | injection E as <- <-; cbn [nth refEdges fst snd]; comp3]|]); lia. }
  assert (eq3 (sub3 (corner s P j) (corner s P i)) (sub3 (P j) (P i))) as He by now rewrite !corner_at by assumption.
  revert Hd He F. generalize (sub3 (elementGlobal s P) (edgeCoord s P k)) (sub3 (corner s P j) (corner s P i)). intros d e Hd He F.
  rewrite F. split; [|reflexivity]. rewrite with_area by assumption.
  rewrite (turned_sign (sigma * planeSign s k)).
  - destruct Hd as (X & Y & _). repeat split; cbn [px py pz scale3]; [now rewrite Y|now rewrite X].
  - destruct C as ([-> | ->] & _); destruct S as [-> | ->]; do 4 (destruct k as [|k]; [cbn; tauto|]); cbn; tauto.
  - now rewrite Hd, He.
Qed.
Definition planeOut (sigma : Q) (s : shape) (P : nat -> v3) (v : nat) : v3 :=
  sum3 (map (fun k => if (fst (planeEdge s k) =? v)%nat then planeVector sigma s P k
                      else if (snd (planeEdge s k) =? v)%nat then scale3 (planeVector sigma s P k) (- (1)) else zero3)
            (seq 0 (length (refEdges s)))).
Lemma plane_out norm sigma s P v : definite norm -> planar s -> convex sigma s P ->
  eq3 (outflow (map (interiorFace norm s P) (seq 0 (length (refEdges s)))) v) (planeOut sigma s P v).
Proof.
  intros D S C. unfold outflow, planeOut. rewrite map_map. apply sum3_ext. intros k K. apply in_seq in K.
  destruct (plane_face norm sigma s P k D S C (proj2 K)) as (E & I). rewrite <- I. cbn [fst snd].
  destruct (Nat.eqb _ _); [exact E|]. destruct (Nat.eqb _ _); [now rewrite E|reflexivity].
Qed.
Definition outerPart (s : shape) (P : nat -> v3) (v : nat) : v3 :=
  add3 (outerEdge (mid (P (prev (around s) v)) (P v)) (P v)) (outerEdge (P v) (mid (P v) (P (next (around s) v)))).
Lemma plane_closed sigma s P v : planar s -> (v < numVertices s)%nat ->
  eq3 (add3 (planeOut sigma s P v) (scale3 (outerPart s P v) sigma)) zero3.
Proof.
  intros [-> | ->] V; cbn in V; do 4 (destruct v as [|v]; [first [lia |
    unfold planeOut, planeVector, outerPart; explode; cbn [planeEdge planeSign nth fst snd Nat.eqb]; flat2; cbn [planeSign]; repeat split; explode; field]|]); lia.
Qed.
