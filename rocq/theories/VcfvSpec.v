(** What the properties about the vertex-centred stencil are stated with. *)
From Verif Require Import VcfvModel.

Definition eq3 (a b : v3) : Prop := px a == px b /\ py a == py b /\ pz a == pz b.
Definition mid (a b : v3) : v3 := scale3 (add3 a b) (1 # 2).
Definition mean (P : nat -> v3) (vs : list nat) : v3 :=
  scale3 (fold_right (fun v a => add3 (P v) a) zero3 vs) (1 / inject_Z (Z.of_nat (length vs))).
Definition mean4 (a b c d : v3) : v3 := scale3 (add3 (add3 a b) (add3 c d)) (1 # 4).
(** A square root: it vanishes for zero only. *)
Definition definite (norm : Q -> Q) : Prop := forall q, norm q == 0 -> q == 0.

(** Predecessor and successor in a cycle. *)
Fixpoint after (l : list nat) (first v : nat) : nat :=
  match l with
  | [] => first
  | x :: r => if (x =? v)%nat then match r with y :: _ => y | [] => first end else after r first v
  end.
Definition next (l : list nat) (v : nat) : nat := after l (hd 0%nat l) v.
Definition prev (l : list nat) (v : nat) : nat := next (rev l) v.

(** ** In the plane *)
(** The vertices of an element in the order of its boundary. *)
Definition around (s : shape) : list nat :=
  match s with Triangle => [0; 1; 2] | _ => [0; 1; 3; 2] end%nat.
Definition turn (a b : v3) : Q := px a * py b - py a * px b.
(** Twice the area of a polygon with sign. *)
Fixpoint shoelace (first : v3) (l : list v3) : Q :=
  match l with
  | [] => 0
  | a :: r => turn a (match r with b :: _ => b | [] => first end) + shoelace first r
  end.
Definition polygonArea (l : list v3) : Q := (1 # 2) * Qabs (shoelace (hd zero3 l) l).
(** Convex, with the vertices counter-clockwise ([sigma = 1]) or clockwise ([sigma = -1]). *)
Definition convex (sigma : Q) (s : shape) (P : nat -> v3) : Prop :=
  (sigma = 1 \/ sigma = - (1)) /\
  forall v, In v (around s) -> 0 < sigma * turn (sub3 (P (next (around s) v)) (P v)) (sub3 (P (prev (around s) v)) (P v)).
(** The outer normal of the edge from [a] to [b] of a counter-clockwise polygon, with the length of the edge. *)
Definition outerEdge (a b : v3) : v3 := mk3 (py b - py a) (- (px b - px a)) 0.

(** ** In space *)
Definition triple (a b c : v3) : Q := dot3 a (cross3 b c).
(** The vertices of the faces, counter-clockwise when seen from outside. *)
Definition outside (s : shape) (f : nat) : list nat :=
  match s with
  | Tetrahedron => nth f [[0; 2; 1]; [0; 1; 3]; [0; 3; 2]; [1; 2; 3]] []
  | _ => nth f [[0; 4; 6; 2]; [1; 3; 7; 5]; [0; 1; 5; 4]; [2; 6; 7; 3]; [0; 2; 3; 1]; [4; 5; 7; 6]] []
  end%nat.
(** The area vector of a quadrilateral, and of a triangle. *)
Definition areaVector (a b c d : v3) : v3 := scale3 (cross3 (sub3 c a) (sub3 d b)) (1 # 2).
(** The part of a face of the element which belongs to a vertex: the vertex, the middles of two edges and the centre. *)
Definition patch (s : shape) (P : nat -> v3) (f v : nat) : v3 :=
  let o := outside s f in
  areaVector (P v) (mid (P v) (P (next o v))) (mean P o) (mid (P v) (P (prev o v))).
Definition patchCenter (s : shape) (P : nat -> v3) (f v : nat) : v3 :=
  let o := outside s f in
  mean4 (P v) (mid (P v) (P (next o v))) (mean P o) (mid (P v) (P (prev o v))).
Definition faceVector (s : shape) (P : nat -> v3) (f : nat) : v3 :=
  let o := outside s f in
  match o with
  | [a; b; c] => scale3 (cross3 (sub3 (P b) (P a)) (sub3 (P c) (P a))) (1 # 2)
  | [a; b; c; d] => areaVector (P a) (P b) (P c) (P d)
  | _ => zero3
  end.
Definition numFaces (s : shape) : nat := length (refFaces s).
Definition sum3 (l : list v3) : v3 := fold_right add3 zero3 l.
Definition sumQ (l : list Q) : Q := fold_right Qplus 0 l.
Definition facesOf (s : shape) (v : nat) : list nat :=
  filter (fun f => existsb (Nat.eqb v) (faceVerts s f)) (seq 0 (numFaces s)).

(** What flows out of the sub-control volume of a vertex over the interior faces in a unit field in each direction: the
    normals point from [f_i] to [f_j]. *)
Definition vectorOf (f : face) : v3 := scale3 (f_normal f) (f_area f).
Definition outflow (fs : list face) (v : nat) : v3 :=
  sum3 (map (fun f => if (f_i f =? v)%nat then vectorOf f else if (f_j f =? v)%nat then scale3 (vectorOf f) (- (1)) else zero3) fs).
(** The volume which the faces of a sub-control volume enclose (divergence theorem: a third of the flux of the field
    [x], exact for bilinear faces with the mean of the corners). *)
Definition enclosed (s : shape) (P : nat -> v3) (fs : list face) (v : nat) : Q :=
  (1 # 3) * (sumQ (map (fun f => if (f_i f =? v)%nat then dot3 (f_global f) (vectorOf f)
                                 else if (f_j f =? v)%nat then - dot3 (f_global f) (vectorOf f) else 0) fs)
             + sumQ (map (fun f => dot3 (patchCenter s P f v) (patch s P f v)) (facesOf s v))).
(** The volume of a tetrahedron with sign, and of a hexahedron with bilinear faces. *)
Definition tetVolume (P : nat -> v3) : Q :=
  (1 # 6) * triple (sub3 (P 1%nat) (P 0%nat)) (sub3 (P 2%nat) (P 0%nat)) (sub3 (P 3%nat) (P 0%nat)).
Definition hexVolume (P : nat -> v3) : Q :=
  (1 # 3) * sumQ (map (fun f => dot3 (mean P (outside Hexahedron f)) (faceVector Hexahedron P f)) (seq 0 6)).

(** A plane quadrilateral which is moved along [w]: the corners of the base are [o], [o + a], [o + b] and
    [o + x a + y b]. *)
Definition extruded (o a b w : v3) (x y : Q) (v : nat) : v3 :=
  let base u := match u with
    | 0 => o | 1 => add3 o a | 2 => add3 o b | _ => add3 o (add3 (scale3 a x) (scale3 b y)) end%nat in
  if (v <? 4)%nat then base v else add3 (base (v - 4)%nat) w.

(** ** Local geometries *)
Definition inUnit (l : v3) : Prop := 0 <= px l <= 1 /\ 0 <= py l <= 1 /\ 0 <= pz l <= 1.
(** The integral over the unit cube by the rule of Simpson, which is exact for polynomials of degree three in each
    coordinate. *)
Definition simpson (f : Q -> Q) : Q := (1 # 6) * (f 0 + 4 * f (1 # 2) + f 1).
Definition cubeIntegral (f : v3 -> Q) : Q := simpson (fun x => simpson (fun y => simpson (fun z => f (mk3 x y z)))).
(** The corners of the sub-control volume of a vertex: the centres of the vertex, the edges and the faces at the vertex
    and of the element. *)
Definition cornersAround (s : shape) (v : nat) : list (list nat) :=
  let has l := existsb (Nat.eqb v) l in
  [v] :: match dim s with
         | 1%nat => []
         | 2%nat => filter has (refFaces s)
         | _ => filter has (map (fun e => [fst e; snd e]) (refEdges s)) ++ filter has (refFaces s)
         end ++ [seq 0 (numVertices s)].
Definition isCube (s : shape) : Prop := s = Line \/ s = Quadrilateral \/ s = Hexahedron.
(** The volume of the reference element. *)
Definition refVolume (s : shape) : Q := match s with Triangle => 1 # 2 | Tetrahedron => 1 # 6 | _ => 1 end.
(** The value of a linear function. *)
Definition linear (a : Q) (b x : v3) : Q := a + dot3 b x.
(** Hexahedra with four parallel pillars: the pillars stand on the corners of a plane quadrilateral, each has a lower and
    an upper end. *)
Definition pillars (o a b w : v3) (x y : Q) (lower upper : nat -> Q) (v : nat) : v3 :=
  let base u := match u with
    | 0 => o | 1 => add3 o a | 2 => add3 o b | _ => add3 o (add3 (scale3 a x) (scale3 b y)) end%nat in
  if (v <? 4)%nat then add3 (base v) (scale3 w (lower v)) else add3 (base (v - 4)%nat) (scale3 w (upper (v - 4)%nat)).
