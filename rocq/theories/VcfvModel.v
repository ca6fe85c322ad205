(** discretization/vcfv/vcfvstencil.hh: the finite volume geometry of an element of the vertex-centred scheme, and
    utils/quadraturegeometries.hh.

    Arithmetic is exact; vectors have three entries, those beyond the dimension of the element are zero (the grid has
    as many world dimensions). dune-geometry is not part of the code base: its reference elements and its
    multilinear mapping from local to global coordinates are modelled below as they are documented; [norm] stands
    for the square root in [two_norm()], applied to the sum of the squares. *)
From Coq Require Export QArith Qabs List PeanoNat Lia.
Export ListNotations.
Open Scope Q_scope.

(** ** Vectors (Dune::FieldVector) *)
Record v3 := mk3 { px : Q; py : Q; pz : Q }.
Definition zero3 : v3 := mk3 0 0 0.
Definition add3 (a b : v3) : v3 := mk3 (px a + px b) (py a + py b) (pz a + pz b).
Definition sub3 (a b : v3) : v3 := mk3 (px a - px b) (py a - py b) (pz a - pz b).
Definition scale3 (a : v3) (q : Q) : v3 := mk3 (px a * q) (py a * q) (pz a * q).
Definition dot3 (a b : v3) : Q := px a * px b + py a * py b + pz a * pz b.
(** vcfvstencil.hh 505-510: crossProduct. *)
Definition cross3 (a b : v3) : v3 :=
  mk3 (py a * pz b - pz a * py b) (pz a * px b - px a * pz b) (px a * py b - py a * px b).

(** ** Reference elements of dune-geometry *)
Inductive shape := Line | Triangle | Quadrilateral | Tetrahedron | Pyramid | Prism | Hexahedron.
Definition dim (s : shape) : nat :=
  match s with Line => 1 | Triangle | Quadrilateral => 2 | _ => 3 end.
Definition refCorners (s : shape) : list v3 :=
  match s with
  | Line => [mk3 0 0 0; mk3 1 0 0]
  | Triangle => [mk3 0 0 0; mk3 1 0 0; mk3 0 1 0]
  | Quadrilateral => [mk3 0 0 0; mk3 1 0 0; mk3 0 1 0; mk3 1 1 0]
  | Tetrahedron => [mk3 0 0 0; mk3 1 0 0; mk3 0 1 0; mk3 0 0 1]
  | Pyramid => [mk3 0 0 0; mk3 1 0 0; mk3 0 1 0; mk3 1 1 0; mk3 0 0 1]
  | Prism => [mk3 0 0 0; mk3 1 0 0; mk3 0 1 0; mk3 0 0 1; mk3 1 0 1; mk3 0 1 1]
  | Hexahedron => [mk3 0 0 0; mk3 1 0 0; mk3 0 1 0; mk3 1 1 0; mk3 0 0 1; mk3 1 0 1; mk3 0 1 1; mk3 1 1 1]
  end.
Definition numVertices (s : shape) : nat := length (refCorners s).
(** The vertices of the subentities of dimension one. *)
Definition refEdges (s : shape) : list (nat * nat) :=
  match s with
  | Line => [(0, 1)]
  | Triangle => [(0, 1); (0, 2); (1, 2)]
  | Quadrilateral => [(0, 2); (1, 3); (0, 1); (2, 3)]
  | Tetrahedron => [(0, 1); (0, 2); (1, 2); (0, 3); (1, 3); (2, 3)]
  | Pyramid => [(0, 2); (1, 3); (0, 1); (2, 3); (0, 4); (1, 4); (2, 4); (3, 4)]
  | Prism => [(0, 3); (1, 4); (2, 5); (0, 1); (0, 2); (1, 2); (3, 4); (3, 5); (4, 5)]
  | Hexahedron => [(0, 4); (1, 5); (2, 6); (3, 7); (0, 2); (1, 3); (0, 1); (2, 3); (4, 6); (5, 7); (4, 5); (6, 7)]
  end%nat.
(** The vertices of the subentities of codimension one. *)
Definition refFaces (s : shape) : list (list nat) :=
  match s with
  | Line => [[0]; [1]]
  | Triangle => [[0; 1]; [0; 2]; [1; 2]]
  | Quadrilateral => [[0; 2]; [1; 3]; [0; 1]; [2; 3]]
  | Tetrahedron => [[0; 1; 2]; [0; 1; 3]; [0; 2; 3]; [1; 2; 3]]
  | Pyramid => [[0; 1; 2; 3]; [0; 2; 4]; [1; 3; 4]; [0; 1; 4]; [2; 3; 4]]
  | Prism => [[0; 1; 3; 4]; [0; 2; 3; 5]; [1; 2; 4; 5]; [0; 1; 2]; [3; 4; 5]]
  | Hexahedron => [[0; 2; 4; 6]; [1; 3; 5; 7]; [0; 1; 4; 5]; [2; 3; 6; 7]; [0; 1; 2; 3]; [4; 5; 6; 7]]
  end%nat.
(** ReferenceElement::position: the mean of the corners of a subentity. *)
Definition refPos (s : shape) (vs : list nat) : v3 :=
  scale3 (fold_left (fun a v => add3 a (nth v (refCorners s) zero3)) vs zero3) (1 / inject_Z (Z.of_nat (length vs))).
Definition edgeVerts (s : shape) (k : nat) : list nat := let e := nth k (refEdges s) (0, 0)%nat in [fst e; snd e].
Definition faceVerts (s : shape) (f : nat) : list nat := nth f (refFaces s) [].

(** MultiLinearGeometry::global: the weight of a corner at a local position. *)
Definition bit (v k : nat) (x : Q) : Q := if Nat.testbit v k then x else 1 - x.
Definition triWeight (v : nat) (x y : Q) : Q := match v with O => 1 - x - y | 1%nat => x | _ => y end.
Definition weight (s : shape) (v : nat) (l : v3) : Q :=
  let '(mk3 x y z) := l in
  match s with
  | Line => bit v 0 x
  | Triangle => triWeight v x y
  | Quadrilateral => bit v 0 x * bit v 1 y
  | Tetrahedron => match v with O => 1 - x - y - z | 1%nat => x | 2%nat => y | _ => z end
  | Pyramid => if (v <? 4)%nat then (1 - z) * (bit v 0 (x / (1 - z)) * bit v 1 (y / (1 - z))) else z
  | Prism => if (v <? 3)%nat then triWeight v x y * (1 - z) else triWeight (v - 3) x y * z
  | Hexahedron => bit v 0 x * bit v 1 y * bit v 2 z
  end.
(** The corners of the element are [P 0], [P 1], ... *)
Definition global (s : shape) (P : nat -> v3) (l : v3) : v3 :=
  fold_left (fun a v => add3 a (scale3 (P v) (weight s v l))) (seq 0 (numVertices s)) zero3.

(** ** Points of the stencil (vcfvstencil.hh 874-892) *)
Definition elementLocal (s : shape) : v3 := refPos s (seq 0 (numVertices s)).
Definition elementGlobal (s : shape) (P : nat -> v3) : v3 := global s P (elementLocal s).
Definition corner (s : shape) (P : nat -> v3) (v : nat) : v3 := global s P (refPos s [v]).
Definition edgeCoord (s : shape) (P : nat -> v3) (k : nat) : v3 := global s P (refPos s (edgeVerts s k)).
Definition faceCoord (s : shape) (P : nat -> v3) (f : nat) : v3 := global s P (refPos s (faceVerts s f)).

(** ** Volumes *)
(** 497-503. *)
Definition quadrilateralArea (p0 p1 p2 p3 : v3) : Q :=
  (1 # 2) * Qabs ((px p3 - px p1) * (py p2 - py p0) - (py p3 - py p1) * (px p2 - px p0)).
(** 530-556; the value before the absolute value is taken. *)
Definition prismSigned (p0 p1 p2 p3 p4 p5 : v3) : Q :=
  let m := cross3 (sub3 p4 p0) (sub3 p1 p3) in
  let n := add3 (cross3 (sub3 p1 p0) (sub3 p2 p0)) m in
  (1 # 6) * dot3 n (sub3 p5 p0).
Definition prismVolume (p0 p1 p2 p3 p4 p5 : v3) : Q := Qabs (prismSigned p0 p1 p2 p3 p4 p5).
(** 558-570. *)
Definition hexahedronVolume (p0 p1 p2 p3 p4 p5 p6 p7 : v3) : Q :=
  prismVolume p0 p1 p2 p4 p5 p6 + prismVolume p0 p2 p3 p4 p6 p7.
(** 1122-1348: fillSubContVolData_; [V] is the volume which the grid gives for the element. *)
Definition scvVolume (s : shape) (P : nat -> v3) (V : Q) (v : nat) : Q :=
  let p := corner s P in let e := edgeCoord s P in let f := faceCoord s P in let g := elementGlobal s P in
  match s with
  | Line => (1 # 2) * V
  | Triangle => V / 3
  | Quadrilateral =>
      match v with
      | 0 => quadrilateralArea (p 0) (e 2) g (e 0)
      | 1 => quadrilateralArea (p 1) (e 1) g (e 2)
      | 2 => quadrilateralArea (p 2) (e 0) g (e 3)
      | _ => quadrilateralArea (p 3) (e 3) g (e 1)
      end%nat
  | Tetrahedron => V / 4
  | Pyramid =>
      let a := (hexahedronVolume (p 0) (e 2) (f 0) (e 0) (e 4) (f 3) g (f 1))%nat in
      let b := (hexahedronVolume (p 1) (e 1) (f 0) (e 2) (e 5) (f 2) g (f 3))%nat in
      let c := (hexahedronVolume (p 2) (e 0) (f 0) (e 3) (e 6) (f 1) g (f 4))%nat in
      let d := (hexahedronVolume (p 3) (e 3) (f 0) (e 1) (e 7) (f 4) g (f 2))%nat in
      match v with 0 => a | 1 => b | 2 => c | 3 => d | _ => (V - a - b - c - d)%Q end%nat
  | Prism =>
      match v with
      | 0 => hexahedronVolume (p 0) (e 3) (f 3) (e 4) (e 0) (f 0) g (f 1)
      | 1 => hexahedronVolume (p 1) (e 5) (f 3) (e 3) (e 1) (f 2) g (f 0)
      | 2 => hexahedronVolume (p 2) (e 4) (f 3) (e 5) (e 2) (f 1) g (f 2)
      | 3 => hexahedronVolume (e 0) (f 0) g (f 1) (p 3) (e 6) (f 4) (e 7)
      | 4 => hexahedronVolume (e 1) (f 2) g (f 0) (p 4) (e 8) (f 4) (e 6)
      | _ => hexahedronVolume (e 2) (f 1) g (f 2) (p 5) (e 7) (f 4) (e 8)
      end%nat
  | Hexahedron =>
      match v with
      | 0 => hexahedronVolume (p 0) (e 6) (f 4) (e 4) (e 0) (f 2) g (f 0)
      | 1 => hexahedronVolume (p 1) (e 5) (f 4) (e 6) (e 1) (f 1) g (f 2)
      | 2 => hexahedronVolume (p 2) (e 4) (f 4) (e 7) (e 2) (f 0) g (f 3)
      | 3 => hexahedronVolume (p 3) (e 7) (f 4) (e 5) (e 3) (f 3) g (f 1)
      | 4 => hexahedronVolume (e 0) (f 2) g (f 0) (p 4) (e 10) (f 5) (e 8)
      | 5 => hexahedronVolume (e 1) (f 1) g (f 2) (p 5) (e 9) (f 5) (e 10)
      | 6 => hexahedronVolume (e 2) (f 0) g (f 3) (p 6) (e 8) (f 5) (e 11)
      | _ => hexahedronVolume (e 3) (f 3) g (f 1) (p 7) (e 11) (f 5) (e 9)
      end%nat
  end.

(** ** Faces *)
(** 727-757: SubControlVolumeFace. *)
Record face := mkFace { f_i : nat; f_j : nat; f_local : v3; f_global : v3; f_normal : v3; f_area : Q }.
(** 572-589. *)
Definition normalOfQuadrilateral3D (p0 p1 p2 p3 : v3) : v3 := scale3 (cross3 (sub3 p2 p0) (sub3 p3 p1)) (1 # 2).
(** 601-642: getFaceIndices; left and right face of an edge. *)
Definition faceIndices (s : shape) (k : nat) : nat * nat :=
  let pick l r := (nth k l 0, nth k r 0)%nat in
  match s with
  | Tetrahedron => pick [1; 0; 3; 2; 1; 3] [0; 2; 0; 1; 3; 2]
  | Pyramid => pick [1; 2; 3; 4; 1; 3; 4; 2] [0; 0; 0; 0; 3; 2; 1; 4]
  | Prism => pick [1; 0; 2; 0; 1; 2; 4; 4; 4] [0; 2; 1; 3; 3; 3; 0; 1; 2]
  | _ => pick [0; 2; 3; 1; 4; 1; 2; 4; 0; 5; 5; 3] [2; 1; 0; 3; 0; 4; 4; 3; 5; 1; 2; 5]
  end%nat.
(** Dividing by the length. *)
Definition withArea (norm : Q -> Q) (i j : nat) (l g v : v3) : face :=
  let area := norm (dot3 v v) in mkFace i j l g (scale3 v (/ area)) area.
(** 901-957: the face between the sub-control volumes of the vertices of an edge. *)
Definition interiorFace (norm : Q -> Q) (s : shape) (P : nat -> v3) (k : nat) : face :=
  let e := nth k (refEdges s) (0, 0)%nat in
  let '(i, j) := if (length (refEdges s) =? 4)%nat && ((fst e =? 2)%nat || (snd e =? 2)%nat) then (snd e, fst e) else e in
  match dim s with
  | 1%nat => let l := mk3 (1 # 2) 0 0 in mkFace i j l (global s P l) (mk3 1 0 0) 1
  | 2%nat =>
      let l := scale3 (add3 (refPos s (edgeVerts s k)) (elementLocal s)) (1 # 2) in
      let d := sub3 (elementGlobal s P) (edgeCoord s P k) in
      let n := mk3 (py d) (- px d) 0 in
      let n := if Qlt_le_dec (dot3 n (sub3 (corner s P j) (corner s P i))) 0 then scale3 n (- (1)) else n in
      withArea norm i j l (global s P l) n
  | _ =>
      let '(lft, rgt) := faceIndices s k in
      let l := scale3 (add3 (add3 (add3 (refPos s (edgeVerts s k)) (elementLocal s)) (refPos s (faceVerts s lft)))
                            (refPos s (faceVerts s rgt))) (1 # 4) in
      withArea norm i j l (global s P l)
        (normalOfQuadrilateral3D (edgeCoord s P k) (faceCoord s P rgt) (elementGlobal s P) (faceCoord s P lft))
  end.

(** 644-700: getEdgeIndices; left and right edge of a face at one of its vertices; 99 stands for -1. *)
Definition edgeIndices (s : shape) (f v : nat) : nat * nat :=
  let N := 99%nat in
  let pick l r := (nth v (nth f l []) N, nth v (nth f r []) N) in
  match s with
  | Tetrahedron =>
      pick [[0; 0; 2; N]; [0; 0; N; 3]; [1; N; 1; 3]; [N; 2; 2; 4]]
           [[1; 2; 1; N]; [3; 4; N; 4]; [3; N; 5; 5]; [N; 4; 5; 5]]
  | Pyramid =>
      pick [[0; 2; 3; 1; N]; [0; N; 0; N; 4]; [N; 1; N; 1; 5]; [2; 2; N; N; 4]; [N; N; 3; 3; 7]]
           [[2; 1; 0; 3; N]; [4; N; 6; N; 6]; [N; 5; N; 7; 7]; [4; 5; N; N; 5]; [N; N; 6; 7; 6]]
  | Prism =>
      pick [[3; 3; N; 0; 1; N]; [4; N; 4; 0; N; 2]; [N; 5; 5; N; 1; 2]; [3; 3; 5; N; N; N]; [N; N; N; 6; 6; 8]]
           [[0; 1; N; 6; 6; N]; [0; N; 2; 7; N; 7]; [N; 1; 2; N; 8; 8]; [4; 5; 4; N; N; N]; [N; N; N; 7; 8; 7]]
  | _ =>
      pick [[0; N; 4; N; 8; N; 2; N]; [N; 5; N; 3; N; 1; N; 9]; [6; 1; N; N; 0; 10; N; N];
            [N; N; 2; 7; N; N; 11; 3]; [4; 6; 7; 5; N; N; N; N]; [N; N; N; N; 10; 9; 8; 11]]
           [[4; N; 2; N; 0; N; 8; N]; [N; 1; N; 5; N; 9; N; 3]; [0; 6; N; N; 10; 1; N; N];
            [N; N; 7; 3; N; N; 2; 11]; [6; 5; 4; 7; N; N; N; N]; [N; N; N; N; 8; 10; 11; 9]]
  end%nat.
(** What the grid tells of an intersection: the face of the element, whether it is on the boundary, its volume and its
    unit outer normal. *)
Record intersection := mkIs { is_face : nat; is_boundary : bool; is_volume : Q; is_normal : v3 }.
(** 959-1012: the boundary face at a vertex of an intersection. *)
Definition boundaryFace (norm : Q -> Q) (s : shape) (P : nat -> v3) (it : intersection) (v : nat) : face :=
  let f := is_face it in
  let l := match dim s with
    | 1%nat => refPos s [v]
    | 2%nat => scale3 (add3 (refPos s [v]) (refPos s (faceVerts s f))) (1 # 2)
    | _ => let '(lft, rgt) := edgeIndices s f v in
        scale3 (add3 (add3 (add3 (refPos s [v]) (refPos s (faceVerts s f))) (refPos s (edgeVerts s lft)))
                     (refPos s (edgeVerts s rgt))) (1 # 4)
    end in
  let area := match dim s with
    | 1%nat => 1
    | 2%nat => (1 # 2) * is_volume it
    | _ => let '(lft, rgt) := edgeIndices s f v in
        let n := normalOfQuadrilateral3D (corner s P v) (edgeCoord s P rgt) (faceCoord s P f) (edgeCoord s P lft) in
        norm (dot3 n n)
    end in
  mkFace v v l (global s P l) (is_normal it) area.
Definition boundaryFaces (norm : Q -> Q) (s : shape) (P : nat -> v3) (its : list intersection) : list face :=
  flat_map (fun it => if is_boundary it then map (boundaryFace norm s P it) (faceVerts s (is_face it)) else []) its.

(** ** Geometries of the sub-control volumes *)
(** 67-440: the corners in local coordinates. *)
Definition h : Q := 1 # 2.
Definition t : Q := 1 # 3.
Definition q4 : Q := 1 # 4.
Definition scvCorners (s : shape) (v : nat) : list v3 :=
  match s, v with
  | Line, 0 => [mk3 0 0 0; mk3 h 0 0]
  | Line, _ => [mk3 h 0 0; mk3 1 0 0]
  | Triangle, 0 => [mk3 0 0 0; mk3 h 0 0; mk3 t t 0; mk3 0 h 0]
  | Triangle, 1 => [mk3 h 0 0; mk3 1 0 0; mk3 t t 0; mk3 h h 0]
  | Triangle, _ => [mk3 0 h 0; mk3 t t 0; mk3 0 1 0; mk3 h h 0]
  | Quadrilateral, 0 => [mk3 0 0 0; mk3 h 0 0; mk3 0 h 0; mk3 h h 0]
  | Quadrilateral, 1 => [mk3 h 0 0; mk3 1 0 0; mk3 h h 0; mk3 1 h 0]
  | Quadrilateral, 2 => [mk3 0 h 0; mk3 h h 0; mk3 0 1 0; mk3 h 1 0]
  | Quadrilateral, _ => [mk3 h h 0; mk3 1 h 0; mk3 h 1 0; mk3 1 1 0]
  | Tetrahedron, 0 => [mk3 0 0 0; mk3 h 0 0; mk3 0 h 0; mk3 t t 0; mk3 0 0 h; mk3 t 0 t; mk3 0 t t; mk3 q4 q4 q4]
  | Tetrahedron, 1 => [mk3 h 0 0; mk3 1 0 0; mk3 t t 0; mk3 h h 0; mk3 t 0 t; mk3 h 0 h; mk3 q4 q4 q4; mk3 t t t]
  | Tetrahedron, 2 => [mk3 0 h 0; mk3 t t 0; mk3 0 1 0; mk3 h h 0; mk3 0 t t; mk3 q4 q4 q4; mk3 0 h h; mk3 t t t]
  | Tetrahedron, _ => [mk3 0 0 h; mk3 t 0 t; mk3 0 t t; mk3 q4 q4 q4; mk3 0 0 1; mk3 h 0 h; mk3 0 h h; mk3 t t t]
  | Hexahedron, 0 => [mk3 0 0 0; mk3 h 0 0; mk3 0 h 0; mk3 h h 0; mk3 0 0 h; mk3 h 0 h; mk3 0 h h; mk3 h h h]
  | Hexahedron, 1 => [mk3 h 0 0; mk3 1 0 0; mk3 h h 0; mk3 1 h 0; mk3 h 0 h; mk3 1 0 h; mk3 h h h; mk3 1 h h]
  | Hexahedron, 2 => [mk3 0 h 0; mk3 h h 0; mk3 0 1 0; mk3 h 1 0; mk3 0 h h; mk3 h h h; mk3 0 1 h; mk3 h 1 h]
  | Hexahedron, 3 => [mk3 h h 0; mk3 1 h 0; mk3 h 1 0; mk3 1 1 0; mk3 h h h; mk3 1 h h; mk3 h 1 h; mk3 1 1 h]
  | Hexahedron, 4 => [mk3 0 0 h; mk3 h 0 h; mk3 0 h h; mk3 h h h; mk3 0 0 1; mk3 h 0 1; mk3 0 h 1; mk3 h h 1]
  | Hexahedron, 5 => [mk3 h 0 h; mk3 1 0 h; mk3 h h h; mk3 1 h h; mk3 h 0 1; mk3 1 0 1; mk3 h h 1; mk3 1 h 1]
  | Hexahedron, 6 => [mk3 0 h h; mk3 h h h; mk3 0 1 h; mk3 h 1 h; mk3 0 h 1; mk3 h h 1; mk3 0 1 1; mk3 h 1 1]
  | Hexahedron, _ => [mk3 h h h; mk3 1 h h; mk3 h 1 h; mk3 1 1 h; mk3 h h 1; mk3 1 h 1; mk3 h 1 1; mk3 1 1 1]
  | _, _ => []
  end%nat.
(** quadraturegeometries.hh 51-66: setCorners, the centre. *)
Definition quadCenter (c : list v3) : v3 :=
  scale3 (fold_left add3 c zero3) (1 / inject_Z (Z.of_nat (length c))).
(** 133-146: cornerWeight; 76-86: global. *)
Definition cornerWeight (d : nat) (l : v3) (v : nat) : Q :=
  fold_left (fun w j => w * bit v j (match j with O => px l | 1%nat => py l | _ => pz l end)) (seq 0 d) 1.
Definition quadGlobal (d : nat) (c : list v3) (l : v3) : v3 :=
  fold_left (fun a v => add3 a (scale3 (nth v c zero3) (cornerWeight d l v))) (seq 0 (2 ^ d)) zero3.
(** 91-112: jacobian; row [k] holds the derivatives with regard to the local coordinate [k]. *)
Definition quadJacobian (d : nat) (c : list v3) (l : v3) (k : nat) : v3 :=
  fold_left (fun a v =>
    let w := fold_left (fun w j => if (j =? k)%nat then w else w * bit v j (match j with O => px l | 1%nat => py l | _ => pz l end))
               (seq 0 d) (if Nat.testbit v k then 1 else - (1)) in
    add3 a (scale3 (nth v c zero3) w)) (seq 0 (2 ^ d)) zero3.
(** 119-124: integrationElement; the determinant of a matrix of the rows [r]. *)
Definition determinant (d : nat) (r : nat -> v3) : Q :=
  match d with
  | 1%nat => px (r 0%nat)
  | 2%nat => px (r 0%nat) * py (r 1%nat) - py (r 0%nat) * px (r 1%nat)
  | _ => dot3 (r 0%nat) (cross3 (r 1%nat) (r 2%nat))
  end.
Definition integrationElement (d : nat) (c : list v3) (l : v3) : Q := determinant d (quadJacobian d c l).

(** 1014-1038: updateScvGeometry; and 863-1016: update as a whole: the volumes of the sub-control volumes, the interior
    and the boundary faces and the local geometries, or an exception. *)
Record stencil := mkStencil { st_volume : nat -> Q; st_faces : list face; st_boundary : list face; st_geometry : nat -> list v3 }.
Definition update (norm : Q -> Q) (s : shape) (P : nat -> v3) (V : Q) (its : list intersection) : option stencil :=
  match s with
  | Pyramid | Prism => None
  | _ => Some (mkStencil (scvVolume s P V) (map (interiorFace norm s P) (seq 0 (length (refEdges s))))
                 (boundaryFaces norm s P its) (scvCorners s))
  end.

(** ** Gradients at the centres *)
(** 1041-1060: updateCenterGradients for quadrilaterals in the plane: the gradients of the shape functions in local
    coordinates and the inverse transposed Jacobian (Dune: jacobianInverseTransposed of a local position). *)
Definition localGradient (v : nat) (l : v3) : v3 :=
  let s k := if Nat.testbit v k then 1 else - (1) in
  mk3 (s 0%nat * bit v 1 (py l)) (s 1%nat * bit v 0 (px l)) 0.
Definition jacRow (P : nat -> v3) (l : v3) (k : nat) : v3 :=
  fold_left (fun a v => add3 a (scale3 (P v) (match k with O => px | _ => py end (localGradient v l)))) (seq 0 4) zero3.
Definition jacInvT (P : nat -> v3) (l g : v3) : v3 :=
  let a := jacRow P l 0 in let b := jacRow P l 1 in
  let det := px a * py b - py a * px b in
  mk3 ((py b * px g - py a * py g) / det) ((px a * py g - px b * px g) / det) 0.
Definition centerGradient (P : nat -> v3) (scv vert : nat) : v3 :=
  let localCenter := quadCenter (scvCorners Quadrilateral scv) in
  let globalPos := global Quadrilateral P localCenter in
  jacInvT P globalPos (localGradient vert localCenter).
