(** The stencil of the element centered finite volume method
    (opm/models/discretization/ecfv/ecfvstencil.hh).

    Simplifications.  Elements are numbers, the position of an element in the iteration over
    the grid view; the element mapper is a function of it.  An intersection is a record with
    the element on the other side, if there is one, its area and its face number; normals and
    integration points are left out (they are copied from the intersection just like the
    area). *)
From Coq Require Import List ZArith QArith.
Import ListNotations.

(** What the grid tells about an intersection of an element. *)
Record intersection := mkIntersection {
  outside : option nat;     (* neighbor() and outside() *)
  interArea : Q;            (* geometry().volume() *)
  indexInInside : Z         (* -1 for connections of non-neighbours *)
}.

(** [EcfvSubControlVolumeFace] (ecfvstencil.hh:141-238). *)
Record face := mkFace { exteriorIdx : Z; area : Q; dirId : Z }.

(** The constructor (ecfvstencil.hh:148-165): the local index is converted to an
    [unsigned short]. *)
Definition newFace (i : intersection) (localNeighborIdx : Z) : face :=
  mkFace (localNeighborIdx mod 65536) (interArea i) (indexInInside i).

(** [interiorIndex()] (ecfvstencil.hh:171-179). *)
Definition interiorIndex (f : face) : Z := 0.

(** The members of the stencil (ecfvstencil.hh:419-424). *)
Record stencil := mkStencil {
  elements : list nat;
  subControlVolumes : list nat;
  interiorFaces : list face;
  boundaryFaces : list face
}.

Definition emptyStencil : stencil := mkStencil [] [] [] [].

(** One turn of the loop of [updateTopology] (ecfvstencil.hh:266-280).  The number -10000 is
    an [unsigned] argument: it arrives as 2^32 - 10000. *)
Definition addIntersection (s : stencil) (i : intersection) : stencil :=
  match outside i with
  | Some o =>
      let scvs := subControlVolumes s ++ [o] in
      mkStencil (elements s ++ [o]) scvs
                (interiorFaces s ++ [newFace i (Z.of_nat (length scvs) - 1)])
                (boundaryFaces s)
  | None =>
      mkStencil (elements s) (subControlVolumes s) (interiorFaces s)
                (boundaryFaces s ++ [newFace i (2 ^ 32 - 10000)])
  end.

Section Grid.
(** The intersections of an element in the order of the grid's iterator. *)
Variable intersections : nat -> list intersection.
Variable mapper : nat -> nat.

(** [updateTopology] (ecfvstencil.hh:251-281). *)
Definition updateTopology (e : nat) (s : stencil) : stencil :=
  fold_left addIntersection (intersections e) (mkStencil [e] [e] [] []).

(** [updatePrimaryTopology] (ecfvstencil.hh:283-290): the faces are not touched. *)
Definition updatePrimaryTopology (e : nat) (s : stencil) : stencil :=
  mkStencil [e] [e] (interiorFaces s) (boundaryFaces s).

(** [update] (ecfvstencil.hh:292-295). *)
Definition update := updateTopology.

(** [numDof], [numPrimaryDof], [numInteriorFaces], [numBoundaryFaces]
    (ecfvstencil.hh:318-330, 393-409). *)
Definition numDof (s : stencil) : nat := length (subControlVolumes s).
Definition numPrimaryDof (s : stencil) : nat := 1.
Definition numInteriorFaces (s : stencil) : nat := length (interiorFaces s).
Definition numBoundaryFaces (s : stencil) : nat := length (boundaryFaces s).

(** [element(dofIdx)], [globalSpaceIndex(dofIdx)], [interiorFace], [boundaryFace]
    (ecfvstencil.hh:336-341, 356-361, 399-418); [None] is an access behind the end. *)
Definition element (s : stencil) (d : nat) : option nat := nth_error (elements s) d.
Definition globalSpaceIndex (s : stencil) (d : nat) : option nat :=
  option_map mapper (element s d).
Definition interiorFace (s : stencil) (k : nat) : option face := nth_error (interiorFaces s) k.
Definition boundaryFace (s : stencil) (k : nat) : option face := nth_error (boundaryFaces s) k.

(** The calls a user can make on a stencil. *)
Inductive call := Update (e : nat) | UpdatePrimary (e : nat).
Definition perform (s : stencil) (c : call) : stencil :=
  match c with Update e => update e s | UpdatePrimary e => updatePrimaryTopology e s end.
Definition history (cs : list call) : stencil := fold_left perform cs emptyStencil.
End Grid.
