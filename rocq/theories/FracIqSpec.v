(** * Vocabulary for the properties of the fracture quantities *)
From Coq Require Import QArith List Bool Arith.
From Verif Require Import FractureModel FracIqModel.
Import ListNotations.

Definition sumOver {A : Type} (l : list A) (f : A -> Q) : Q := fold_right (fun x s => f x + s) 0 l.

(** Each fracture edge once, with its smaller vertex first. *)
Definition edgesOf (es : list (nat * nat)) (m : mapper) : Prop :=
  NoDup es /\ (forall a b, In (a, b) es -> (a < b)%nat) /\
  forall a b, (a < b)%nat -> (In (a, b) es <-> isFractureEdge a b m = true).
(** Corners of an element are different and it measures the common distances. *)
Definition fits (len : nat -> nat -> Q) (x : elementCtx) : Prop :=
  NoDup (x_vertices x) /\
  forall v w, (v < length (x_vertices x))%nat -> (w < length (x_vertices x))%nat ->
    x_length x v w == len (globalIdx x v) (globalIdx x w).
Definition symmetric (f : nat -> nat -> Q) : Prop := forall a b, f a b == f b a.
Definition hasEdge (x : elementCtx) (e : nat * nat) : bool :=
  existsb (Nat.eqb (fst e)) (x_vertices x) && existsb (Nat.eqb (snd e)) (x_vertices x).
(** The elements next to an edge. *)
Definition elementsAt (grid : list elementCtx) (e : nat * nat) : nat := length (filter (fun x => hasEdge x e) grid).
Definition endOf (e : nat * nat) (a : nat) : bool := Nat.eqb (fst e) a || Nat.eqb (snd e) a.
(** The fracture volume in the whole grid, as the intensive quantities of all its sub-control volumes give it. *)
Definition gridFractureVolume (volume : elementCtx -> nat -> Q) (grid : list elementCtx) : Q :=
  sumOver grid (fun x => sumOver (seq 0 (length (x_vertices x))) (volume x)).
(** The fracture volume attributed to the control volume of a vertex. *)
Definition vertexFractureVolume (volume : elementCtx -> nat -> Q) (grid : list elementCtx) (a : nat) : Q :=
  sumOver grid (fun x => sumOver (seq 0 (length (x_vertices x))) (fun v => if Nat.eqb (globalIdx x v) a then volume x v else 0)).
