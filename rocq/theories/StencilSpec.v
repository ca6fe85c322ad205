(** Vocabulary for the stencil: the intersections of a cell that have a neighbour, and those
    that do not. *)
From Coq Require Import List ZArith QArith.
Import ListNotations.
From Verif Require Import StencilModel.

Definition inner (i : intersection) : bool :=
  match outside i with Some _ => true | None => false end.

(** The intersections with a neighbour, and without, in the order of the grid. *)
Definition innerOf (l : list intersection) : list intersection := filter inner l.
Definition outerOf (l : list intersection) : list intersection :=
  filter (fun i => negb (inner i)) l.

(** The elements behind the intersections. *)
Definition behind (l : list intersection) : list nat :=
  flat_map (fun i => match outside i with Some o => [o] | None => [] end) l.

(** A face describes an intersection. *)
Definition describes (f : face) (i : intersection) : Prop :=
  area f = interArea i /\ dirId f = indexInInside i.
