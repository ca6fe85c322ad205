(** Model of opm/models/discretefracture/fracturemapper.hh. *)
From Coq Require Export List Bool Arith Lia.
Export ListNotations.

(** FractureEdge, fracturemapper.hh:44-62. *)
Record edge := mkEdge { e_i : nat; e_j : nat }.
Definition make_edge (a b : nat) : edge := mkEdge (Nat.min a b) (Nat.max a b).
Definition edge_lt (a b : edge) : bool :=
  (e_i a <? e_i b) || ((e_i a =? e_i b) && (e_j a <? e_j b)).

(** [std::set] with a comparison: a list in increasing order; [insert] does nothing if an
    equivalent element exists, [count] looks for an equivalent element. *)
Section Set_.
  Context {A : Type} (lt : A -> A -> bool).
  Fixpoint insert (x : A) (l : list A) : list A :=
    match l with
    | [] => [x]
    | y :: r => if lt x y then x :: l else if lt y x then y :: insert x r else l
    end.
  Fixpoint count (x : A) (l : list A) : bool :=
    match l with
    | [] => false
    | y :: r => if lt x y then false else if lt y x then count x r else true
    end.
End Set_.

(** The data members, fracturemapper.hh:102-103. *)
Record mapper := mkMapper { fractureEdges : list edge; fractureVertices : list nat }.
Definition new_mapper : mapper := mkMapper [] [].

(** addFractureEdge, fracturemapper.hh:74-79. *)
Definition addFractureEdge (a b : nat) (m : mapper) : mapper :=
  mkMapper (insert edge_lt (make_edge a b) (fractureEdges m))
           (insert Nat.ltb b (insert Nat.ltb a (fractureVertices m))).

(** isFractureVertex, fracturemapper.hh:86-87; isFractureEdge, :95-99. *)
Definition isFractureVertex (v : nat) (m : mapper) : bool := count Nat.ltb v (fractureVertices m).
Definition isFractureEdge (a b : nat) (m : mapper) : bool := count edge_lt (make_edge a b) (fractureEdges m).

(** The mapper after the given edges were added one after the other. *)
Definition add_all (l : list (nat * nat)) : mapper := fold_left (fun m e => addFractureEdge (fst e) (snd e) m) l new_mapper.
