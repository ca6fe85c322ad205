(** * Vocabulary for the properties of the prefetch friendly grid vector *)
From Coq Require Import List Arith.
From Verif Require Import PffModel.
Import ListNotations.

(** The mapper numbers the elements of the grid. *)
Definition numbered (es : list element) : Prop :=
  NoDup (map el_idx es) /\ forall e, In e es -> el_idx e < length es.
(** The block of an object exists and is as large as its capacity says or smaller; new blocks are new. *)
Definition valid (D : Type) (h : heap D) (o : object) : Prop :=
  (forall b, h_next D h <= b -> h_block D h b = None) /\
  match o_block o with
  | None => o_cap o = 0
  | Some b => exists c, h_block D h b = Some c
  end.
(** What two objects of the same heap share. *)
Definition apart (o o' : object) : Prop := forall b, o_block o = Some b -> o_block o' <> Some b.
(** All pointers of the object are into its own data. *)
Definition own (o : object) : Prop :=
  forall i b a, nth_error (o_ptr o) i = Some (Some (b, a)) -> o_block o = Some b.
(** The vector holds, for each element and each of its degrees of freedom, something the
    distribution function has made for it. *)
Definition distributed (D : Type) (dist : nat -> nat -> D -> D) (h : heap D) (o : object) (es : list element) : Prop :=
  forall e k, In e es -> k < el_dofs e -> exists was, get D h o (el_idx e) k = Some (dist (el_idx e) k was).
