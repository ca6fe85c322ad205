(** What the properties about the property system are stated with. *)
From Verif Require Import PropSysModel.
From Coq Require Export Wellfounded.

(** Inheritance. *)
Definition parent (E : tags) (p t : tag) : Prop := exists ps, parents E t = Some ps /\ In p ps.
Inductive inherits (E : tags) (t : tag) : tag -> Prop :=
  | i_self : inherits E t t
  | i_up u p : inherits E t u -> parent E p u -> inherits E t p.
(** Inheritance and splicing. *)
Definition above (E : tags) (p t : tag) : Prop := parent E p t \/ In p (splices E t).
Inductive sees (E : tags) (t : tag) : tag -> Prop :=
  | s_self : sees E t t
  | s_up u p : sees E t u -> above E p u -> sees E t p.

(** The tags of some hierarchies in depth-first order: a tag, then the hierarchies of its parents from left to right. *)
Inductive visits (E : tags) : list tag -> list tag -> Prop :=
  | v_nil : visits E [] []
  | v_cons t r a b : visits E (match parents E t with Some ps => ps | None => [] end) a -> visits E r b ->
      visits E (t :: r) (t :: a ++ b).

(** A tag which declares to inherit from nothing. *)
Definition emptyList (E : tags) (t : tag) : Prop := parents E t = Some [].
(** [x] is the last of the list. *)
Definition lastOf (x : tag) (l : list tag) : Prop := exists l', l = l' ++ [x].
(** The first of a list which has the property. *)
Definition firstOf (f : tag -> bool) (x : tag) (l : list tag) : Prop :=
  exists a b, l = a ++ x :: b /\ f x = true /\ Forall (fun y => f y = false) a.
(** The two environments agree about a tag. *)
Definition sameAt (E E' : tags) (t : tag) : Prop :=
  parents E t = parents E' t /\ definedFor E t = definedFor E' t /\ splices E t = splices E' t.
