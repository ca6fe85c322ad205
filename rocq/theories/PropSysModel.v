(** The property system: how the specialization of a property is found for a type tag
    (utils/propertysystem.hh).

    Type tags are numbers. A template instantiation is a call; [fuel] bounds the depth of the nested instantiations,
    [Deep] is what a compiler reports if they do not end. std::conditional_t is not lazy: the types for both cases are
    instantiated, whichever is chosen. Types and values inside a specialization are not modelled, nor are errors inside
    them. *)
From Coq Require Export List Arith Bool.
Export ListNotations.

Definition tag := nat.
(** Per tag: its InheritsFrom (None without that member, hasParentTypeTag, 61-69), whether the property is specialized
    for it with something else than UndefinedProperty (isDefinedProperty, 51-59), and Splices<TypeTag, tag>::type
    (42-46, the empty tuple by default). *)
Record tags := mkTags { parents : tag -> option (list tag); definedFor : tag -> bool; splices : tag -> list tag }.

(** The specialization of a tag; UndefinedProperty; an incomplete type (GetDefined of an empty tuple); endless. *)
Inductive found := Def (t : tag) | Undef | Bad | Deep.
(** propertysystem.hh 76-133: GetDefined and GetNextTypeTag, for one and for several tags. *)
Fixpoint getDefined (E : tags) (fuel : nat) (l : list tag) : found :=
  match fuel with
  | O => Deep
  | S n =>
      match l with
      | [] => Bad
      | t :: args =>
          let next := match parents E t, args with
                      | Some ps, _ => getDefined E n (ps ++ args)
                      | None, [] => Undef
                      | None, _ => getDefined E n args
                      end in
          match next with
          | Bad => Bad
          | Deep => Deep
          | _ => if definedFor E t then Def t else next
          end
      end
  end.

Inductive gathered := Tags (l : list tag) | BadSplice | DeepSplice.
(** propertysystem.hh 137-200: GetDefinedSplice and GetNextSpliceTypeTag. The splices of a tag are put behind the tags
    which are still to be visited; those of the only tag of a list are appended to the result, others are put in front. *)
Fixpoint getSplices (E : tags) (fuel : nat) (l : list tag) : gathered :=
  match fuel with
  | O => DeepSplice
  | S n =>
      match l with
      | [] => BadSplice
      | t :: args =>
          let s := splices E t in
          let next := match parents E t, args ++ s with
                      | Some ps, rest => getSplices E n (ps ++ rest)
                      | None, [] => Tags []
                      | None, rest => getSplices E n rest
                      end in
          match next with
          | Tags r => Tags (match s, args with
                            | [], _ => r
                            | _, [] => r ++ s
                            | _, _ => s ++ r
                            end)
          | other => other
          end
      end
  end.

(** What GetProp does: the specialization, or why the program does not compile. *)
Inductive property := Found (t : tag) | PropertyUndefined | IncompleteType | TooDeep.
(** propertysystem.hh 203-212: GetPropImpl with its static_assert. *)
Definition getProp (E : tags) (fuel : nat) (T : tag) : property :=
  match getSplices E fuel [T] with
  | BadSplice => IncompleteType
  | DeepSplice => TooDeep
  | Tags r => match getDefined E fuel (T :: r) with
              | Def t => Found t
              | Undef => PropertyUndefined
              | Bad => IncompleteType
              | Deep => TooDeep
              end
  end.
(** propertysystem.hh 214-219: GetSplicePropImpl. Its static_assert compares with the wrong type and never fails; taking
    ::type of UndefinedProperty fails instead. *)
Definition getSpliceProp (E : tags) (fuel : nat) (T spliceTag : tag) : property :=
  match getDefined E fuel [T; spliceTag] with
  | Def t => Found t | Undef => PropertyUndefined | Bad => IncompleteType | Deep => TooDeep
  end.
