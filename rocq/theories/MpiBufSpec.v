(** Vocabulary of property C60. *)
From Verif Require Import MpiBufModel.

Definition no_copies (l : list op) : Prop := forall i, ~ In (Copy i) l.
Definition all_gone (w : world) : Prop := forall b, In b (buffers w) -> b_alive b = false.

(** Every block that was ever allocated was freed exactly once. *)
Definition freed_once (w : world) : Prop := NoDup (freed w) /\ forall b, In b (freed w) <-> (b < blocks w)%nat.
