(** Vocabulary of property C55. *)
From Verif Require Import GuardModel.

(** Number of times something occurs in a list. *)
Definition times (a : nat) (l : list nat) : nat := count_occ Nat.eq_dec l a.

(** How many guards were made directly (not by a move) for an action. *)
Definition made (a : nat) (l : list op) : nat :=
  length (filter (fun o => match o with Make b => Nat.eqb a b | _ => false end) l).

Definition never_disabled (l : list op) : Prop := forall i b, ~ In (SetEnabled i b) l.

(** A guard is never enabled again after it was disabled or moved from. *)
Definition never_enabled_again (l : list op) : Prop := forall i, ~ In (SetEnabled i true) l.

Definition all_gone (w : world) : Prop := forall g, In g (guards w) -> g_alive g = false.
