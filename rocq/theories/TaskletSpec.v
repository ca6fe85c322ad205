(** Vocabulary for the statements about [TaskletRunner]. Only the observable
    history of a run is used: starts and ends of invocations, returns from
    barriers. Histories are stored newest event first. *)
From Verif Require Import TaskletModel.

(** Number of invocations of tasklet [t] that started / ended in a history. *)
Fixpoint starts (t : nat) (h : list event) : nat :=
  match h with
  | [] => 0
  | EvStart t' :: r => (if Nat.eqb t t' then 1 else 0) + starts t r
  | _ :: r => starts t r
  end.
Fixpoint ends (t : nat) (h : list event) : nat :=
  match h with
  | [] => 0
  | EvEnd t' _ :: r => (if Nat.eqb t t' then 1 else 0) + ends t r
  | _ :: r => ends t r
  end.

(** Some invocation threw an exception. *)
Definition some_threw (h : list event) : Prop := exists t, In (EvEnd t true) h.

(** [s] can be reached from the freshly constructed runner by some schedule. *)
Definition reachable (N : nat) (P : list op) (s : st) : Prop :=
  exists ls, run N P ls (init N) = Some s.

(** Programs whose invocation counts are all at least one. *)
Definition positive (P : list op) : Prop :=
  forall n, In (Dispatch n) P -> (1 <= n)%Z.

(** The runner has been destroyed and the destructor returned. *)
Definition destroyed (s : st) : Prop := main s = MEnd.

Definition is_spurious (l : label) : bool := match l with LSpurious _ => true | _ => false end.
Definition count_spurious (ls : list label) : nat := length (filter is_spurious ls).
