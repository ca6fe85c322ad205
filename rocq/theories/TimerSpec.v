(** Vocabulary of property C54. *)
From Verif Require Import TimerModel.

(** Whether the timer is running after these calls. *)
Fixpoint active (h : history) : bool :=
  match h with
  | [] => false
  | (_, Start) :: _ => true
  | (_, Stop) :: _ | (_, Halt) :: _ => false
  | (_, Reset) :: h | (_, Plus _ _) :: h => active h
  end.

(** The time the timer should show: all the time it was running since the last time it was
    set to zero, and what was added to it.  [clock] picks one of the two clocks, [added] what
    was added. *)
Fixpoint active_time (clock : reading -> Q) (added : Q -> Q -> Q) (h : history) (now : Q) : Q :=
  match h with
  | [] => 0
  | (t, o) :: r =>
      (if active h then now - clock t else 0) +
      match o with
      | Halt | Reset => 0
      | Start | Stop => active_time clock added r (clock t)
      | Plus x y => active_time clock added r (clock t) + added x y
      end
  end.

(** Start is not called while the timer is running. *)
Fixpoint no_restart (h : history) : Prop :=
  match h with
  | [] => True
  | (_, Start) :: h => active h = false /\ no_restart h
  | _ :: h => no_restart h
  end.

(** The clock never goes back. *)
Fixpoint forward (clock : reading -> Q) (h : history) (now : Q) : Prop :=
  match h with
  | [] => True
  | (t, _) :: h => clock t <= now /\ forward clock h (clock t)
  end.
