(** Model of opm/models/utils/timer.hh and opm/models/utils/timerguard.hh.
    Durations are exact rationals; the two clocks may show anything at any time. *)
From Coq Require Export List Bool ZArith QArith Lia.
Export ListNotations.
Open Scope Q_scope.

(** TimeData, timer.hh:50-54: wall clock and processor time. *)
Record reading := mkReading { realtime : Q; cputime : Q }.

(** The data members, timer.hh:209-212. *)
Record timer := mkTimer { isStopped : bool; cpuAcc : Q; realAcc : Q; startTime : reading }.

(** Constructor and halt, timer.hh:56-57 and 96-101; [startTime_] is not set. *)
Definition halt (t : timer) : timer := mkTimer true 0 0 (startTime t).
Definition new_timer (garbage : reading) : timer := halt (mkTimer false 0 0 garbage).

(** start, timer.hh:62-66. *)
Definition start (now : reading) (t : timer) : timer := mkTimer false (cpuAcc t) (realAcc t) now.

(** stop, timer.hh:73-91. *)
Definition stop (now : reading) (t : timer) : timer :=
  if isStopped t then t
  else mkTimer true (cpuAcc t + (cputime now - cputime (startTime t)))
                    (realAcc t + (realtime now - realtime (startTime t))) (startTime t).

(** reset, timer.hh:106-112. *)
Definition reset (now : reading) (t : timer) : timer := mkTimer (isStopped t) 0 0 now.

(** realTimeElapsed and cpuTimeElapsed, timer.hh:118-157. *)
Definition realTimeElapsed (now : reading) (t : timer) : Q :=
  if isStopped t then realAcc t else realAcc t + (realtime now - realtime (startTime t)).
Definition cpuTimeElapsed (now : reading) (t : timer) : Q :=
  if isStopped t then cpuAcc t else cpuAcc t + (cputime now - cputime (startTime t)).

(** operator+=, timer.hh:185-191.  The two readings of the clock it makes are [now] and
    [now']. *)
Definition plus (now now' : reading) (other : timer) (t : timer) : timer :=
  mkTimer (isStopped t) (cpuAcc t + cpuTimeElapsed now' other) (realAcc t + realTimeElapsed now other) (startTime t).

(** Calls on one timer.  The argument of [Plus] is what the other timer shows. *)
Inductive op := Start | Stop | Halt | Reset | Plus (real cpu : Q).
Definition apply (now : reading) (o : op) (t : timer) : timer :=
  match o with
  | Start => start now t
  | Stop => stop now t
  | Halt => halt t
  | Reset => reset now t
  | Plus r c => mkTimer (isStopped t) (cpuAcc t + c) (realAcc t + r) (startTime t)
  end.

(** A history of calls, the latest first, each with the clock reading it makes. *)
Definition history := list (reading * op).
Fixpoint after (garbage : reading) (h : history) : timer :=
  match h with
  | [] => new_timer garbage
  | (now, o) :: h => apply now o (after garbage h)
  end.

(** TimerGuard, timerguard.hh:38-52: a scope makes some calls and is left, by an exception or
    otherwise, when the first [k] of them were made; then the destructor stops the timer. *)
Definition scope (body : history) (k : nat) (now : reading) (h : history) : history :=
  (now, Stop) :: rev (firstn k (rev body)) ++ h.
