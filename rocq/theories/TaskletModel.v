(** Model of [TaskletRunner], opm/models/parallel/tasklets.hh.

    Granularity: one step per lock acquisition, per critical section that ends
    with the release of the mutex, per notification, per tasklet execution.
    Sleeping in a condition variable is explicit: a sleeping thread takes part
    again only after a notification (or a spurious wake-up, which is a separate
    label), so lost wake-ups would show up as deadlocks.

    Simplifications:
    - only the main thread dispatches tasklets; it runs a finite program of
      dispatches and barriers and then destroys the runner;
    - the body of a tasklet always returns or throws; which of both happens is
      chosen by the label of the step, i.e. all patterns are covered;
    - the store to [failureFlag_] in the catch block and the end of the
      invocation are one step;
    - reference counts are unbounded integers (C++: [int]). *)
From Coq Require Export List Arith ZArith Lia Bool.
Export ListNotations.

(** Operations of the user of the runner: dispatch of a tasklet with a given
    number of invocations (tasklets.hh:267-273, 230-261) and barrier
    (tasklets.hh:278-290). *)
Inductive op := Dispatch (n : Z) | Barrier.

(** Kinds of tasklets: ordinary ones (71-84), barrier tasklets (114-151), the
    end marker (155-163). *)
Inductive kind := KTask | KBar | KEnd.

(** A queue entry: shared pointer to a tasklet with its reference count
    (46-64). The tasklet is identified by the index of the operation that
    dispatched it. *)
Record item := { it_id : nat; it_kind : kind; it_rc : Z }.

(** Observable history. [EvStart]/[EvEnd]: an invocation of the tasklet has been
    taken from the queue for execution / is over, the flag tells if it threw.
    [EvReturn b]: the main thread returned from the barrier operation [b]. *)
Inductive event := EvStart (t : nat) | EvEnd (t : nat) (threw : bool) | EvReturn (b : nat).

(** Control states of a worker in [run_] (313-360). *)
Inductive wstate :=
| WIdle                 (* top of loop / woken up, wants the mutex: 319, 326 *)
| WHold                 (* owns the mutex, about to evaluate the predicate: 325-345 *)
| WSleep                (* in workAvailableCondition_.wait: 326 *)
| WRun (t : nat)        (* executes an ordinary tasklet: 349 *)
| WBar (b : nat)        (* executes a barrier tasklet, before line 129 *)
| WBarSleep (b : nat)   (* in barrierCondition_.wait: 141 *)
| WBarWake (b : nat)    (* notified, re-evaluates the predicate: 141 *)
| WBarNotify (b : nat)  (* was last, before notify_all: 134 *)
| WTermU                (* after line 336, before the destructor of [lock] *)
| WDone.

(** Control states of the main thread. *)
Inductive mstate :=
| MAt (pc : nat)        (* about to execute operation pc; pc = #ops: destructor *)
| MLocked (pc : nat)    (* dispatch, after line 252 *)
| MNotify (pc : nat)    (* dispatch, after line 257, before notify_all *)
| MBar (pc : nat)       (* barrier, before wait: 289 *)
| MBarSleep (pc : nat)
| MBarWake (pc : nat)
| MBarNotify (pc : nat)
| MJoin                 (* destructor, joining threads: 197-198 *)
| MEnd.

Inductive owner := OMain | OWorker (i : nat).

Record st := {
  main : mstate;
  queue : list item;               (* taskletQueue_, front first *)
  qowner : option owner;           (* owner of taskletQueueMutex_ *)
  workers : list wstate;           (* threads_ *)
  nwait : nat -> nat;              (* numWaiting_ of the barrier tasklet of an operation *)
  hist : list event;               (* newest first *)
  failflag : bool;                 (* failureFlag_ *)
  ub : bool;                       (* a mutex was unlocked by a thread not owning it *)
  crashed : bool }.                (* uncaught exception in a worker: std::terminate *)

Definition upd {A} (l : list A) (i : nat) (x : A) : list A :=
  firstn i l ++ match skipn i l with [] => [] | _ :: r => x :: r end.

Arguments upd : simpl never.

Definition owner_eqb (a b : owner) : bool :=
  match a, b with
  | OMain, OMain => true
  | OWorker i, OWorker j => Nat.eqb i j
  | _, _ => false
  end.

(** Releasing the queue mutex. If the caller does not own it this is undefined
    behaviour; it is recorded, and the mutex becomes free as with POSIX normal
    mutexes. *)
Definition release (o : owner) (s : st) : st :=
  {| main := main s; queue := queue s; qowner := None; workers := workers s;
     nwait := nwait s; hist := hist s; failflag := failflag s;
     ub := ub s || negb (match qowner s with Some o' => owner_eqb o o' | None => false end);
     crashed := crashed s |}.

Definition set_main (m : mstate) (s : st) : st :=
  {| main := m; queue := queue s; qowner := qowner s; workers := workers s;
     nwait := nwait s; hist := hist s; failflag := failflag s; ub := ub s; crashed := crashed s |}.
Definition set_queue (q : list item) (s : st) : st :=
  {| main := main s; queue := q; qowner := qowner s; workers := workers s;
     nwait := nwait s; hist := hist s; failflag := failflag s; ub := ub s; crashed := crashed s |}.
Definition set_owner (o : option owner) (s : st) : st :=
  {| main := main s; queue := queue s; qowner := o; workers := workers s;
     nwait := nwait s; hist := hist s; failflag := failflag s; ub := ub s; crashed := crashed s |}.
Definition set_workers (w : list wstate) (s : st) : st :=
  {| main := main s; queue := queue s; qowner := qowner s; workers := w;
     nwait := nwait s; hist := hist s; failflag := failflag s; ub := ub s; crashed := crashed s |}.
Definition set_worker (i : nat) (x : wstate) (s : st) : st := set_workers (upd (workers s) i x) s.
Definition set_nwait (f : nat -> nat) (s : st) : st :=
  {| main := main s; queue := queue s; qowner := qowner s; workers := workers s;
     nwait := f; hist := hist s; failflag := failflag s; ub := ub s; crashed := crashed s |}.
Definition log (e : event) (s : st) : st :=
  {| main := main s; queue := queue s; qowner := qowner s; workers := workers s;
     nwait := nwait s; hist := e :: hist s; failflag := failflag s; ub := ub s; crashed := crashed s |}.
Definition set_fail (b : bool) (s : st) : st :=
  {| main := main s; queue := queue s; qowner := qowner s; workers := workers s;
     nwait := nwait s; hist := hist s; failflag := b; ub := ub s; crashed := crashed s |}.
Definition set_crashed (s : st) : st :=
  {| main := main s; queue := queue s; qowner := qowner s; workers := workers s;
     nwait := nwait s; hist := hist s; failflag := failflag s; ub := ub s; crashed := true |}.

Definition incr (f : nat -> nat) (b : nat) : nat -> nat :=
  fun x => if Nat.eqb x b then S (f x) else f x.

(** [workAvailableCondition_.notify_all()] (259). *)
Definition wake_queue (w : wstate) : wstate :=
  match w with WSleep => WIdle | _ => w end.

(** [barrierCondition_.notify_all()] (134) of barrier [b]. *)
Definition wake_bar (b : nat) (w : wstate) : wstate :=
  match w with WBarSleep b' => if Nat.eqb b b' then WBarWake b' else w | _ => w end.
Definition wake_bar_main (b : nat) (m : mstate) : mstate :=
  match m with MBarSleep b' => if Nat.eqb b b' then MBarWake b' else m | _ => m end.
Definition notify_bar (b : nat) (s : st) : st :=
  set_main (wake_bar_main b (main s)) (set_workers (map (wake_bar b) (workers s)) s).

Section Runner.
  Variable N : nat.              (* number of worker threads *)
  Variable P : list op.          (* program of the main thread *)

  (** The tasklet pushed by operation [pc]: 268-271, 286-287, 194. *)
  Definition mkitem (pc : nat) : item :=
    match nth_error P pc with
    | Some (Dispatch n) => {| it_id := pc; it_kind := KTask; it_rc := n |}
    | Some Barrier => {| it_id := pc; it_kind := KBar; it_rc := Z.of_nat N |}
    | None => {| it_id := pc; it_kind := KEnd; it_rc := 1 |}
    end.

  (** Synchronous dispatch (232-248): [bs] tells which invocations throw. The
      loop runs while the reference count is positive. *)
  Fixpoint sync_run (pc : nat) (k : nat) (bs : list bool) (s : st) : st :=
    match k with
    | O => s
    | S k' =>
        let b := hd false bs in
        let s1 := log (EvEnd pc b) (log (EvStart pc) s) in
        sync_run pc k' (tl bs) (set_fail (failflag s1 || b) s1)
    end.

  (** One step of the main thread; [None]: blocked or finished. *)
  Definition mstep (bs : list bool) (s : st) : option st :=
    match main s with
    | MAt pc =>
        if Nat.eqb N 0 then
          match nth_error P pc with
          | Some (Dispatch n) => Some (set_main (MAt (S pc)) (sync_run pc (Z.to_nat n) bs s))
          | Some Barrier => Some (set_main (MAt (S pc)) (log (EvReturn pc) s))  (* 281-283 *)
          | None => Some (set_main MEnd s)                                       (* 192 *)
          end
        else
          match qowner s with
          | None => Some (set_main (MLocked pc) (set_owner (Some OMain) s))      (* 252 *)
          | Some _ => None
          end
    | MLocked pc =>                                                              (* 255-257 *)
        Some (set_main (MNotify pc)
               (release OMain (set_queue (queue s ++ [mkitem pc]) s)))
    | MNotify pc =>                                                              (* 259 *)
        let s1 := set_workers (map wake_queue (workers s)) s in
        Some (set_main (match nth_error P pc with
                        | Some (Dispatch _) => MAt (S pc)
                        | Some Barrier => MBar pc
                        | None => MJoin
                        end) s1)
    | MBar pc =>                                                                 (* 129-142 *)
        let s1 := set_nwait (incr (nwait s) pc) s in
        if Nat.leb (N + 1) (nwait s1 pc) then Some (set_main (MBarNotify pc) s1)
        else Some (set_main (MBarSleep pc) s1)
    | MBarSleep _ => None
    | MBarWake pc =>                                                             (* 141 *)
        if Nat.leb (N + 1) (nwait s pc)
        then Some (set_main (MAt (S pc)) (log (EvReturn pc) s))
        else Some (set_main (MBarSleep pc) s)
    | MBarNotify pc =>                                                           (* 134 *)
        Some (set_main (MAt (S pc)) (log (EvReturn pc) (notify_bar pc s)))
    | MJoin =>                                                                   (* 197-198 *)
        if forallb (fun w => match w with WDone => true | _ => false end) (workers s)
        then Some (set_main MEnd s) else None
    | MEnd => None
    end.

  (** Critical section of a worker (325-345). *)
  Definition worker_critical (i : nat) (s : st) : st :=
    match queue s with
    | [] => release (OWorker i) (set_worker i WSleep s)                          (* 325-326 *)
    | x :: q =>
        match it_kind x with
        | KEnd =>                                                                (* 333-338 *)
            if Nat.ltb 1 (length (queue s)) then set_crashed s
            else release (OWorker i) (set_worker i WTermU s)
        | k =>                                                                   (* 340-345 *)
            let rc := (it_rc x - 1)%Z in
            let q' := if Z.eqb rc 0 then q
                      else {| it_id := it_id x; it_kind := it_kind x; it_rc := rc |} :: q in
            release (OWorker i)
              (log (EvStart (it_id x))
                 (set_worker i (match k with KBar => WBar (it_id x) | _ => WRun (it_id x) end)
                    (set_queue q' s)))
        end
    end.

  (** One step of worker [i]; [b]: the running tasklet throws. *)
  Definition wstep (i : nat) (b : bool) (s : st) : option st :=
    match nth_error (workers s) i with
    | None => None
    | Some w =>
        match w with
        | WIdle =>                                                               (* 319 *)
            match qowner s with
            | None => Some (set_worker i WHold (set_owner (Some (OWorker i)) s))
            | Some _ => None
            end
        | WHold => Some (worker_critical i s)
        | WSleep => None
        | WRun t =>                                                              (* 348-358 *)
            Some (set_worker i WIdle (set_fail (failflag s || b) (log (EvEnd t b) s)))
        | WBar t =>                                                              (* 129-142 *)
            let s1 := set_nwait (incr (nwait s) t) s in
            if Nat.leb (N + 1) (nwait s1 t) then Some (set_worker i (WBarNotify t) s1)
            else Some (set_worker i (WBarSleep t) s1)
        | WBarSleep _ => None
        | WBarWake t =>
            if Nat.leb (N + 1) (nwait s t)
            then Some (set_worker i WIdle (log (EvEnd t false) s))
            else Some (set_worker i (WBarSleep t) s)
        | WBarNotify t =>
            Some (set_worker i WIdle (log (EvEnd t false) (notify_bar t s)))
        | WTermU => Some (release (OWorker i) (set_worker i WDone s))            (* ~unique_lock *)
        | WDone => None
        end
    end.

  (** Spurious wake-up of a sleeping thread ([None]: main). *)
  Definition spurious (o : owner) (s : st) : option st :=
    match o with
    | OMain => match main s with
               | MBarSleep pc => Some (set_main (MBarWake pc) s)
               | _ => None
               end
    | OWorker i => match nth_error (workers s) i with
                   | Some WSleep => Some (set_worker i WIdle s)
                   | Some (WBarSleep t) => Some (set_worker i (WBarWake t) s)
                   | _ => None
                   end
    end.

  Inductive label := LMain (bs : list bool) | LWorker (i : nat) (b : bool) | LSpurious (o : owner).

  Definition step (l : label) (s : st) : option st :=
    if crashed s then None else
    match l with
    | LMain bs => mstep bs s
    | LWorker i b => wstep i b s
    | LSpurious o => spurious o s
    end.

  (** Constructor of the runner (175-181). *)
  Definition init : st :=
    {| main := MAt 0; queue := []; qowner := None; workers := repeat WIdle N;
       nwait := fun _ => 0%nat; hist := []; failflag := false; ub := false; crashed := false |}.

  Fixpoint run (ls : list label) (s : st) : option st :=
    match ls with
    | [] => Some s
    | l :: r => match step l s with Some s' => run r s' | None => None end
    end.
End Runner.
