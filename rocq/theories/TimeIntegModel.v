(** Model of the time integration with retries and of the choice of the next step size:
    opm/models/discretization/common/fvbaseproblem.hh.  Exact rational arithmetic. *)
From Coq Require Export List Bool ZArith QArith Qminmax Lia.
Export ListNotations.
Open Scope Q_scope.

Definition Qltb (a b : Q) : bool := negb (Qle_bool b a).

(** How [timeIntegration] ended. *)
Inductive result := Converged | Continued | Raised.

(** [FvBaseProblem::timeIntegration], fvbaseproblem.hh:512-557.
    [solver tried dt]: does [model().update()] converge, given the sizes tried before
    (latest first) and the present one.  The result carries the sizes tried (latest
    first) and the size left in the simulator. *)
Section TimeInt.
  Variables (maxFails : nat) (minDt : Q) (continueOnError : bool).
  Variable solver : list Q -> Q -> bool.

  (** The loop, :518-548; [n] is the number of rounds left. *)
  Fixpoint attempts (n : nat) (tried : list Q) (dt : Q) : result * list Q * Q :=
    match n with
    | O => (Raised, tried, dt)                                              (* :550-556 *)
    | S n =>
        if solver tried dt then (Converged, dt :: tried, dt)                  (* :519-521 *)
        else
          let nextDt := dt / 2 in                                         (* :524 *)
          if Qltb dt (minDt * (1 + (1 # 1000000000))) then                 (* :525 *)
            if continueOnError then (Continued, dt :: tried, dt)              (* :526-532 *)
            else (Raised, dt :: tried, dt)                                    (* :533-538 *)
          else
            let nextDt := if Qltb nextDt minDt then minDt else nextDt in  (* :540-541 *)
            attempts n (dt :: tried) nextDt                                   (* :542 *)
    end.

  Definition timeIntegration (dt : Q) : result * list Q * Q := attempts maxFails [] dt.
End TimeInt.

(** [FvBaseProblem::nextTimeStepSize], fvbaseproblem.hh:591-606.  [imposed] is the value
    of setNextTimeStepSize (:583), [suggested] that of the Newton method, [maxDt] the
    parameter MaxTimeStepSize and [simMax] the simulator's maxTimeStepSize(). *)
Definition nextTimeStepSize (imposed maxDt suggested simMax : Q) : Q :=
  if Qltb 0 imposed then imposed
  else
    let dtNext := Qmin maxDt suggested in
    if Qltb dtNext simMax && Qltb simMax (dtNext * 2) then simMax / 2 * (101 # 100) else dtNext.

(** [FvBaseProblem::shouldWriteRestartFile], fvbaseproblem.hh:616-620. *)
Definition shouldWriteRestartFile (idx : Z) : bool := (0 <? idx)%Z && (Z.rem idx 10 =? 0)%Z.
