(** * The convergence writer of the Newton method

    Models opm/models/discretization/common/fvbasenewtonconvergencewriter.hh, the part of
    opm/models/io/vtkmultiwriter.hh it needs (one collection file with a label and a data set
    per write, synchronous) and the control flow of opm/models/nonlinear/newtonmethod.hh around
    it.  Vectors are of any type.  Errors of the file system are not modelled. *)
From Coq Require Import QArith List Bool Arith.
Import ListNotations.

Section ConvW.
Variable V : Type.

(** What is written for one label: the solution and the update; [d_complete] says whether all
    fields could be added. *)
Record dataset := mkDataset { d_label : Q; d_fields : option (V * V); d_complete : bool }.
(** The writer of the files: what is written and what is being collected
    (vtkmultiwriter.hh:179-196, 389-402). *)
Record multi := mkMulti { m_done : list dataset; m_open : option dataset }.
(** fvbasenewtonconvergencewriter.hh:151-154; no [w_multi] is the null pointer. *)
Record writer := mkWriter { w_step : nat; w_iter : nat; w_multi : option multi }.

(** fvbasenewtonconvergencewriter.hh:72-78. *)
Definition newWriter : writer := mkWriter 0 0 None.
(** fvbasenewtonconvergencewriter.hh:87-91. *)
Definition beginTimeStep (w : writer) : writer := mkWriter (S (w_step w)) 0 (w_multi w).
(** fvbasenewtonconvergencewriter.hh:97-107. *)
Definition beginIteration (w : writer) : writer :=
  let iter := S (w_iter w) in
  let mw := match w_multi w with Some mw => mw | None => mkMulti [] None end in
  let label := inject_Z (Z.of_nat (w_step w)) + inject_Z (Z.of_nat iter) / 100 in
  mkWriter (w_step w) iter (Some (mkMulti (m_done mw) (Some (mkDataset label None true)))).
(** fvbasenewtonconvergencewriter.hh:118-132; [ok]: no exception while fields are added; one is
    swallowed.  [None]: undefined behaviour. *)
Definition writeFields (x u : V) (ok : bool) (w : writer) : option writer :=
  match w_multi w with
  | Some (mkMulti ds (Some d)) => Some (mkWriter (w_step w) (w_iter w) (Some (mkMulti ds (Some (mkDataset (d_label d) (Some (x, u)) ok)))))
  | _ => None
  end.
(** fvbasenewtonconvergencewriter.hh:137-138. *)
Definition endIteration (w : writer) : option writer :=
  match w_multi w with
  | Some (mkMulti ds (Some d)) => Some (mkWriter (w_step w) (w_iter w) (Some (mkMulti (ds ++ [d]) None)))
  | _ => None
  end.
(** fvbasenewtonconvergencewriter.hh:147-148. *)
Definition endTimeStep (w : writer) : writer := mkWriter (w_step w) 0 (w_multi w).

(** NewtonWriteConvergence *)
Variable enabled : bool.
(** newtonmethod.hh:739-747. *)
Definition writeConvergence (x u : V) (ok : bool) (w : writer) : option writer :=
  if enabled then
    match writeFields x u ok (beginIteration w) with
    | Some w => endIteration w
    | None => None
    end
  else Some w.

(** What an iteration of newtonmethod.hh:264-352 does: an exception before the update
    (preprocessing, linearization, preSolve_, postSolve_); an exit after preSolve_ (line 305); a
    failure of the linear solver (330); an update which is not finite (677); an update which is
    applied, and one after which something throws (the update itself or endIteration_). *)
Inductive iteration :=
| Throws
| Finished
| SolverFails
| NotFinite (u : V) (ok : bool)
| Updates (u : V) (ok : bool)
| UpdatesAndThrows (u : V) (ok : bool).

(** updatePrimaryVariables_ and its overloads *)
Variable apply : V -> V -> V.
(** newtonmethod.hh:264-404; the list ends where proceed_ is false at the head of the loop.
    [end_] (806-817) is called after the loop, but not if the method is left by a failure. *)
Fixpoint loop (its : list iteration) (x : V) (w : writer) : option (writer * V) :=
  let endNewton (w : writer) := if enabled then endTimeStep w else w in
  match its with
  | [] => Some (endNewton w, x)
  | Throws :: _ => Some (w, x)
  | Finished :: _ => Some (endNewton w, x)
  | SolverFails :: _ => Some (w, x)
  | NotFinite u ok :: _ => match writeConvergence x u ok w with Some w => Some (w, x) | None => None end
  | Updates u ok :: its => match writeConvergence x u ok w with Some w => loop its (apply x u) w | None => None end
  | UpdatesAndThrows u ok :: _ => match writeConvergence x u ok w with Some w => Some (w, apply x u) | None => None end
  end.
(** newtonmethod.hh:235-430: [begin_] (520-527), the loop, the end. *)
Definition solve (x : V) (its : list iteration) (w : writer) : option (writer * V) :=
  loop its x (if enabled then beginTimeStep w else w).
(** All calls of the Newton method in a simulation, each with the solution it starts with. *)
Fixpoint solves (calls : list (V * list iteration)) (w : writer) : option writer :=
  match calls with
  | [] => Some w
  | (x, its) :: calls => match solve x its w with Some (w, _) => solves calls w | None => None end
  end.
End ConvW.
