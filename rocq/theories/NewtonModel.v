(** Model of the Newton method: opm/models/nonlinear/newtonmethod.hh.
    Timers, terminal output and the convergence writer are not modelled.  The parts of the
    simulator the method calls are an arbitrary environment which sees the present
    solution and everything that happened before. *)
From Verif Require Export Num.

Definition vec := list num.           (* the entries belonging to one degree of freedom *)
Definition solution := list (list Q).

(** One row of the linearized system, as seen by [preSolve_] and [update_]:
    [w_grid]: index below numGridDof (newtonmethod.hh:585);
    [w_pos]: dofTotalVolume > 0 (:585);
    [w_constraint]: entry of the constraints map, if constraints are enabled (:589-592);
    [w_res], [w_weight]: residual and eqWeight of each equation (:594-595). *)
Record row := mkRow {
  w_grid : bool; w_pos : bool; w_constraint : option (list Q); w_res : vec; w_weight : vec
}.

(** Rows which count for the error, newtonmethod.hh:585-592. *)
Definition considered (w : row) : bool :=
  w_grid w && w_pos w && match w_constraint w with None => true | Some _ => false end.

(** [std::abs(r[eqIdx] * model().eqWeight(dofIdx, eqIdx))], newtonmethod.hh:595. *)
Definition weighted (w : row) : vec := map (fun '(r, e) => nabs (nmul r e)) (combine (w_res w) (w_weight w)).

(** The values entering the error in the order of the loops, newtonmethod.hh:583-596. *)
Definition entries (rows : list row) : vec := concat (map weighted (filter considered rows)).

(** The loop computing the error on one process, newtonmethod.hh:582-596. *)
Definition local_error (rows : list row) : num := fold_left (fun e x => nmax x e) (entries rows) (Fin 0).

(** [comm_.max(error_)], newtonmethod.hh:599.  [others] are the errors of the other
    processes; how MPI_MAX treats NaN is unspecified, here it acts like std::max. *)
Definition global_error (rows : list row) (others : vec) : num :=
  fold_left (fun e x => nmax x e) others (local_error rows).

(** What the environment does in one iteration.
    [Caught]: a Dune::Exception or a NumericalProblem, caught by :372-396;
    [Escapes]: any other exception. *)
Inductive exn := Caught | Escapes.
Inductive lin_result := LinThrows (x : exn) | LinOk (rows : list row) (others : vec).
Inductive solve_result := SolThrows (x : exn) | SolFails | SolOk (update : list vec).

Record response := mkResponse {
  p_begin : bool;              (* problem().beginIteration() went well on all processes, :538-552 *)
  p_lin : lin_result;          (* linearization and preparation of the linear solver, :287-299 *)
  p_solve : solve_result;      (* linearSolver_.solve, :330 *)
  p_post : option (list vec);  (* the update after auxMod.postSolve, None: some process failed, :621-647 *)
  p_end : bool                 (* problem().endIteration() went well on all processes, :759-773 *)
}.

(** How an iteration ended. *)
Inductive stage := Broke | Updated | Failed.
(** One iteration: solution at its beginning, error computed in it (if it got that far),
    how it ended. *)
Record iter := mkIter { i_start : solution; i_error : option num; i_stage : stage }.

Record config := mkConfig {
  c_tol : num;          (* tolerance(), :207 *)
  c_max : Z;            (* NewtonMaxIterations, :839 *)
  c_target : Z;         (* NewtonTargetIterations, :836 *)
  c_maxError : num      (* NewtonMaxError, :577 *)
}.

Inductive status := Running | LeftLoop | Finished (ok : bool) | Escaped.

(** State: model().solution(0), error_, lastError_, numIterations_, the iterations so far
    (latest first) and how the method ended. *)
Record nst := mkNst {
  n_sol : solution; n_err : num; n_last : num; n_iter : Z; n_hist : list iter; n_status : status
}.

Definition env := solution -> list iter -> response.

(** [converged], newtonmethod.hh:164-165. *)
Definition converged (c : config) (e : num) : bool := nleb e (c_tol c).

(** [proceed_], newtonmethod.hh:788-806. *)
Definition proceed (c : config) (n : Z) (err last : num) : bool :=
  if (n <? 1)%Z then true
  else if converged c err then false
  else if (c_max c <=? n)%Z then nltb (nmul err (Fin 4)) last
  else true.

(** [solutionUpdate.one_norm()] is finite, newtonmethod.hh:676-677 (exact sum: overflow of
    a sum of finite numbers, which also leads to the exception, is not modelled). *)
Definition one_norm (u : list vec) : num := fold_left (fun s x => nadd s (nabs x)) (concat u) (Fin 0).

Definition sub_vec (x : list Q) (d : vec) : list Q := map (fun '(a, b) => a - fin_val b) (combine x d).

(** Loops of [update_], newtonmethod.hh:679-710, with updateConstraintDof_ :715-718 and
    updatePrimaryVariables_ :723-731. *)
Fixpoint update_rows (rows : list row) (cur : solution) (u : list vec) : solution :=
  match rows, cur, u with
  | w :: rows', x :: cur', d :: u' =>
      (match (if w_grid w then w_constraint w else None) with
       | Some v => v
       | None => sub_vec x d
       end) :: update_rows rows' cur' u'
  | _, _, _ => []
  end.

(** [failed_], newtonmethod.hh:824-825, followed by [return false]. *)
Definition fail (c : config) (s : nst) : nst :=
  mkNst (n_sol s) (n_err s) (n_last s) (c_target c * 2) (n_hist s) (Finished false).

Definition throw (c : config) (x : exn) (s : nst) : nst :=
  match x with
  | Caught => fail c s
  | Escapes => mkNst (n_sol s) (n_err s) (n_last s) (n_iter s) (n_hist s) Escaped
  end.

(** [endIteration_], newtonmethod.hh:755-783; [next]: what happens after it. *)
Definition end_iteration (c : config) (okay : bool) (next : status) (s : nst) : nst :=
  let s' := mkNst (n_sol s) (n_err s) (n_last s) (n_iter s + 1) (n_hist s) next in
  if okay then s' else fail c s'.

Definition log_iter (start : solution) (e : option num) (st : stage) (s : nst) : nst :=
  mkNst (n_sol s) (n_err s) (n_last s) (n_iter s) (mkIter start e st :: n_hist s) (n_status s).

(** From the solution of the linear system to the end of the loop body,
    newtonmethod.hh:325-371.  [s] is the state after preSolve_. *)
Definition solve_and_update (c : config) (p : response) (rows : list row) (s : nst) : nst :=
  let start := n_sol s in
  let e := Some (n_err s) in
  match p_solve p with
  | SolThrows x => throw c x (log_iter start e Failed s)
  | SolFails => fail c (log_iter start e Failed s)                          (* :332-342 *)
  | SolOk _ =>
      match p_post p with
      | None => fail c (log_iter start e Failed s)                          (* :645-646 *)
      | Some u =>
          if is_fin (one_norm u) then
            end_iteration c (p_end p) Running
              (log_iter start e Updated
                 (mkNst (update_rows rows start u) (n_err s) (n_last s) (n_iter s) (n_hist s) Running))
          else fail c (log_iter start e Failed s)                           (* :676-677 *)
      end
  end.

(** After the error has been computed: newtonmethod.hh:601-606 and 306-320. *)
Definition after_error (c : config) (p : response) (rows : list row) (s : nst) : nst :=
  if nltb (c_maxError c) (n_err s) then fail c (log_iter (n_sol s) (Some (n_err s)) Failed s)
  else if proceed c (n_iter s) (n_err s) (n_last s) then solve_and_update c p rows s
  else end_iteration c (p_end p) LeftLoop (log_iter (n_sol s) (Some (n_err s)) Broke s).

(** The loop body: newtonmethod.hh:268-371 with beginIteration_ :532-555 and preSolve_
    :572-607. *)
Definition body (c : config) (ev : env) (s : nst) : nst :=
  let p := ev (n_sol s) (n_hist s) in
  if p_begin p then
    match p_lin p with
    | LinThrows x => throw c x (log_iter (n_sol s) None Failed s)
    | LinOk rows others =>
        after_error c p rows
          (mkNst (n_sol s) (global_error rows others) (n_err s) (n_iter s) (n_hist s) Running)
    end
  else fail c (log_iter (n_sol s) None Failed s).

(** After the loop, newtonmethod.hh:420-437. *)
Definition conclude (c : config) (s : nst) : nst :=
  if converged c (n_err s)
  then mkNst (n_sol s) (n_err s) (n_last s) (n_iter s) (n_hist s) (Finished true)
  else fail c s.

(** One evaluation of the loop condition together with the body or the code after the
    loop. *)
Definition round (c : config) (ev : env) (s : nst) : nst :=
  match n_status s with
  | Running => if proceed c (n_iter s) (n_err s) (n_last s) then body c ev s else conclude c s
  | LeftLoop => conclude c s
  | _ => s
  end.

Fixpoint rounds (c : config) (ev : env) (n : nat) (s : nst) : nst :=
  match n with O => s | S n => rounds c ev n (round c ev s) end.

(** [apply], newtonmethod.hh:228-438, cut off after [n] rounds.  [begin_] :520-527 resets
    the number of iterations; the errors keep the values of the previous call. *)
Definition apply (c : config) (ev : env) (n : nat) (sol : solution) (err last : num) : nst :=
  rounds c ev n (mkNst sol err last 0 [] Running).

(** [suggestTimeStepSize], newtonmethod.hh:448-465. *)
Definition suggestTimeStepSize (numIter target : Z) (minDt oldDt : Q) : Q :=
  if (target <? numIter)%Z then
    Qmax minDt (oldDt / (1 + inject_Z (numIter - target) / inject_Z target))
  else
    Qmax minDt (oldDt * (1 + inject_Z (target - numIter) / inject_Z target / (12 # 10))).
