(** Vocabulary for the properties of the Newton method. *)
From Verif Require Export NewtonModel.

(** Every error in the history is the one computed from the residual that the environment
    returned for the solution at the beginning of that iteration. *)
Fixpoint faithful (ev : env) (h : list iter) : Prop :=
  match h with
  | [] => True
  | it :: rest =>
      (forall e, i_error it = Some e ->
         exists rows others, p_lin (ev (i_start it) rest) = LinOk rows others /\ e = global_error rows others)
      /\ faithful ev rest
  end.

(** The solution after the iterations [h] (latest first): an iteration that was completed
    subtracts its update, any other one leaves the solution alone. *)
Fixpoint after (ev : env) (sol : solution) (h : list iter) : solution :=
  match h with
  | [] => sol
  | it :: rest =>
      let x := after ev sol rest in
      match i_stage it, p_lin (ev x rest), p_post (ev x rest) with
      | Updated, LinOk rows _, Some u => update_rows rows x u
      | _, _, _ => x
      end
  end.

(** Every iteration started at the solution its predecessors produced. *)
Fixpoint connected (ev : env) (sol : solution) (h : list iter) : Prop :=
  match h with
  | [] => True
  | it :: rest => i_start it = after ev sol rest /\ connected ev sol rest
  end.

(** All residual entries that count are small. *)
Definition small_residual (tol : num) (rows : list row) : Prop :=
  forall w r e, In w rows -> w_grid w = true -> w_pos w = true -> w_constraint w = None ->
    In (r, e) (combine (w_res w) (w_weight w)) -> nleb (nabs (nmul r e)) tol = true.

Definition nan_free (rows : list row) : Prop := ~ In NaN (entries rows).

(** The part of a list behind its last NaN. *)
Fixpoint behind_nan (l : vec) : vec :=
  match l with
  | [] => []
  | x :: l' => if existsb is_nan l' then behind_nan l' else if is_nan x then l' else x :: l'
  end.
