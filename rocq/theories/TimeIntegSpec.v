(** What the retries of a time step look like from outside. *)
From Verif Require Export TimeIntegModel.
Open Scope Q_scope.

(** The sizes tried, first one first: each is half of the one before it, but at least the
    minimum. *)
Inductive halving (minDt : Q) : list Q -> Prop :=
| hv_nil : halving minDt []
| hv_one d : halving minDt [d]
| hv_cons a b l : b == Qmax minDt (a / 2) -> halving minDt (b :: l) -> halving minDt (a :: b :: l).

(** All attempts but the last one failed. *)
Definition all_but_last_failed (solver : list Q -> Q -> bool) (l : list Q) : Prop :=
  forall before d after, l = before ++ d :: after -> after <> [] -> solver (rev before) d = false.
Definition last_succeeded (solver : list Q -> Q -> bool) (l : list Q) : Prop :=
  exists before d, l = before ++ [d] /\ solver (rev before) d = true.
Definition last_failed (solver : list Q -> Q -> bool) (l : list Q) : Prop :=
  exists before d, l = before ++ [d] /\ solver (rev before) d = false.

(** The last attempt was made with the minimum size (up to a relative 1e-9). *)
Definition last_minimal (minDt : Q) (l : list Q) : Prop :=
  exists before d, l = before ++ [d] /\ d < minDt * (1 + (1 # 1000000000)).
