(** What it means to restore a state. *)
From Verif Require Export FloatTextSpec RestartModel.
Open Scope Q_scope.

(** Equality of states; numbers are compared by value. *)
Definition same_dof (a b : dof) : Prop := Forall2 Qeq (f_vals a) (f_vals b) /\ f_ints a = f_ints b.
Definition same_sim (a b : simdata) : Prop :=
  d_epidx a = d_epidx b /\ d_epstart a == d_epstart b /\ d_eplen a == d_eplen b /\
  d_start a == d_start b /\ d_time a == d_time b /\ d_idx a = d_idx b.

(** All numbers of a state are doubles (so neither infinite nor NaN). *)
Definition proper_sim (d : simdata) : Prop :=
  is_double (d_epstart d) /\ is_double (d_eplen d) /\ is_double (d_start d) /\ is_double (d_time d).
Definition proper_dof (d : dof) : Prop := Forall is_double (f_vals d).

(** How many integers a degree of freedom carries in a model. *)
Definition shape (k : kind) (n : nat) (d : dof) : Prop :=
  length (f_vals d) = n /\ length (f_ints d) = match k with Base => 0%nat | Pvs => 1%nat | BlackOil _ => 4%nat end.
