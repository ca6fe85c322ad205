(** Ownership of degrees of freedom. *)
From Verif Require Export AuxDofModel.

(** Degree of freedom [x] is number [l] of the [k]-th module. *)
Definition owned_by (s : dofs) (x k l : nat) : Prop :=
  exists m, nth_error (d_mods s) k = Some m /\ l < a_num m /\ x = localToGlobalDof m l.
