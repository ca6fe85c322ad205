(** Numbers as a computer holds them. *)
From Verif Require Export StepFileSpec FloatTextModel.
Open Scope Q_scope.

(** Double precision: 53 binary digits times a power of two which is not too small. *)
Definition is_double (q : Q) : Prop :=
  exists m e, (Z.abs m < 2 ^ 53)%Z /\ (-1074 <= e)%Z /\ q == inject_Z m * Qpower 2 e.

(** [x] is the double closest to [y]. *)
Definition closest_double (y x : Q) : Prop :=
  is_double x /\ forall d, is_double d -> Qabs (y - x) <= Qabs (y - d).

(** [y] is a decimal number of at most [p] significant digits. *)
Definition has_digits (p : nat) (y : Q) : Prop :=
  exists m e, (Z.abs m < 10 ^ Z.of_nat p)%Z /\ y == inject_Z m * Qpower 10 e.
