(** Vocabulary for the primary variables of the switching model. *)
From Verif Require Import PvsModel.

(** Sum of a quantity over the first [n] indices. *)
Fixpoint total (n : nat) (f : nat -> Q) : Q :=
  match n with O => 0 | S m => total m f + f m end.

(** The saturations of all phases fill the pore space. *)
Definition balanced (P : nat) (fs : fstate) : Prop := total P (fs_sat fs) == 1.

(** Thermodynamic equilibrium as the model understands it: saturations are not negative, mole
    fractions of a phase add up to at most one, and to one if the phase is there. *)
Definition equilibrium (P C : nat) (fs : fstate) : Prop :=
  forall i, (i < P)%nat ->
    0 <= fs_sat fs i /\ total C (fs_x fs i) <= 1 /\
    (0 < fs_sat fs i -> total C (fs_x fs i) == 1).

(** [a] and [b] differ by at most [d]. *)
Definition within (d a b : Q) : Prop := - d <= a - b /\ a - b <= d.

(** The present phases have consecutive indices. *)
Definition interval (p : Z) : Prop :=
  forall i j k, (i < j < k)%nat -> phaseIsPresent i p = true -> phaseIsPresent k p = true ->
    phaseIsPresent j p = true.
