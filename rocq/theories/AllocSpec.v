(** Vocabulary of property C56. *)
From Verif Require Import AllocModel.

Definition power_of_two (a : Z) : Prop := exists k, 0 <= k /\ a = 2 ^ k.

(** A C++ object type: its alignment is a power of two which divides its size. *)
Definition object_type (size align : Z) : Prop :=
  power_of_two align /\ 0 < size /\ (align | size) /\ size + align < size_max.

(** The system keeps the promise of posix_memalign: addresses are aligned and not negative. *)
Definition honest (mem : Z -> Z -> option Z) : Prop := forall a s p, 0 < a -> mem a s = Some p -> (a | p) /\ 0 <= p.
