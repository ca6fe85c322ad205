(** What the properties about primary variables and fluid states are stated with. *)
From Verif Require Import PhVarsModel.

(** Sum of a quantity over the first [n] indices. *)
Fixpoint total (n : nat) (f : nat -> Q) : Q := match n with O => 0 | S m => total m f + f m end.

(** Two fluid states have the same pressures and saturations of [P] phases; the same mole fractions of [C] components. *)
Definition samePhases (P : nat) (s t : fstate) : Prop :=
  forall a, (a < P)%nat -> fs_p s a == fs_p t a /\ fs_S s a == fs_S t a.
Definition sameComposition (P C : nat) (s t : fstate) : Prop :=
  forall a c, (a < P)%nat -> (c < C)%nat -> fs_x s a c == fs_x t a c.

(** Saturations add up to one and the pressures differ by the capillary pressures. *)
Definition physical (P : nat) (pc : vec -> vec) (fs : fstate) : Prop :=
  total P (fs_S fs) == 1 /\
  forall a, (a < P)%nat -> fs_p fs a - fs_p fs 0%nat == pc (fs_S fs) a - pc (fs_S fs) 0%nat.
(** A law depends on nothing but the values of the [P] entries. *)
Definition respects (P : nat) (pc : vec -> vec) : Prop :=
  forall s t, (forall a, (a < P)%nat -> s a == t a) -> forall a, pc s a == pc t a.

(** Fugacity coefficients which do not depend on the composition, given temperature and pressures. *)
Definition fugacityLaw (P : nat) (law : Q -> vec -> nat -> nat -> Q) : Prop :=
  forall T T' p p', T == T' -> (forall a, (a < P)%nat -> p a == p' a) -> forall a c, law T p a c == law T' p' a c.
(** Every component has the same fugacity in all phases. *)
Definition equalFugacities (P C : nat) (law : Q -> vec -> nat -> nat -> Q) (ref : nat) (fs : fstate) : Prop :=
  forall a c, (a < P)%nat -> (c < C)%nat ->
    law (fs_T fs) (fs_p fs) a c * fs_x fs a c * fs_p fs a == law (fs_T fs) (fs_p fs) ref c * fs_x fs ref c * fs_p fs ref.
(** The solver finds mole fractions with the given fugacities, where there are some. *)
Definition solvesComposition (P C : nat) (law : Q -> vec -> nat -> nat -> Q) (compose : Q -> vec -> nat -> vec -> vec) : Prop :=
  forall T p a fug c, (a < P)%nat -> (c < C)%nat -> ~ law T p a c * p a == 0 -> law T p a c * compose T p a fug c * p a == fug c.

(** Moles of a component per pore volume. *)
Definition molesOf (P : nat) (fs : fstate) (c : nat) : Q := total P (fun a => fs_S fs a * fs_c fs a c).

(** A phase is there, or its mole fractions may add up to less than one, but not both. *)
Definition complementary (C : nat) (fs : fstate) (a : nat) : Prop :=
  0 <= fs_S fs a /\ total C (fs_x fs a) <= 1 /\ fs_S fs a * (1 - total C (fs_x fs a)) == 0.

(** [a] and [b] differ by at most [d]. *)
Definition within (d a b : Q) : Prop := - d <= a - b /\ a - b <= d.
(** Capillary pressure and saturation of a liquid: one falls with the other and each is the inverse of the other. *)
Definition inverseLaws (pc sat : Q -> Q) : Prop :=
  (forall s t, s <= t -> pc t <= pc s) /\ (forall p q, p <= q -> sat q <= sat p) /\ (forall s, sat (pc s) == s).
(** The fraction of the last component, which is not a primary variable. *)
Definition lastFraction (C off : nat) (v : vec) : Q := 1 - total (C - 1) (fun c => v (off + 1 + c)%nat).
(** Degrees of freedom of the grid with a volume which are not constrained. *)
Definition considered (gridDofs : nat) (constraintsEnabled : bool) (i : nat) (d : dof) : Prop :=
  (i < gridDofs)%nat /\ 0 < d_volume d /\ (constraintsEnabled = false \/ d_constrained d = false).
Definition phaseEquation (P C off eq : nat) : Prop := (off + C <= eq < off + C + P)%nat.
