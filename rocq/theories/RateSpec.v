(** What the properties about rate vectors are stated with. *)
From Verif Require Import RateModel.

(** In which unit a model conserves its components and how much a mass is in that unit. *)
Inductive unitOfModel := MassUnit | MoleUnit | SurfaceVolumeUnit.
Definition amountOf (u : unitOfModel) (molarMass refDensity mass : Q) : Q :=
  match u with MassUnit => mass | MoleUnit => mass / molarMass | SurfaceVolumeUnit => mass / refDensity end.

(** The vector holds the given mass of every component. *)
Definition holdsMass (u : unitOfModel) (l : layout) (M : nat -> Q) (mass : nat -> Q) (v : rate) : Prop :=
  forall c, (c < l_comps l)%nat -> v (l_conti0 l + c)%nat == amountOf u (M c) 1 (mass c).
(** An index which is not the one of a component. *)
Definition otherEntry (l : layout) (e : nat) : Prop := (e < l_conti0 l \/ l_conti0 l + l_comps l <= e)%nat.
Definition energyApart (l : layout) : Prop := forall e, l_energy l = Some e -> otherEntry l e.

(** The molarities of a fluid state fit its density and mass fractions. *)
Definition consistentFluid (M : nat -> Q) (f : fluid) (a : nat) : Prop :=
  forall c, f_molarity f a c * M c == f_rho f a * f_massFrac f a c.

(** The black-oil model: every active component and the solvent has an entry of its own. *)
Definition boUnit (b : boModel) : unitOfModel := if b_surface b then SurfaceVolumeUnit else MassUnit.
Definition boEntries (b : boModel) : Prop :=
  (forall c d, b_active b c = true -> b_active b d = true -> b_index b c = b_index b d -> c = d) /\
  (forall i, b_solvent b = Some i -> forall c, b_active b c = true -> b_index b c <> i) /\
  (forall j, b_polymer b = Some j -> b_solvent b <> Some j /\ forall c, b_active b c = true -> b_index b c <> j).
Definition boOther (b : boModel) (e : nat) : Prop :=
  b_solvent b <> Some e /\ forall c, b_active b c = true -> b_index b c <> e.
