(** What the properties about the local residuals are stated with. *)
From Verif Require Import LocResModel.
From Verif Require Export DarcySpec.
From Verif Require TpfaSpec.

(** [TpfaSpec.derivative f a]: [a] is the derivative of [f] at zero. *)
Notation derivative := TpfaSpec.derivative.

(** How much of an equation's quantity a unit of volume of a phase holds. *)
Definition amount (k : kind) (q : quants) (a c : nat) : Q :=
  match k with
  | PhaseMasses => if (a =? c)%nat then val (density q a) else 0
  | CompMoles => val (molarity q a c)
  | CompMasses => val (massFraction q a c) * val (density q a)
  end.
(** What a fluid state guarantees: molarities are molar densities times mole fractions. *)
Definition consistent (q : quants) : Prop :=
  forall a c, val (molarity q a c) == val (molarDensity q a) * val (moleFraction q a c).

(** The energy equation is not the equation of a component; in the immiscible model there are as many components as
    phases. *)
Definition fits (k : kind) (phases : nat) (l : layout) : Prop :=
  (k = PhaseMasses -> l_comps l = phases) /\
  forall e, l_energy l = Some e -> ~ (l_conti0 l <= e < l_conti0 l + l_comps l)%nat.

(** The same face seen from the other side. *)
Definition swapped (p : place) : place :=
  mkPlace (pl_dim p) (pl_pos p) (pl_gravity p) (pl_ex p) (pl_in p) (opposite (pl_normal p)) (pl_ipos p) (pl_K p) (pl_shapes p).
(** The driving force of a phase in the direction of the normal. *)
Definition driving (p : place) (s : nat -> quants) (a : nat) : Q := val (normalPart p (adPotentialGrad p 0 s a)).

(** A change of the solution in one variable of one degree of freedom: the quantities of the others stay as they
    are, and the quantities of this one carry the right derivatives. *)
Definition tracks (f : Q -> ad) : Prop := derivative (fun h => val (f h)) (der (f 0)).
Record variation (s : Q -> nat -> quants) (focus : nat) : Prop := mkVariation {
  v_others : forall h v, v <> focus -> s h v = s 0 v;
  v_porosity : tracks (fun h => porosity (s h focus));
  v_pressure : forall a, tracks (fun h => pressure (s h focus) a);
  v_mobility : forall a, tracks (fun h => mobility (s h focus) a);
  v_saturation : forall a, tracks (fun h => saturation (s h focus) a);
  v_density : forall a, tracks (fun h => density (s h focus) a);
  v_molarDensity : forall a, tracks (fun h => molarDensity (s h focus) a);
  v_molarity : forall a c, tracks (fun h => molarity (s h focus) a c);
  v_moleFraction : forall a c, tracks (fun h => moleFraction (s h focus) a c);
  v_massFraction : forall a c, tracks (fun h => massFraction (s h focus) a c);
  v_internalEnergy : forall a, tracks (fun h => internalEnergy (s h focus) a);
  v_enthalpy : forall a, tracks (fun h => enthalpy (s h focus) a);
  v_solidEnergy : tracks (fun h => solidEnergy (s h focus));
  v_temperature : tracks (fun h => temperature (s h focus));
  v_conductivity : tracks (fun h => conductivity (s h focus));
  v_diffusivity : forall a c, tracks (fun h => diffusivity (s h focus) a c) }.

(** What the derivative of a quantity should be: that of the focused degree of freedom, zero for the others. *)
Definition own (focus v : nat) (x : ad) : Q := if (v =? focus)%nat then der x else 0.

(** What a fluid state of DarcyModel provides. *)
Definition fluidOf (q : quants) : DarcyModel.fluid :=
  DarcyModel.mkFluid (fun a => val (pressure q a)) (fun a => val (density q a)) (fun a => val (enthalpy q a))
    (fun a c => val (molarity q a c)).

(** What a mass of a component amounts to in the unit of a model's equations; [M] are the molar masses. *)
Definition massInUnits (k : kind) (M : nat -> Q) (c : nat) (mass : Q) : Q :=
  match k with CompMoles => mass / M c | PhaseMasses | CompMasses => mass end.

(** What DarcyModel (C71) sees of a degree of freedom; the permeability is that of the face. *)
Definition pointOf (p : place) (s : nat -> quants) (v : nat) : point :=
  mkPoint (pl_pos p v) (match pl_gravity p with Some g => g v | None => fun _ => 0 end) (pl_K p)
    (fun a => val (pressure (s v) a)) (fun a => val (density (s v) a)) (fun a => val (mobility (s v) a)).
