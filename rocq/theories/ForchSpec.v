(** What is said about the flux module for fast flow. *)
From Coq Require Import Reals List.
From Verif Require Import ForchModel.
Local Open Scope R_scope.

(** The length of a vector. *)
Definition norm (n : nat) (v : vec) : R := sqrt (sum n (fun i => (v i) ^ 2)).

(** The distance of two vectors. *)
Definition dist (n : nat) (v w : vec) : R := norm n (fun i => v i - w i).

(** Fluid and rock that make sense. *)
Definition physical (n : nat) (p : point) : Prop :=
  0 <= p_mob p /\ 0 <= p_dens p /\ 0 <= p_ratio p /\ 0 <= p_ergun p /\ forall i, (i < n)%nat -> 0 < p_K p i.

(** Forchheimer's equation as the manual gives it: [g] is the gradient of the potential,
    [eta] the passability. *)
Definition forchheimerEquation (n : nat) (mob rho ergun eta : R) (K g v : vec) : Prop :=
  forall i, (i < n)%nat ->
    g i = - (/ mob) * (/ K i) * v i - (rho * ergun / eta) * (/ sqrt (K i)) * norm n v * v i.

(** The velocity that belongs to the quantities at the face: the second equation of the
    manual, multiplied by mobility and permeability. *)
Definition isVelocity (n : nat) (p : point) (v : vec) : Prop :=
  forall i, (i < n)%nat ->
    p_mob p * p_K p i * p_grad p i =
    - v i - p_dens p * p_ergun p * p_ratio p * sqrt (p_K p i) * norm n v * v i.

(** Darcy's velocity. *)
Definition darcyVelocity (p : point) : vec := fun i => - (p_mob p * p_K p i * p_grad p i).

(** A solver that solves: what it returns is a solution, and it returns one if the matrix has
    an inverse (in n dimensions). *)
Definition solverSound (n : nat) (solve : smallSolver) : Prop :=
  forall A b x, solve n A b = Some x -> forall i, (i < n)%nat -> sum n (fun k => A i k * x k) = b i.

Definition solverComplete (n : nat) (solve : smallSolver) : Prop :=
  forall A b,
    (exists B : nat -> nat -> R, forall i j, (i < n)%nat -> (j < n)%nat ->
       sum n (fun k => A i k * B k j) = if Nat.eqb i j then 1 else 0) ->
    exists x, solve n A b = Some x.

(** How strongly the velocity is slowed down: the factor of the quadratic term. *)
Definition drag (p : point) (k : R) : R := p_dens p * p_ratio p * p_ergun p * sqrt k.
