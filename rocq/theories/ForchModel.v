(** * Forchheimer's relation

    Model of the flux module for fast flow
    (/repo/opm/models/common/forchheimerfluxmodule.hh) and of the parts of the Darcy module it
    builds on (/repo/opm/models/common/darcyfluxmodule.hh).

    Simplifications: arithmetic is that of the real numbers, so adding an increment to a
    component of the velocity and taking it away again restores the component; the
    derivatives carried by the evaluations are left out; a vector is a function of the
    component, read for components below the dimension only; the permeability is given by its
    diagonal (the code asserts that the other entries vanish); the potential gradient at the
    face is given. *)

From Coq Require Import Reals List Bool.
Import ListNotations.
Local Open Scope R_scope.

Definition vec : Type := nat -> R.

(** Loops that add up over the dimensions, e.g. forchheimerfluxmodule.hh:400-402, 497-499. *)
Fixpoint sum (n : nat) (f : nat -> R) : R :=
  match n with O => 0 | S m => sum m f + f m end.

(** [eps] and the tolerance, forchheimerfluxmodule.hh:450, 520. *)
Definition tol : R := / 10 ^ 11.

(** The quantities of one phase at the integration point: [mobility_], [density_],
    [mobilityPassabilityRatio_], [ergunCoefficient_], the diagonal of [K_], [potentialGrad_],
    forchheimerfluxmodule.hh:467-475, 560-572. *)
Record point : Type := mkPoint {
  p_mob : R; p_dens : R; p_ratio : R; p_ergun : R; p_K : vec; p_grad : vec
}.

(** [absVel], forchheimerfluxmodule.hh:496-505. *)
Definition absVel (n : nat) (v : vec) : R :=
  let s := sum n (fun i => v i * v i) in
  if Rle_dec s 0 then 0 else sqrt s.

(** [forchheimerResid_], forchheimerfluxmodule.hh:465-510; [sqrtK_] of lines 264-268. *)
Definition resid (n : nat) (p : point) (v : vec) : vec :=
  let alpha := p_dens p * p_ratio p * p_ergun p * absVel n v in
  fun i => v i + p_mob p * p_grad p i * p_K p i + sqrt (p_K p i) * alpha * v i.

(** A vector with one component increased, forchheimerfluxmodule.hh:524. *)
Definition bump (v : vec) (i : nat) (h : R) : vec :=
  fun k => if Nat.eqb k i then v k + h else v k.

(** [coordEps], forchheimerfluxmodule.hh:523. *)
Definition coordEps (v : vec) (i : nat) : R := Rmax tol (v i * (1 + tol)).

(** [gradForchheimerResid_]: row i of the matrix is the difference quotient of the residual
    for component i, forchheimerfluxmodule.hh:512-531. *)
Definition gradResid (n : nat) (p : point) (v : vec) : nat -> nat -> R :=
  fun i k => (resid n p (bump v i (coordEps v i)) k - resid n p v k) / coordEps v i.

(** [one_norm] of the update, forchheimerfluxmodule.hh:450. *)
Definition oneNorm (n : nat) (d : vec) : R := sum n (fun i => Rabs (d i)).

(** What a call of [calculateForchheimerFlux_] ends with: a velocity, the exception
    [NumericalProblem], or the matrix is found singular by the solver. *)
Inductive outcome (A : Type) : Type :=
| Done (a : A)
| NoConvergence
| Singular.
Arguments Done {A} a.
Arguments NoConvergence {A}.
Arguments Singular {A}.

(** A solver for small systems: [FieldMatrix::solve] of Dune. *)
Definition smallSolver : Type := nat -> (nat -> nat -> R) -> vec -> option vec.

(** The loop of [calculateForchheimerFlux_], forchheimerfluxmodule.hh:449-462; [k] is the
    number of iterations left of the 50, [dn] the norm of the last update. *)
Fixpoint newtonLoop (solve : smallSolver) (n : nat) (p : point) (k : nat) (v : vec) (dn : R) : outcome vec :=
  if Rle_dec dn tol then Done v
  else match k with
       | O => NoConvergence
       | S k' =>
           match solve n (gradResid n p v) (resid n p v) with
           | None => Singular
           | Some d => newtonLoop solve n p k' (fun i => v i - d i) (oneNorm n d)
           end
       end.

(** [calculateForchheimerFlux_], forchheimerfluxmodule.hh:434-463: velocity zero and updates
    of 1e5 to start with. *)
Definition forchheimerVelocity (solve : smallSolver) (n : nat) (p : point) : outcome vec :=
  newtonLoop solve n p 50 (fun _ => 0) (oneNorm n (fun _ => 10 ^ 5)).

(* ----- from the control volumes to the face ----- *)

(** The intensive quantities of a control volume that are read; for the mobilities
    darcyfluxmodule.hh:305-320. *)
Record volume : Type := mkVolume {
  c_ergun : R; c_dens : nat -> R; c_ratio : nat -> R; c_mob : nat -> R
}.

(** The default of [mobilityPassabilityRatio] for the viscosity of a phase,
    forchheimerfluxmodule.hh:115-121. *)
Definition defaultRatio (viscosity : R) : R := 1 / viscosity.

(** A face: dimension, normal, diagonal of the permeability, gradient of the potential and
    whether a phase is considered. *)
Record face : Type := mkFace {
  f_dim : nat; f_normal : vec; f_K : vec; f_grad : nat -> vec; f_considered : nat -> bool
}.

(** Whether the exterior is upstream, darcyfluxmodule.hh:291-304, 421-427. *)
Definition exteriorUpstream (f : face) (phase : nat) : bool :=
  if Rlt_dec 0 (sum (f_dim f) (fun d => f_grad f phase d * f_normal f d)) then true else false.

(** [calculateGradients_] at an interior face, forchheimerfluxmodule.hh:252-306, and the mean
    Ergun coefficient of lines 371-384. *)
Definition interiorPoint (f : face) (inner outer : volume) (phase : nat) : point :=
  let up := if exteriorUpstream f phase then outer else inner in
  mkPoint (c_mob up phase) (c_dens up phase) (c_ratio up phase)
          ((c_ergun inner + c_ergun outer) / 2) (f_K f) (f_grad f phase).

(** [calculateBoundaryGradients_], forchheimerfluxmodule.hh:308-352: everything but the
    mobility is taken from the interior; the mobility of an entering phase is that of the
    fluid at the boundary, darcyfluxmodule.hh:421-441. *)
Definition boundaryPoint (f : face) (inner outer : volume) (phase : nat) : point :=
  let up := if exteriorUpstream f phase then outer else inner in
  mkPoint (c_mob up phase) (c_dens inner phase) (c_ratio inner phase) (c_ergun inner) (f_K f) (f_grad f phase).

(** The loops over the phases of [calculateFluxes_] and [calculateBoundaryFluxes_],
    forchheimerfluxmodule.hh:389-403, 418-432: velocity and volume flux of every phase. *)
Fixpoint phaseLoop (solve : smallSolver) (f : face) (at_ : nat -> point) (phases : list nat) : outcome (list (vec * R)) :=
  match phases with
  | [] => Done []
  | phase :: rest =>
      let this :=
        if f_considered f phase then
          match forchheimerVelocity solve (f_dim f) (at_ phase) with
          | Done v => Done (v, sum (f_dim f) (fun d => v d * f_normal f d))
          | NoConvergence => NoConvergence
          | Singular => Singular
          end
        else Done (fun _ => 0, 0) in
      match this with
      | Done r => match phaseLoop solve f at_ rest with
                  | Done l => Done (r :: l)
                  | NoConvergence => NoConvergence
                  | Singular => Singular
                  end
      | NoConvergence => NoConvergence
      | Singular => Singular
      end
  end.

Definition interiorFluxes (solve : smallSolver) (numPhases : nat) (f : face) (inner outer : volume) : outcome (list (vec * R)) :=
  phaseLoop solve f (interiorPoint f inner outer) (seq 0 numPhases).

Definition boundaryFluxes (solve : smallSolver) (numPhases : nat) (f : face) (inner outer : volume) : outcome (list (vec * R)) :=
  phaseLoop solve f (boundaryPoint f inner outer) (seq 0 numPhases).
