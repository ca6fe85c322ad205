(** * Intensive quantities of the discrete fracture model

    Models opm/models/discretefracture/discretefractureintensivequantities.hh on top of
    opm/models/immiscible/immiscibleintensivequantities.hh, for the two phases the class
    insists on.  Numbers are rational.  The material laws, the fluid properties and the
    problem are parameters.  The fields which energy needs are left out. *)
From Coq Require Import QArith List Bool Arith.
From Verif Require Import FractureModel.
Import ListNotations.

Definition phaseVec := nat -> Q.
Definition setAt (i : nat) (x : Q) (f : phaseVec) : phaseVec := fun j => if Nat.eqb j i then x else f j.

(** A fluid state: saturations, pressures and viscosities. *)
Record fluid := mkFluid { f_sat : phaseVec; f_pressure : phaseVec; f_visc : phaseVec }.
Definition setSaturation (i : nat) (x : Q) (f : fluid) : fluid := mkFluid (setAt i x (f_sat f)) (f_pressure f) (f_visc f).
(** std::min and std::max. *)
Definition stdMin (a b : Q) : Q := if Qle_bool a b then a else b.
Definition stdMax (a b : Q) : Q := if Qle_bool b a then a else b.

(** What an element says about itself: global indices of its vertices and the distance of two
    of them (elemCtx.globalSpaceIndex, pos and two_norm; the norm is a given number). *)
Record elementCtx := mkCtx { x_vertices : list nat; x_length : nat -> nat -> Q }.
(** The problem and the material laws: fractureWidth, fracturePorosity,
    fractureIntrinsicPermeability (one number), capillaryPressures and relativePermeabilities
    for the parameters of the matrix, saturations and relativePermeabilities for those of the
    fracture, and viscosity. *)
Record problem := mkProblem {
  p_mapper : mapper;
  p_width : nat -> nat -> Q;
  p_poro : nat -> Q;
  p_perm : nat -> Q;
  p_capMatrix : phaseVec -> phaseVec;
  p_krMatrix : phaseVec -> phaseVec;
  p_satFracture : fluid -> phaseVec;
  p_krFracture : phaseVec -> phaseVec;
  p_viscosity : phaseVec -> phaseVec;
  (** wettingPhaseIdx and nonWettingPhaseIdx of the material law *)
  p_wetting : nat;
  p_nonWetting : nat
}.
(** discretefractureintensivequantities.hh:235-239 and immiscibleintensivequantities.hh:190-194. *)
Record quantities := mkQuantities {
  q_fluid : fluid;
  q_kr : phaseVec;
  q_mobility : phaseVec;
  q_fractureFluid : fluid;
  q_fractureVolume : Q;
  q_fracturePoro : Q;
  q_fracturePerm : Q;
  q_fractureKr : phaseVec
}.

(** immiscibleintensivequantities.hh:93-150 for two phases: [s0] and [p0] are the primary
    variables. *)
Definition parentUpdate (pb : problem) (s0 p0 : Q) (q : quantities) : quantities :=
  let sat := fun i => match i with O => s0 | _ => 1 - s0 end in
  let pC := p_capMatrix pb sat in
  let kr := p_krMatrix pb sat in
  let press := fun i => p0 + (pC i - pC O) in
  let mu := p_viscosity pb press in
  mkQuantities (mkFluid sat press mu) kr (fun i => kr i / mu i)
    (q_fractureFluid q) (q_fractureVolume q) (q_fracturePoro q) (q_fracturePerm q) (q_fractureKr q).

Definition globalIdx (x : elementCtx) (v : nat) : nat := nth v (x_vertices x) 0%nat.
(** discretefractureintensivequantities.hh:120-144: the loop over the other vertices of the
    element. *)
Definition fractureVolumeOf (pb : problem) (x : elementCtx) (v : nat) : Q :=
  fold_left (fun acc v2 =>
      if Nat.eqb v v2 || negb (isFractureEdge (globalIdx x v) (globalIdx x v2) (p_mapper pb)) then acc
      else acc + (p_width pb (globalIdx x v) (globalIdx x v2) / 2) * (x_length x v v2 / 2))
    (seq 0 (length (x_vertices x))) 0.

(** discretefractureintensivequantities.hh:83-183.  Without Valgrind the calls of SetUndefined
    have no effect: what is not assigned keeps its old value. *)
Definition update (pb : problem) (x : elementCtx) (v : nat) (s0 p0 : Q) (q : quantities) : quantities :=
  let q1 := parentUpdate pb s0 p0 q in
  if negb (isFractureVertex (globalIdx x v) (p_mapper pb)) then
    mkQuantities (q_fluid q1) (q_kr q1) (q_mobility q1) (q_fractureFluid q1) 0 (q_fracturePoro q1) (q_fracturePerm q1) (q_fractureKr q1)
  else
    let swMatrix := stdMin 1 (f_sat (q_fluid q1) (p_wetting pb)) in
    let fs := setSaturation (p_nonWetting pb) (1 - swMatrix) (setSaturation (p_wetting pb) swMatrix (q_fluid q1)) in
    let s := p_satFracture pb fs in
    let ff := setSaturation 1 (s 1%nat) (setSaturation 0 (s 0%nat) fs) in
    let swFracture := stdMax 0 (f_sat ff (p_wetting pb)) in
    let ff2 := setSaturation (p_nonWetting pb) (1 - swFracture) (setSaturation (p_wetting pb) swFracture ff) in
    mkQuantities fs (q_kr q1) (q_mobility q1) ff2 (fractureVolumeOf pb x v) (p_poro pb (globalIdx x v)) (p_perm pb (globalIdx x v))
      (p_krFracture pb (f_sat ff2)).

(** discretefractureintensivequantities.hh:201-205. *)
Definition fractureMobility (q : quantities) (i : nat) : Q := q_fractureKr q i / f_visc (q_fractureFluid q) i.
