(** The finite volume approximations of values and gradients at flux integration points
    (discretization/common/fvbasegradientcalculator.hh, discretization/vcfv/p1fegradientcalculator.hh),
    the Darcy flux module (common/darcyfluxmodule.hh) and the free-flow boundary conditions of the
    models other than the black-oil model (immiscible/immiscibleboundaryratevector.hh,
    flash/flashboundaryratevector.hh, ncp/ncpboundaryratevector.hh, pvs/pvsboundaryratevector.hh,
    richards/richardsboundaryratevector.hh).

    Values only: the derivatives carried along by automatic differentiation (the case distinctions
    over the focused degree of freedom) are not modelled. Arithmetic is exact; the exception for
    potential gradients which are not finite (only possible if two centres coincide) is not modelled.
    A vector of the world's dimension is a function from the index of a coordinate. *)
From Verif Require Export Num.
Export ListNotations.

Definition vec := nat -> Q.
Definition mat := nat -> nat -> Q.

(** Dune::FieldVector: the product of two vectors, the difference of two, the scaling of one,
    two_norm2(); Dune::FieldMatrix::mv. *)
Definition dot (dim : nat) (a b : vec) : Q :=
  fold_left (fun s k => s + a k * b k) (seq 0 dim) 0.
Definition vminus (a b : vec) : vec := fun k => a k - b k.
Definition vplus (a b : vec) : vec := fun k => a k + b k.
Definition vscale (a : vec) (s : Q) : vec := fun k => a k * s.
Definition norm2 (dim : nat) (a : vec) : Q := dot dim a a.
Definition mv (dim : nat) (K : mat) (x : vec) : vec := fun r => dot dim (K r) x.

(** ** Approximations of values and gradients *)
(** fvbasegradientcalculator.hh 321-352: computeDistances_; [root] stands for std::sqrt. *)
Definition distances (root : Q -> Q) (dim : nat) (normal ipos posIn posEx : vec) : Q * Q :=
  (root (Qabs (fold_left (fun s k => s + (posIn k - ipos k) * normal k) (seq 0 dim) 0)),
   root (Qabs (fold_left (fun s k => s + (posEx k - ipos k) * normal k) (seq 0 dim) 0))).
(** fvbasegradientcalculator.hh 94-126: calculateScalarValue; 140-186: calculateVectorValue does the same
    for every entry of a vector. *)
Definition scalarValue (root : Q -> Q) (dim : nat) (normal ipos posIn posEx : vec) (qIn qEx : Q) : Q :=
  let d := distances root dim normal ipos posIn posEx in
  (qIn * fst d + qEx * snd d) / (fst d + snd d).
(** fvbasegradientcalculator.hh 200-247: calculateGradient. *)
Definition gradient (dim : nat) (posIn posEx : vec) (qIn qEx : Q) : vec :=
  let deltay := qEx - qIn in
  let distSquared := fold_left (fun s k => s + (posEx k - posIn k) * (posEx k - posIn k)) (seq 0 dim) 0 in
  fun k => deltay * ((posEx k - posIn k) / distSquared).
(** fvbasegradientcalculator.hh 262-267: calculateBoundaryValue. *)
Definition boundaryValue (qBoundary : Q) : Q := qBoundary.
(** fvbasegradientcalculator.hh 283-318: calculateBoundaryGradient. *)
Definition boundaryGradient (dim : nat) (posIn posFace : vec) (qIn qBoundary : Q) : vec :=
  let deltay := qBoundary - qIn in
  let distSquared := fold_left (fun s k => s + (posFace k - posIn k) * (posFace k - posIn k)) (seq 0 dim) 0 in
  fun k => deltay * ((posFace k - posIn k) / distSquared).

(** p1fegradientcalculator.hh 152-184: calculateScalarValue with finite element gradients; [shape v] is the
    value of the shape function of a vertex at the integration point (127: evaluateFunction). *)
Definition p1Value (vertices : nat) (shape : nat -> Q) (quantity : nat -> Q) : Q :=
  fold_left (fun s v => s + quantity v * shape v) (seq 0 vertices) 0.
(** p1fegradientcalculator.hh 129-147: prepare multiplies the local gradient of a shape function by the
    inverse transposed Jacobian of the element's geometry; 253-292: calculateGradient. *)
Definition p1Gradient (dim vertices : nat) (jacInvT : mat) (localGradient : nat -> vec) (quantity : nat -> Q) : vec :=
  fun k => fold_left (fun s v => s + quantity v * mv dim jacInvT (localGradient v) k) (seq 0 vertices) 0.

(** ** Darcy fluxes *)
(** What a degree of freedom provides. *)
Record point := mkPoint {
  p_pos : vec;                  (* position *)
  p_grav : vec;                 (* problem.gravity() *)
  p_perm : mat;                 (* intrinsicPermeability *)
  p_press : nat -> Q;           (* pressure of every phase *)
  p_rho : nat -> Q;             (* density of every phase *)
  p_mob : nat -> Q              (* mobility of every phase *)
}.

(** multiphasebaseproblem.hh 110-125: intersectionIntrinsicPermeability, the entry-wise harmonic mean;
    [mean] stands for opm-common's harmonicMean. *)
Definition facePerm (mean : Q -> Q -> Q) (a b : point) : mat :=
  fun r c => mean (p_perm a r c) (p_perm b r c).

(** darcyfluxmodule.hh 196-277: the gradient of the potential of a phase at an interior face. *)
Definition potentialGrad (gravity : bool) (dim : nat) (ipos : vec) (inn ex : point) (a : nat) : vec :=
  let raw := gradient dim (p_pos inn) (p_pos ex) (p_press inn a) (p_press ex a) in
  if gravity then
    let distIn := vminus (p_pos inn) ipos in
    let distEx := vminus (p_pos ex) ipos in
    let distTotal := vminus (p_pos ex) (p_pos inn) in
    let pStatIn := - p_rho inn a * dot dim (p_grav inn) distIn in
    let pStatEx := - p_rho ex a * dot dim (p_grav ex) distEx in
    vplus raw (vscale distTotal ((pStatEx - pStatIn) / norm2 dim distTotal))
  else raw.
(** darcyfluxmodule.hh 301-312: whether the interior degree of freedom is the upstream one. *)
Definition interiorIsUpstream (dim : nat) (normal grad : vec) : bool :=
  negb (Qltb 0 (fold_left (fun s k => s + grad k * normal k) (seq 0 dim) 0)).
(** darcyfluxmodule.hh 509-525: calculateFilterVelocity_. *)
Definition filterVelocity (dim : nat) (K : mat) (mob : Q) (grad : vec) : vec :=
  vscale (mv dim K grad) (- mob).
(** darcyfluxmodule.hh 183-324 and 459-479: the volume flux of a phase over an interior face and whether
    the interior side is the upstream one. Phases which are not considered are not modelled. *)
Definition darcyUpstream (gravity : bool) (dim : nat) (normal ipos : vec) (inn ex : point) (a : nat) : bool :=
  interiorIsUpstream dim normal (potentialGrad gravity dim ipos inn ex a).
Definition darcyFlux (mean : Q -> Q -> Q) (gravity : bool) (dim : nat) (normal ipos : vec) (inn ex : point) (a : nat) : Q :=
  let grad := potentialGrad gravity dim ipos inn ex a in
  let mob := if interiorIsUpstream dim normal grad then p_mob inn a else p_mob ex a in
  let v := filterVelocity dim (facePerm mean inn ex) mob grad in
  fold_left (fun s k => s + v k * normal k) (seq 0 dim) 0.

(** darcyfluxmodule.hh 337-398: the gradient of the potential of a phase at a boundary face; [pB] is the
    pressure of the boundary's fluid state. *)
Definition boundaryPotentialGrad (gravity : bool) (dim : nat) (ipos : vec) (inn : point) (pB : Q) (a : nat) : vec :=
  let raw := boundaryGradient dim (p_pos inn) ipos (p_press inn a) pB in
  if gravity then
    let distIn := vminus (p_pos inn) ipos in
    let pStatIn := - dot dim (p_grav inn) distIn * p_rho inn a in
    vplus raw (vscale distIn (pStatIn / norm2 dim distIn))
  else raw.
(** darcyfluxmodule.hh 331-451 and 486-507: the volume flux of a phase over a boundary face; [mobB] is the
    relative permeability over the viscosity of the boundary's fluid state. *)
Definition darcyBoundaryFlux (gravity : bool) (dim : nat) (normal ipos : vec) (inn : point) (pB mobB : Q) (a : nat) : Q :=
  let grad := boundaryPotentialGrad gravity dim ipos inn pB a in
  let mob := if interiorIsUpstream dim normal grad then p_mob inn a else mobB in
  let v := filterVelocity dim (p_perm inn) mob grad in
  fold_left (fun s k => s + v k * normal k) (seq 0 dim) 0.

(** ** Free-flow boundaries *)
(** What a fluid state provides of a phase: its pressure, density and specific enthalpy, and the molarity
    of every component. *)
Record fluid := mkFluid {
  f_press : nat -> Q; f_rho : nat -> Q; f_h : nat -> Q; f_molarity : nat -> nat -> Q }.
(** The models: which phases and components there are and what is conserved. *)
Inductive unit_ := PhaseMass | Moles.

(** The amount of an equation's component which a phase holds per volume: the immiscible
    model's component is the phase of the same index (immiscibleboundaryratevector.hh 113-128), the
    compositional models take the molarity (flashboundaryratevector.hh 112-126, ncpboundaryratevector.hh
    114-130, pvsboundaryratevector.hh 113-129). *)
Definition carried (u : unit_) (f : fluid) (a c : nat) : Q :=
  match u with
  | PhaseMass => if (c =? a)%nat then f_rho f a else 0
  | Moles => f_molarity f a c
  end.
(** immiscibleboundaryratevector.hh 98-157, flashboundaryratevector.hh 84-157, ncpboundaryratevector.hh
    86-159, pvsboundaryratevector.hh 88-158: setFreeFlow; [vf] are the volume fluxes of the phases. The
    rate of the component [c] and the rate of energy without conduction. *)
Definition freeFlowRate (u : unit_) (phases : nat) (vf : nat -> Q) (inside bnd : fluid) (c : nat) : Q :=
  fold_left (fun s a =>
    let up := if Qltb (f_press inside a) (f_press bnd a) then bnd else inside in
    s + vf a * carried u up a c) (seq 0 phases) 0.
Definition freeFlowEnergy (phases : nat) (vf : nat -> Q) (inside bnd : fluid) : Q :=
  fold_left (fun s a =>
    let up := if Qltb (f_press inside a) (f_press bnd a) then bnd else inside in
    s + f_rho up a * vf a * f_h up a) (seq 0 phases) 0.
(** richardsboundaryratevector.hh 82-119: setFreeFlow, one phase only. *)
Definition richardsFreeFlow (liquid : nat) (vf : nat -> Q) (inside bnd : fluid) : Q :=
  vf liquid * f_rho (if Qltb (f_press inside liquid) (f_press bnd liquid) then bnd else inside) liquid.
(** immiscibleboundaryratevector.hh 171-213 and the same methods of the other models: setInFlow,
    setOutFlow, setNoFlow, for every entry. *)
Definition inFlowRate (rate : nat -> Q) : nat -> Q := fun e => if Qltb (rate e) 0 then rate e else 0.
Definition outFlowRate (rate : nat -> Q) : nat -> Q := fun e => if Qltb 0 (rate e) then rate e else 0.
Definition noFlowRate : nat -> Q := fun _ => 0.
