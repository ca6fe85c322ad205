(** The local residuals of the models other than the black-oil model: immiscible/immisciblelocalresidual.hh,
    flash/flashlocalresidual.hh, ptflash/flashlocalresidual.hh, ncp/ncplocalresidual.hh, pvs/pvslocalresidual.hh,
    richards/richardslocalresidual.hh and discretefracture/discretefracturelocalresidual.hh with
    common/energymodule.hh, common/diffusionmodule.hh and the fluxes of common/darcyfluxmodule.hh.

    An [Evaluation] is a value with the derivative with regard to one primary variable. Every degree of freedom's
    quantities carry the derivatives with regard to its own variables (fvbaseprimaryvariables.hh 101-113:
    makeEvaluation asks only for the time index); the code has to drop those of the degrees of freedom which are not
    the focused one ([Toolbox::value]). Arithmetic is exact. A vector of the equations is a function from the index
    of an equation. All phases are considered. *)
From Verif Require Export Num DarcyModel RateModel.
Export ListNotations.

(** ** Evaluations (opm-common's DenseAd::Evaluation and MathToolbox::value) *)
Record ad := mkAD { val : Q; der : Q }.
Definition constant (q : Q) : ad := mkAD q 0.
Definition dropped (x : ad) : ad := constant (val x).
Definition aadd (x y : ad) : ad := mkAD (val x + val y) (der x + der y).
Definition asub (x y : ad) : ad := mkAD (val x - val y) (der x - der y).
Definition amul (x y : ad) : ad := mkAD (val x * val y) (der x * val y + val x * der y).
Definition aopp (x : ad) : ad := mkAD (- val x) (- der x).
Definition ascale (x : ad) (q : Q) : ad := mkAD (val x * q) (der x * q).

(** What a degree of freedom's intensive quantities provide. *)
Record quants := mkQuants {
  porosity : ad;
  pressure : nat -> ad; mobility : nat -> ad;
  saturation : nat -> ad; density : nat -> ad; molarDensity : nat -> ad;
  molarity : nat -> nat -> ad; moleFraction : nat -> nat -> ad; massFraction : nat -> nat -> ad;
  internalEnergy : nat -> ad; enthalpy : nat -> ad; solidEnergy : ad;
  temperature : ad; conductivity : ad; diffusivity : nat -> nat -> ad   (* effectiveDiffusionCoefficient *)
}.

(** What is conserved: the mass of every phase (immiscible), the moles of every component (flash, NCP, PVS) or the
    mass of every component (PT flash). *)
Inductive kind := PhaseMasses | CompMoles | CompMasses.

Definition eqs := nat -> ad.
Definition addTo (v : eqs) (i : nat) (x : ad) : eqs := fun j => if (j =? i)%nat then aadd (v j) x else v j.
Definition assign (v : eqs) (i : nat) (x : ad) : eqs := fun j => if (j =? i)%nat then x else v j.
Definition zeros : eqs := fun _ => constant 0.

(** ** Storage *)
(** energymodule.hh 357-368: addPhaseStorage; 394-396: addSolidEnergyStorage; both do nothing without energy. *)
Definition energyPhaseStorage (l : layout) (q : quants) (a : nat) (v : eqs) : eqs :=
  match l_energy l with
  | Some e => addTo v e (amul (amul (amul (density q a) (internalEnergy q a)) (saturation q a)) (porosity q))
  | None => v
  end.
Definition energySolidStorage (l : layout) (q : quants) (v : eqs) : eqs :=
  match l_energy l with Some e => addTo v e (solidEnergy q) | None => v end.
(** immisciblelocalresidual.hh 75-93 (an assignment); flashlocalresidual.hh 71-91, ncplocalresidual.hh 77-97,
    pvslocalresidual.hh 73-93; ptflash/flashlocalresidual.hh 70-91. *)
Definition phaseStorage (k : kind) (l : layout) (q : quants) (a : nat) (v : eqs) : eqs :=
  energyPhaseStorage l q a
    match k with
    | PhaseMasses => assign v (l_conti0 l + a) (amul (amul (porosity q) (saturation q a)) (density q a))
    | CompMoles =>
        fold_left (fun v c => addTo v (l_conti0 l + c) (amul (amul (molarity q a c) (saturation q a)) (porosity q)))
          (seq 0 (l_comps l)) v
    | CompMasses =>
        fold_left (fun v c => addTo v (l_conti0 l + c)
                     (amul (amul (amul (massFraction q a c) (density q a)) (saturation q a)) (porosity q)))
          (seq 0 (l_comps l)) v
    end.
(** immisciblelocalresidual.hh 98-109, flashlocalresidual.hh 96-107, ncplocalresidual.hh 102-113,
    pvslocalresidual.hh 98-109, ptflash/flashlocalresidual.hh 96-107: computeStorage. *)
Definition computeStorage (k : kind) (phases : nat) (l : layout) (q : quants) : eqs :=
  energySolidStorage l q (fold_left (fun v a => phaseStorage k l q a v) (seq 0 phases) zeros).
(** richardslocalresidual.hh 60-73. *)
Definition richardsStorage (eq liquid : nat) (q : quants) (v : eqs) : eqs :=
  assign v eq (amul (amul (density q liquid) (saturation q liquid)) (porosity q)).

(** discretefracturelocalresidual.hh 67-105: addPhaseStorage; [fracture] holds the quantities of the fractures and
    [part] is the fraction of the sub-control volume which they fill (fractureVolume()/volume()); [None] stands for
    a vertex without fractures. energymodule.hh 374-387: addFracturePhaseStorage. *)
Definition fracturePhaseStorage (l : layout) (q : quants) (fracture : option (quants * Q)) (a : nat) (v : eqs) : eqs :=
  let matrix := phaseStorage PhaseMasses l q a zeros in
  let plus (w : eqs) : eqs := fun j => aadd (v j) (w j) in
  match fracture with
  | None => plus matrix
  | Some (f, part) =>
      let w := fun j => ascale (matrix j) (1 - part) in
      let w := addTo w (l_conti0 l + a) (ascale (amul (amul (porosity f) (saturation f a)) (density f a)) part) in
      let w := match l_energy l with
               | Some e => addTo w e (ascale (amul (amul (amul (density f a) (internalEnergy f a)) (saturation f a)) (porosity f)) part)
               | None => w
               end in
      plus w
  end.
Definition fractureStorage (phases : nat) (l : layout) (q : quants) (fracture : option (quants * Q)) : eqs :=
  energySolidStorage l q (fold_left (fun v a => fracturePhaseStorage l q fracture a v) (seq 0 phases) zeros).

(** ** Gradients *)
(** The element: its degrees of freedom, the focused one, where they are; a face of the stencil and how gradients are
    approximated: two-point gradients, or finite element ones with the gradients of the shape functions. *)
Record place := mkPlace {
  pl_dim : nat; pl_pos : nat -> vec; pl_gravity : option (nat -> vec);
  pl_in : nat; pl_ex : nat; pl_normal : vec; pl_ipos : vec; pl_K : mat;
  pl_shapes : option (nat * (nat -> vec))
}.
(** fvbasegradientcalculator.hh 200-247 and p1fegradientcalculator.hh 253-292: calculateGradient. *)
Definition calculateGradient (p : place) (focus : nat) (y : nat -> ad) : nat -> ad :=
  let i := pl_in p in let j := pl_ex p in
  match pl_shapes p with
  | None =>
      let deltay :=
        if (i =? focus)%nat then asub (dropped (y j)) (y i)
        else if (j =? focus)%nat then asub (y j) (dropped (y i))
        else asub (dropped (y j)) (dropped (y i)) in
      let d := fun k => pl_pos p j k - pl_pos p i k in
      let distSquared := fold_left (fun s k => s + d k * d k) (seq 0 (pl_dim p)) 0 in
      fun k => ascale deltay (d k / distSquared)
  | Some (vertices, G) =>
      fun k => fold_left (fun s v => aadd s (ascale (if (focus =? v)%nat then y v else dropped (y v)) (G v k)))
                 (seq 0 vertices) (constant 0)
  end.
Definition normalPart (p : place) (g : nat -> ad) : ad :=
  fold_left (fun s k => aadd s (ascale (g k) (pl_normal p k))) (seq 0 (pl_dim p)) (constant 0).

(** ** Volume fluxes *)
(** darcyfluxmodule.hh 196-277: the gradient of the potential. *)
Definition adPotentialGrad (p : place) (focus : nat) (s : nat -> quants) (a : nat) : nat -> ad :=
  let i := pl_in p in let j := pl_ex p in
  let raw := calculateGradient p focus (fun v => pressure (s v) a) in
  match pl_gravity p with
  | None => raw
  | Some g =>
      let distIn := vminus (pl_pos p i) (pl_ipos p) in
      let distEx := vminus (pl_pos p j) (pl_ipos p) in
      let distTotal := vminus (pl_pos p j) (pl_pos p i) in
      let rhoIn := if (i =? focus)%nat then density (s i) a else dropped (density (s i) a) in
      let rhoEx := if (j =? focus)%nat then density (s j) a else dropped (density (s j) a) in
      let pStatIn := ascale (aopp rhoIn) (dot (pl_dim p) (g i) distIn) in
      let pStatEx := ascale (aopp rhoEx) (dot (pl_dim p) (g j) distEx) in
      let f := ascale (asub pStatEx pStatIn) (/ norm2 (pl_dim p) distTotal) in
      fun k => aadd (raw k) (ascale f (distTotal k))
  end.
(** darcyfluxmodule.hh 297-323: the upstream degree of freedom and the mobility. *)
Definition upstream (p : place) (focus : nat) (s : nat -> quants) (a : nat) : nat :=
  if Qltb 0 (val (normalPart p (adPotentialGrad p focus s a))) then pl_ex p else pl_in p.
Definition upMobility (p : place) (focus : nat) (s : nat -> quants) (a : nat) : ad :=
  let up := upstream p focus s a in
  if (up =? focus)%nat then mobility (s up) a else dropped (mobility (s up) a).
(** darcyfluxmodule.hh 459-479 and 509-525: filter velocity and volume flux. [K] carries no derivatives. *)
Definition volumeFlux (p : place) (focus : nat) (s : nat -> quants) (a : nat) : ad :=
  let grad := adPotentialGrad p focus s a in
  let m := aopp (upMobility p focus s a) in
  let v := fun r => amul (fold_left (fun t k => aadd t (ascale (grad k) (pl_K p r k))) (seq 0 (pl_dim p)) (constant 0)) m in
  normalPart p v.

(** ** Fluxes *)
(** What the extensive quantities of a face provide. *)
Record exts := mkExts { x_in : nat; x_ex : nat; x_flux : nat -> ad; x_up : nat -> nat;
                        x_gradT : ad; x_lambda : ad; x_gradX : nat -> nat -> ad; x_D : nat -> nat -> ad }.
(** energymodule.hh 764-790, diffusionmodule.hh 368-411: update_, with the volume fluxes of the Darcy module. *)
Definition extensive (p : place) (focus : nat) (s : nat -> quants) : exts :=
  let i := pl_in p in let j := pl_ex p in
  mkExts i j (volumeFlux p focus s) (upstream p focus s)
    (normalPart p (calculateGradient p focus (fun v => temperature (s v))))
    (ascale (aadd (conductivity (s i)) (conductivity (s j))) (1 # 2))
    (fun a c => normalPart p (calculateGradient p focus (fun v => moleFraction (s v) a c)))
    (fun a c => ascale (aadd (diffusivity (s i) a c) (diffusivity (s j) a c)) (1 # 2)).

(** energymodule.hh 404-426: addAdvectiveFlux; 469-481: addDiffusiveFlux; nothing without energy. *)
Definition energyAdvective (l : layout) (phases : nat) (x : exts) (s : nat -> quants) (v : eqs) : eqs :=
  match l_energy l with
  | Some e => fold_left (fun v a => let up := s (x_up x a) in
                           addTo v e (amul (amul (x_flux x a) (enthalpy up a)) (density up a)))
                (seq 0 phases) v
  | None => v
  end.
Definition energyConductive (l : layout) (x : exts) (v : eqs) : eqs :=
  match l_energy l with
  | Some e => addTo v e (amul (aopp (x_gradT x)) (x_lambda x))
  | None => v
  end.
(** diffusionmodule.hh 108-130: addDiffusiveFlux; nothing if diffusion is disabled (82-89). *)
Definition diffusive (enabled : bool) (l : layout) (phases : nat) (x : exts) (s : nat -> quants) (v : eqs) : eqs :=
  if enabled then
    fold_left (fun v a =>
      let rho := ascale (aadd (molarDensity (s (x_in x)) a) (dropped (molarDensity (s (x_ex x)) a))) (1 # 2) in
      fold_left (fun v c => addTo v (l_conti0 l + c) (amul (amul (aopp rho) (x_gradX x a c)) (x_D x a c)))
        (seq 0 (l_comps l)) v) (seq 0 phases) v
  else v.
(** immisciblelocalresidual.hh 129-155, flashlocalresidual.hh 128-167, ncplocalresidual.hh 134-174,
    pvslocalresidual.hh 130-170, ptflash/flashlocalresidual.hh 128-167: addAdvectiveFlux. *)
Definition phaseAdvective (k : kind) (l : layout) (focus : nat) (x : exts) (s : nat -> quants) (a : nat) (v : eqs) : eqs :=
  let up := s (x_up x a) in
  let keep (y : ad) := if (x_up x a =? focus)%nat then y else dropped y in
  match k with
  | PhaseMasses => addTo v (l_conti0 l + a) (amul (x_flux x a) (keep (density up a)))
  | CompMoles =>
      let tmp := amul (keep (molarDensity up a)) (x_flux x a) in
      fold_left (fun v c => addTo v (l_conti0 l + c) (amul tmp (keep (moleFraction up a c)))) (seq 0 (l_comps l)) v
  | CompMasses =>
      let tmp := amul (keep (density up a)) (x_flux x a) in
      fold_left (fun v c => addTo v (l_conti0 l + c) (amul tmp (keep (massFraction up a c)))) (seq 0 (l_comps l)) v
  end.
Definition advective (k : kind) (l : layout) (phases focus : nat) (x : exts) (s : nat -> quants) (v : eqs) : eqs :=
  energyAdvective l phases x s (fold_left (fun v a => phaseAdvective k l focus x s a v) (seq 0 phases) v).
(** immisciblelocalresidual.hh 114-122 (165-174: no diffusion of mass), flashlocalresidual.hh 112-123 and 172-179,
    the same in the other models: computeFlux. *)
Definition computeFlux (k : kind) (diffusion : bool) (l : layout) (phases focus : nat) (x : exts) (s : nat -> quants) : eqs :=
  let v := advective k l phases focus x s zeros in
  energyConductive l x
    (diffusive (match k with PhaseMasses => false | _ => diffusion end) l phases x s v).
(** richardslocalresidual.hh 78-97. *)
Definition richardsFlux (eq liquid focus : nat) (x : exts) (s : nat -> quants) (v : eqs) : eqs :=
  let up := s (x_up x liquid) in
  let rho := density up liquid in
  assign v eq (amul (x_flux x liquid) (if (focus =? x_up x liquid)%nat then rho else dropped rho)).

(** ** Fractures *)
(** discretefractureextensivequantities.hh 83-119: the volume flux of the fracture which is attributed to a face;
    [norm] stands for two_norm(), [width] is fractureWidth and [area] the area of the face; values only. *)
Definition fractureVolumeFlux (norm : Q -> Q) (dim : nat) (Kf : mat) (posIn posEx : vec) (width area : Q) (mob : Q) (grad : vec) : Q :=
  let d := vminus posEx posIn in
  let dist := norm (norm2 dim d) in
  let v := vscale (mv dim Kf grad) (- mob) in
  fold_left (fun s k => s + v k * (d k / dist) * (width / 2) / area) (seq 0 dim) 0.
(** discretefracturelocalresidual.hh 110-150 and energymodule.hh 433-461: what computeFlux makes of the flux of the
    immiscible model at a face with a fracture; [vf] are the volume fluxes of the fracture, [rhoF] the densities in
    the fracture and [rho], [h] the densities and enthalpies of the matrix, all of the upstream side; values only. *)
Definition fractureFlux (l : layout) (phases : nat) (width area : Q) (vf rhoF rho h : nat -> Q) (v : nat -> Q) : nat -> Q :=
  let keep := 1 - width / (2 * area) in
  let v := fold_left (fun v a => fun j => if (j =? l_conti0 l + a)%nat then v j * keep + vf a * rhoF a else v j)
             (seq 0 phases) v in
  match l_energy l with
  | Some e =>
      let v := fun j => if (j =? e)%nat then v j * keep else v j in
      fold_left (fun v a => fun j => if (j =? e)%nat then v j + vf a * h a * rho a else v j) (seq 0 phases) v
  | None => v
  end.

(** The unit of the rate vectors and boundary rate vectors: immisciblemodel.hh, flashmodel.hh, ncpmodel.hh and
    pvsmodel.hh use their own ones; ptflash/flashmodel.hh 103-111 those of flash/flashratevector.hh and
    flash/flashboundaryratevector.hh. *)
Definition boundaryUnit (k : kind) : unit_ := match k with PhaseMasses => PhaseMass | CompMoles | CompMasses => Moles end.
(** setMassRate of these vectors: immiscibleratevector.hh 99-100, flashratevector.hh 81-89 (the vectors of NCP and PVS
    do the same). *)
Definition setMassRate (k : kind) (l : layout) (M : nat -> Q) (value old : rate) : rate :=
  match k with PhaseMasses => immMass value old | CompMoles | CompMasses => flashMass l M value old end.
