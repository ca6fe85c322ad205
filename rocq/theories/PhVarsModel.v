(** Primary variables of the immiscible, NCP, Richards, flash and PT-flash models, the fluid states computed from
    them, the Newton updates of the Richards and PT-flash models and the phase presence equations of the NCP model.

    Material laws, fluid systems and flash solvers are parameters of the definitions. Derivatives, valgrind
    annotations and assertions are not modelled. *)
From Verif Require Export Num.
Export ListNotations.

Definition vec := nat -> Q.
Definition put (v : vec) (i : nat) (q : Q) : vec := fun j => if (j =? i)%nat then q else v j.
(** A fluid state: temperature, and by phase pressure and saturation, mole fraction and molarity of each component. *)
Record fstate := mkFs { fs_T : Q; fs_p : vec; fs_S : vec; fs_x : nat -> vec; fs_c : nat -> vec }.
(** A loop [for (i = 0; i < n; ++i) v[base + i] = f(i)]. *)
Definition fill (base n : nat) (f : nat -> Q) (v : vec) : vec := fold_left (fun v i => put v (base + i) (f i)) (seq 0 n) v.
(** A loop [for (i = 0; i < n; ++i) s += f(i)]. *)
Definition accum (n : nat) (f : nat -> Q) : Q := fold_left (fun s i => s + f i) (seq 0 n) 0.

(** common/energymodule.hh 115-117, 341-351; [e] is temperatureIdx if the energy equation is enabled. *)
Definition setTemperature (e : option nat) (fs : fstate) (v : vec) : vec :=
  match e with Some i => put v i (fs_T fs) | None => v end.
(** common/energymodule.hh 571-578, 618-635. *)
Definition readTemperature (e : option nat) (problemT : Q) (v : vec) : Q :=
  match e with Some i => v i | None => problemT end.

(** immiscible/immiscibleprimaryvariables.hh 163-170, ncp/ncpprimaryvariables.hh 136-144: the "global molarities". *)
Definition globalMolarities (P : nat) (fs : fstate) : vec := fun c => accum P (fun a => fs_S fs a * fs_c fs a c).

(** ** Immiscible model; indices immiscible/immiscibleindices.hh 53-66 ([off] is PVOffset) *)
Definition imm_energy (energy : bool) (P off : nat) : option nat := if energy then Some (off + P)%nat else None.
(** immiscible/immiscibleprimaryvariables.hh 196-205. *)
Definition imm_assign (energy : bool) (P off : nat) (fs : fstate) (v : vec) : vec :=
  let v := setTemperature (imm_energy energy P off) fs v in
  let v := put v (off + 0) (fs_p fs 0%nat) in
  fill (off + 1) (P - 1) (fs_S fs) v.
(** immiscible/immiscibleprimaryvariables.hh 129-177; [prepare] copies the fluid state and computes its densities (147-161),
    [flash] is ImmiscibleFlash::solve. *)
Definition imm_assign_mass (energy : bool) (P off : nat) (prepare : fstate -> fstate) (flash : fstate -> vec -> fstate)
    (inEquilibrium : bool) (fs : fstate) (v : vec) : vec :=
  if inEquilibrium then imm_assign energy P off fs v
  else
    let fsFlash := prepare fs in
    imm_assign energy P off (flash fsFlash (globalMolarities P fsFlash)) v.
(** immiscible/immiscibleintensivequantities.hh 105-111, ncp/ncpintensivequantities.hh 111-117: the saturations. *)
Definition readSaturations (P s0 : nat) (v : vec) : vec :=
  put (fill 0 (P - 1) (fun a => v (s0 + a)%nat) (fun _ => 0)) (P - 1) (1 - accum (P - 1) (fun a => v (s0 + a)%nat)).
(** immiscible/immiscibleintensivequantities.hh 113-123, ncp/ncpintensivequantities.hh 127-133: the pressures; [pc] is
    MaterialLaw::capillaryPressures as a function of the saturations. *)
Definition readPressures (P : nat) (pc : vec -> vec) (S : vec) (p0 : Q) : vec :=
  fill 0 P (fun a => p0 + (pc S a - pc S 0%nat)) (fun _ => 0).
(** immiscible/immiscibleintensivequantities.hh 92-124. Compositions are those of the immiscible fluid state, not
    modelled. *)
Definition imm_read (energy : bool) (P off : nat) (pc : vec -> vec) (problemT : Q) (v : vec) : fstate :=
  let S := readSaturations P (off + 1) v in
  mkFs (readTemperature (imm_energy energy P off) problemT v) (readPressures P pc S (v (off + 0)%nat)) S (fun _ _ => 0) (fun _ _ => 0).

(** ** NCP model; indices ncp/ncpindices.hh 56-100 *)
Definition ncp_energy (energy : bool) (P C off : nat) : option nat := if energy then Some (off + C + P)%nat else None.
Definition ncp_sat0 (C off : nat) : nat := off + C.
Definition ncp_p0 (P C off : nat) : nat := off + C + P - 1.
(** ncp/ncpprimaryvariables.hh 157-187; [phi] is FluidSystem::fugacityCoefficient. *)
Definition ncp_assign (energy : bool) (P C off : nat) (phi : fstate -> nat -> nat -> Q) (ref : nat) (fs : fstate) (v : vec) : vec :=
  let v := setTemperature (ncp_energy energy P C off) fs v in
  let pRef := fs_p fs ref in
  let v := fill off C (fun c => phi fs ref c * fs_x fs ref c * pRef) v in
  let v := put v (ncp_p0 P C off) (fs_p fs 0%nat) in
  fill (ncp_sat0 C off) (P - 1) (fs_S fs) v.
(** ncp/ncpprimaryvariables.hh 100-151. *)
Definition ncp_assign_mass (energy : bool) (P C off : nat) (phi : fstate -> nat -> nat -> Q) (prepare : fstate -> fstate)
    (flash : fstate -> vec -> fstate) (inEquilibrium : bool) (fs : fstate) (v : vec) : vec :=
  if inEquilibrium then ncp_assign energy P C off phi 0 fs v
  else
    let fsFlash := prepare fs in
    ncp_assign energy P C off phi 0 (flash fsFlash (globalMolarities P fsFlash)) v.
(** ncp/ncpintensivequantities.hh 100-158; [compose T p a fug] is what CompositionFromFugacities::solve leaves as mole
    fractions of phase [a]; the initial guess is not modelled. *)
Definition ncp_read (energy : bool) (P C off : nat) (pc : vec -> vec) (compose : Q -> vec -> nat -> vec -> vec) (problemT : Q)
    (v : vec) : fstate :=
  let S := readSaturations P (ncp_sat0 C off) v in
  let T := readTemperature (ncp_energy energy P C off) problemT v in
  let p := readPressures P pc S (v (ncp_p0 P C off)) in
  let fug := fill 0 C (fun c => v (off + c)%nat) (fun _ => 0) in
  mkFs T p S (fun a => compose T p a fug) (fun _ _ => 0).

(** *** The phase presence equations: ncp/ncplocalresidual.hh *)
(** 234-241. *)
Definition phasePresentIneq (fs : fstate) (a : nat) : Q := fs_S fs a.
(** 246-256. *)
Definition phaseNotPresentIneq (C : nat) (fs : fstate) (a : nat) : Q := fold_left (fun s i => s - fs_x fs a i) (seq 0 C) 1.
Definition qmin (a b : Q) : Q := if Qltb b a then b else a.
Definition qmax (a b : Q) : Q := if Qltb a b then b else a.
(** 213-227. *)
Definition phaseNcp (C : nat) (fs : fstate) (a : nat) : Q := qmin (phaseNotPresentIneq C fs a) (phasePresentIneq fs a).
(** 194-208; [source] is what the problem specifies, ncp0EqIdx = off + C (ncpindices.hh 73). *)
Definition ncp_source (P C off : nat) (fs : fstate) (source : vec) : vec := fill (off + C) P (phaseNcp C fs) source.
(** *** The error which the Newton method checks: ncp/ncpnewtonmethod.hh 85-116 for one process.
    A degree of freedom: its volume, whether it is constrained, its residual and the weights of its equations. The first
    [gridDofs] are degrees of freedom of the grid. *)
Record dof := mkDof { d_volume : Q; d_constrained : bool; d_residual : vec; d_weight : vec }.
Definition qabs (q : Q) : Q := if Qltb q 0 then - q else q.
Definition ncpError (P C off numEq gridDofs : nat) (constraintsEnabled : bool) (dofs : list dof) : Q :=
  fold_left (fun err id =>
    let '(i, d) := id in
    if (gridDofs <=? i)%nat || Qle_bool (d_volume d) 0 then err
    else if constraintsEnabled && d_constrained d then err
    else fold_left (fun err eq =>
           if ((off + C <=? eq) && (eq <? off + C + P))%nat then err
           else qmax (qabs (d_residual d eq * d_weight d eq)) err) (seq 0 numEq) err)
    (combine (seq 0 (length dofs)) dofs) 0.

(** ** Flash model; indices flash/flashindices.hh 44-67 *)
Definition flash_energy (energy : bool) (C off : nat) : option nat := if energy then Some (off + C)%nat else None.
(** flash/flashprimaryvariables.hh 113-129; the loop over the phases is the outer one. *)
Definition flash_assign (energy : bool) (P C off : nat) (fs : fstate) (v : vec) : vec :=
  let v := setTemperature (flash_energy energy C off) fs (fun _ => 0) in
  fold_left (fun v a => fold_left (fun v c => put v (off + c) (v (off + c)%nat + fs_c fs a c * fs_S fs a)) (seq 0 C) v)
    (seq 0 P) v.
(** flash/flashintensivequantities.hh 103-137; [solve T cTotal] is the fluid state found by FlashSolver::solve. *)
Definition flash_read (energy : bool) (C off : nat) (solve : Q -> vec -> fstate) (problemT : Q) (v : vec) : fstate :=
  solve (readTemperature (flash_energy energy C off) problemT v) (fill 0 C (fun c => v (off + c)%nat) (fun _ => 0)).

(** ** PT-flash model; indices ptflash/flashindices.hh 57-63 *)
Definition floorZ : Q := 1 # 100000000.
(** ptflash/flashprimaryvariables.hh 123-134: [z] and the sum of the moles. *)
Definition pt_moles (fs : fstate) (a c : nat) : Q := fs_c fs a c * fs_S fs a.
Definition pt_fractions (P C : nat) (fs : fstate) : vec :=
  let '(z, sumMoles) :=
    fold_left (fun zs a => fold_left (fun '(z, s) c => (put z c (z c + qmax (pt_moles fs a c) floorZ), s + pt_moles fs a c)) (seq 0 C) zs)
      (seq 0 P) ((fun _ => 0), 0) in
  fun c => z c / sumMoles.
(** ptflash/flashprimaryvariables.hh 114-139. *)
Definition pt_assign (energy : bool) (P C off : nat) (fs : fstate) (v : vec) : vec :=
  let v := setTemperature (flash_energy energy C off) fs (fun _ => 0) in
  let z := pt_fractions P C fs in
  let v := fill (off + 1) (C - 1) z v in
  put v off (fs_p fs 0%nat).
(** ptflash/flashintensivequantities.hh 117-133. *)
Definition pt_read_fractions (C off : nat) (v : vec) : vec :=
  let lastZ := fold_left (fun s c => s - v (off + 1 + c)%nat) (seq 0 (C - 1)) 1 in
  let z := put (fill 0 (C - 1) (fun c => v (off + 1 + c)%nat) (fun _ => 0)) (C - 1) lastZ in
  let z := fill 0 C (fun c => qmax (z c) floorZ) z in
  let sumz := accum C z in
  fun c => z c / sumz.
(** ptflash/flashintensivequantities.hh 135-137: all phases get the same pressure. *)
Definition pt_read_pressure (off : nat) (v : vec) : nat -> Q := fun _ => v off.
(** ptflash/flashintensivequantities.hh 213-221: the saturations of oil and gas from the quotient of line 214. *)
Definition pt_saturations (quotient : Q) : Q * Q :=
  let So := qmax quotient 0 in
  let Sg := qmax (1 - So) 0 in
  let sumS := So + Sg in
  (So / sumS, Sg / sumS).

(** *** ptflash/flashnewtonmethod.hh *)
(** 130-133; [None]: std::clamp with its bounds in the wrong order is undefined. *)
Definition clamp (x lo hi : Q) : option Q := if Qltb hi lo then None else Some (if Qltb x lo then lo else if Qltb hi x then hi else x).
(** 105-112. *)
Definition pt_maxDelta (C off : nat) (update : vec) : Q :=
  let m := fold_left (fun m c => qmax (qabs (update (off + 1 + c)%nat)) m) (seq 0 (C - 1)) 0 in
  qmax (qabs (accum (C - 1) (fun c => update (off + 1 + c)%nat))) m.
(** 116-122. *)
Definition pt_scaled (C off : nat) (current update next : vec) : vec :=
  let m := pt_maxDelta C off update in
  if Qltb (1 # 5) m
  then fill (off + 1) (C - 1) (fun c => current (off + 1 + c)%nat - (1 # 5) / m * update (off + 1 + c)%nat) next
  else next.
(** 124-127; the bounds are in the right order. *)
Definition pt_clampZ (q : Q) : Q := if Qltb q floorZ then floorZ else if Qltb (1 - floorZ) q then 1 - floorZ else q.
(** 80-128. *)
Definition pt_update (C off : nat) (current update : vec) : option vec :=
  let next := fun j => current j - update j in
  match clamp (next off) (current off * (8 # 10)) (current off * (12 # 10)) with
  | None => None
  | Some p =>
      let next := pt_scaled C off current update (put next off p) in
      Some (fold_left (fun v c => put v (off + 1 + c) (pt_clampZ (v (off + 1 + c)%nat))) (seq 0 (C - 1)) next)
  end.

(** ** Richards model: pressureWIdx is 0, numEq is 1 (richards/richardsindices.hh 41-47) *)
(** The phase pressures of a new ImmiscibleFluidState are not initialised: [None]. *)
Definition pressures := nat -> option Q.
Definition setPressure (p : pressures) (a : nat) (q : Q) : pressures := fun b => if (b =? a)%nat then Some q else p b.
(** richards/richardsprimaryvariables.hh 102-120; [pc Sl] is pC[gas] - pC[liquid] at the liquid saturation [Sl]; the result is
    what assignNaive (180-187) reads: the pressure of the liquid. *)
Definition rich_fromWetting (liquid gas : nat) (pc : Q -> Q) (pw Sw : Q) : option Q :=
  let p := setPressure (fun _ => None) liquid pw in
  let p := setPressure p gas (pw + pc Sw) in
  p liquid.
(** richards/richardsprimaryvariables.hh 130-148. *)
Definition rich_fromNonWetting (liquid gas : nat) (pc : Q -> Q) (pn Sn : Q) : option Q :=
  let p := setPressure (fun _ => None) gas pn in
  let p := setPressure p gas (pn - pc (1 - Sn)) in
  p liquid.
(** richards/richardsintensivequantities.hh 101-127: pressures and saturation of the liquid; [sat] is MaterialLaw::saturations as
    a function of the difference of the phase pressures. *)
Definition rich_gasPressure (pc : Q -> Q) (pref pW : Q) : Q := qmax pref (pW + pc 1).
Definition rich_saturation (pc sat : Q -> Q) (pref pW : Q) : Q := sat (rich_gasPressure pc pref pW - pW).
(** richards/richardsnewtonmethod.hh 77-154. *)
Definition rich_update (pc sat : Q -> Q) (pref : Q) (iterations : nat) (pW update : Q) : Q :=
  let next := pW - update in
  if (4 <? iterations)%nat then next
  else
    let pNOld := rich_gasPressure pc pref pW in
    let satOld := qmax 0 (sat (pNOld - pW)) in
    let pwMin := pNOld - pc (satOld - (1 # 5)) in
    let pwMax := pNOld - pc (satOld + (1 # 5)) in
    qmax pwMin (qmin next pwMax).
