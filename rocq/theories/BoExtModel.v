(** What the extensions of the black-oil model store, transport and produce: the functions addStorage, computeFlux
    and addSource of blackoil/blackoilsolventmodules.hh, blackoilextbomodules.hh, blackoilpolymermodules.hh,
    blackoilfoammodules.hh, blackoilbrinemodules.hh and blackoilmicpmodules.hh in the order in which
    blackoil/blackoillocalresidual.hh calls them, and the volume fluxes of the solvent
    (BlackOilSolventExtensiveQuantities).

    An [Evaluation] is a value with one derivative, as in LocResModel; arithmetic is exact. The energy extension
    (modelled with the fluxes of FluxModel), diffusion and convective mixing are left out. An equation is written
    only if its extension is enabled; the equations of the three black-oil components are given. *)
From Verif Require Export LocResModel.

(** ** Evaluations *)
(** opm-common's DenseAd: max of an evaluation and a number, abs, division. *)
Definition amaxQ (x : ad) (q : Q) : ad := if Qltb (val x) q then constant q else x.
Definition amax (x y : ad) : ad := if Qltb (val x) (val y) then y else x.
Definition aabs (x : ad) : ad := if Qltb (val x) 0 then aopp x else x.
Definition adiv (x y : ad) : ad := mkAD (val x / val y) ((der x * val y - val x * der y) / (val y * val y)).

(** ** What the extensions know of a cell *)
Inductive bphase := Water | Oil | Gas.
Inductive quantity :=
  | Porosity | Saturation (a : bphase) | InvB (a : bphase) | Density (a : bphase) | Pressure (a : bphase)
  | DissolvedGas                                             (* fluidState().Rs() *)
  | SolventSaturation | SolventInvB | SolventDensity | SolventMobility
  | SolventInWater                                           (* rsSolw() *)
  | ZFraction | XVolume | YVolume
  | PolymerConc | PolymerAdsorbed | PolymerCorrection        (* polymerViscosityCorrection() *)
  | PolymerWeight                                            (* polymerMoleWeight() *)
  | FoamConc | FoamAdsorbed
  | SaltConc | SaltSaturation                                (* fluidState().saltConcentration(), saltSaturation() *)
  | MicrobeConc | OxygenConc | UreaConc | BiofilmConc | CalciteConc.
(** The intensive quantities; the last four are Scalars: polymerDeadPoreVolume(), polymerRockDensity(),
    foamRockDensity() and saltDensity(). *)
Record cell := mkCell { qu : quantity -> ad; deadPore : Q; polymerRock : Q; foamRock : Q; saltDensity : Q }.

(** The phase which carries the foam (foam's params_.transport_phase_); [ByOther] is any other value. *)
Inductive carrier := ByWater | ByGas | BySolvent | ByOther.
(** Which extensions are enabled and where their equations are; blackoilConserveSurfaceVolume, isSolubleInWater(),
    FluidSystem::enableDissolvedGas(), enableSaltPrecipitation. *)
Record setup := mkSetup {
  surfaceVolumes : bool; waterEq : nat;
  solventEq : option nat; soluble : bool;
  zFracEq : option nat; dissolvedGas : bool;
  polymerEq : option nat; weightEq : option nat;             (* the latter only with enablePolymerMolarWeight *)
  foamEq : option nat; foamIn : carrier;
  brineEq : option nat; precipitation : bool;
  micpEq : option nat                                        (* the first of the five equations *)
}.
(** The equations, or an exception. *)
Inductive result := Done (v : eqs) | Throws.
Definition andThen (r : result) (f : eqs -> result) : result := match r with Done v => f v | Throws => Throws end.

(** The number by which singular matrices are avoided. *)
Definition tiny : Q := 1 # 10000000000.

(** ** Storage *)
(** blackoilsolventmodules.hh 430-461. *)
Definition solventStorage (S : setup) (c : cell) (v : eqs) : result :=
  match solventEq S with
  | None => Done v
  | Some e =>
      let v := addTo v e (amul (amul (qu c Porosity) (qu c SolventSaturation))
                            (if surfaceVolumes S then qu c SolventInvB else qu c SolventDensity)) in
      Done (if soluble S
            then addTo v e (amul (amul (amul (qu c Porosity) (qu c (Saturation Water)))
                                    (if surfaceVolumes S then qu c (InvB Water) else qu c (Density Water)))
                              (qu c SolventInWater))
            else v)
  end.
(** blackoilextbomodules.hh 319-352: an assignment; contiZfracEqIdx-1 is the equation of the last component. *)
Definition regWeight : Q := 1 # 1000000.
Definition extboStorage (S : setup) (c : cell) (v : eqs) : result :=
  match zFracEq S with
  | None => Done v
  | Some e =>
      if surfaceVolumes S then
        let v := assign v e (amul (amul (amul (qu c Porosity) (qu c YVolume)) (qu c (Saturation Gas))) (qu c (InvB Gas))) in
        let v := if dissolvedGas S
                 then addTo v e (amul (amul (amul (amul (qu c Porosity) (qu c XVolume)) (qu c DissolvedGas))
                                         (qu c (Saturation Oil))) (qu c (InvB Oil)))
                 else v in
        let v := addTo v e (aadd (ascale (asub (constant 1) (qu c ZFraction)) regWeight)
                              (amul (amul (ascale (qu c Porosity) regWeight) (qu c (Saturation Gas))) (qu c (InvB Gas)))) in
        Done (addTo v (e - 1) (ascale (qu c ZFraction) regWeight))
      else Throws
  end.
(** The surface volume of the water in polymer, foam and brine modules. *)
Definition waterVolume (c : cell) : ad := amul (amul (qu c (Saturation Water)) (qu c (InvB Water))) (qu c Porosity).
(** blackoilpolymermodules.hh 472-510. *)
Definition polymerStorage (S : setup) (c : cell) (v : eqs) : result :=
  match polymerEq S with
  | None => Done v
  | Some e =>
      let mass := ascale (amul (amaxQ (waterVolume c) tiny) (qu c PolymerConc)) (1 - deadPore c) in
      let adsorption := amul (ascale (asub (constant 1) (qu c Porosity)) (polymerRock c)) (qu c PolymerAdsorbed) in
      let accumulation := aadd mass adsorption in
      let v := addTo v e accumulation in
      Done match weightEq S with
           | None => v
           | Some w => addTo v w (amul (amaxQ accumulation tiny) (qu c PolymerWeight))
           end
  end.
(** blackoilfoammodules.hh 246-285. Without the solvent extension the case SOLVENT leaves the porosity. *)
Definition foamStorage (S : setup) (c : cell) (v : eqs) : result :=
  match foamEq S with
  | None => Done v
  | Some e =>
      let store (volume : ad) :=
        let free := amul (amaxQ volume tiny) (qu c FoamConc) in
        let adsorbed := amul (ascale (asub (constant 1) (qu c Porosity)) (foamRock c)) (qu c FoamAdsorbed) in
        Done (addTo v e (aadd free adsorbed)) in
      match foamIn S with
      | ByWater => store (amul (qu c Porosity) (amul (qu c (Saturation Water)) (qu c (InvB Water))))
      | ByGas => store (amul (qu c Porosity) (amul (qu c (Saturation Gas)) (qu c (InvB Gas))))
      | BySolvent => store match solventEq S with
                           | Some _ => amul (qu c Porosity) (amul (qu c SolventSaturation) (qu c SolventInvB))
                           | None => qu c Porosity
                           end
      | ByOther => Throws
      end
  end.
(** blackoilbrinemodules.hh 227-258. *)
Definition brineStorage (S : setup) (c : cell) (v : eqs) : result :=
  match brineEq S with
  | None => Done v
  | Some e =>
      let mass := amul (amaxQ (waterVolume c) tiny) (qu c SaltConc) in
      Done (addTo v e
              (if precipitation S
               then aadd mass (amul (ascale (adiv (qu c Porosity)
                                               (aadd (asub (constant 1) (qu c SaltSaturation)) (constant (1 # 100000000))))
                                        (saltDensity c)) (qu c SaltSaturation))
               else mass))
  end.
(** blackoilmicpmodules.hh 239-269; the equations follow each other (blackoilindices.hh). *)
Definition micpStorage (S : setup) (c : cell) (v : eqs) : result :=
  match micpEq S with
  | None => Done v
  | Some e =>
      let volume := amaxQ (qu c Porosity) tiny in
      let v := addTo v e (amul volume (qu c MicrobeConc)) in
      let v := addTo v (e + 1) (amul volume (qu c OxygenConc)) in
      let v := addTo v (e + 2) (amul volume (qu c UreaConc)) in
      let v := addTo v (e + 3) (qu c BiofilmConc) in
      Done (addTo v (e + 4) (qu c CalciteConc))
  end.
(** blackoillocalresidual.hh 166-185: the calls of computeStorage behind the black-oil components. *)
Definition extStorage (S : setup) (c : cell) (v : eqs) : result :=
  andThen (solventStorage S c v) (fun v => andThen (extboStorage S c v) (fun v => andThen (polymerStorage S c v) (fun v =>
  andThen (foamStorage S c v) (fun v => andThen (brineStorage S c v) (micpStorage S c))))).

(** ** Fluxes *)
(** The extensive quantities of a face: volumeFlux and upstreamIndex of the phases and of the solvent, the shear
    factors. *)
Record face := mkFace { f_in : nat; f_ex : nat; f_flux : bphase -> ad; f_up : bphase -> nat;
                        f_sflux : ad; f_sup : nat; f_wshear : ad; f_pshear : ad }.
(** The case distinction over upIdx == inIdx and decay<Scalar>. *)
Definition kept (f : face) (up : nat) (x : ad) : ad := if (up =? f_in f)%nat then x else dropped x.
(** blackoilsolventmodules.hh 463-525: an assignment. *)
Definition solventFlux (S : setup) (f : face) (s : nat -> cell) (v : eqs) : result :=
  match solventEq S with
  | None => Done v
  | Some e =>
      let k := kept f (f_sup f) in let up := s (f_sup f) in
      let v := assign v e (amul (f_sflux f) (k (if surfaceVolumes S then qu up SolventInvB else qu up SolventDensity))) in
      Done (if soluble S
            then addTo v e (amul (amul (f_flux f Water) (k (if surfaceVolumes S then qu up (InvB Water) else qu up (Density Water))))
                              (k (qu up SolventInWater)))
            else v)
  end.
(** blackoilextbomodules.hh 354-405: an assignment. *)
Definition extboFlux (S : setup) (f : face) (s : nat -> cell) (v : eqs) : result :=
  match zFracEq S with
  | None => Done v
  | Some e =>
      if surfaceVolumes S then
        let k := kept f (f_up f Gas) in let up := s (f_up f Gas) in
        let v := assign v e (amul (amul (f_flux f Gas) (k (qu up YVolume))) (k (qu up (InvB Gas)))) in
        Done (if dissolvedGas S
              then let k := kept f (f_up f Oil) in let up := s (f_up f Oil) in
                   addTo v e (amul (amul (amul (f_flux f Oil) (k (qu up XVolume))) (k (qu up DissolvedGas))) (k (qu up (InvB Oil))))
              else v)
      else Throws
  end.
(** blackoilpolymermodules.hh 512-561: assignments, and the flux of the water is divided. *)
Definition polymerFlux (S : setup) (f : face) (s : nat -> cell) (v : eqs) : result :=
  match polymerEq S with
  | None => Done v
  | Some e =>
      let k := kept f (f_up f Water) in let up := s (f_up f Water) in
      let p := amul (adiv (amul (amul (f_flux f Water) (k (qu up (InvB Water)))) (k (qu up PolymerCorrection))) (k (f_pshear f)))
                 (k (qu up PolymerConc)) in
      let v := assign v e p in
      let v := assign v (waterEq S) (adiv (v (waterEq S)) (k (f_wshear f))) in
      Done match weightEq S with
           | None => v
           | Some w => assign v w (amul (v e) (k (qu up PolymerWeight)))
           end
  end.
(** blackoilfoammodules.hh 287-361: an assignment. *)
Definition foamFlux (S : setup) (f : face) (s : nat -> cell) (v : eqs) : result :=
  match foamEq S with
  | None => Done v
  | Some e =>
      let carried (flux : ad) (u : nat) (b : quantity) :=
        Done (assign v e (amul (amul flux (kept f u (qu (s u) b))) (kept f u (qu (s u) FoamConc)))) in
      match foamIn S with
      | ByWater => carried (f_flux f Water) (f_up f Water) (InvB Water)
      | ByGas => carried (f_flux f Gas) (f_up f Gas) (InvB Gas)
      | BySolvent => match solventEq S with Some _ => carried (f_sflux f) (f_sup f) SolventInvB | None => Throws end
      | ByOther => Throws
      end
  end.
(** blackoilbrinemodules.hh 260-286: an assignment. *)
Definition brineFlux (S : setup) (f : face) (s : nat -> cell) (v : eqs) : result :=
  match brineEq S with
  | None => Done v
  | Some e =>
      let k := kept f (f_up f Water) in let up := s (f_up f Water) in
      Done (assign v e (amul (amul (f_flux f Water) (k (qu up (InvB Water)))) (k (qu up SaltConc))))
  end.
(** blackoilmicpmodules.hh 271-297: assignments. *)
Definition micpFlux (S : setup) (f : face) (s : nat -> cell) (v : eqs) : result :=
  match micpEq S with
  | None => Done v
  | Some e =>
      let k := kept f (f_up f Water) in let up := s (f_up f Water) in
      let v := assign v e (amul (f_flux f Water) (k (qu up MicrobeConc))) in
      let v := assign v (e + 1) (amul (f_flux f Water) (k (qu up OxygenConc))) in
      Done (assign v (e + 2) (amul (f_flux f Water) (k (qu up UreaConc))))
  end.
(** blackoillocalresidual.hh 214-233: the calls of computeFlux behind the black-oil components. *)
Definition extFlux (S : setup) (f : face) (s : nat -> cell) (v : eqs) : result :=
  andThen (solventFlux S f s v) (fun v => andThen (extboFlux S f s v) (fun v => andThen (polymerFlux S f s v) (fun v =>
  andThen (foamFlux S f s v) (fun v => andThen (brineFlux S f s v) (micpFlux S f s))))).

(** ** The volume flux of the solvent *)
(** What problem and geometry say of a face between two cells: threshold pressure, transmissibility, gravity, the
    depths of the centres and the area. *)
Record link := mkLink { l_thpres : Q; l_trans : Q; l_grav : Q; l_zIn : Q; l_zEx : Q; l_area : Q }.
(** blackoilsolventmodules.hh 1476-1492: the difference of the potentials of the solvent. *)
Definition solventDp (l : link) (inn ex : cell) : ad :=
  let rhoAvg := aadd (ascale (qu inn SolventDensity) (1 # 2)) (constant (val (qu ex SolventDensity) * (1 # 2))) in
  let pEx := aadd (constant (val (qu ex (Pressure Gas)))) (ascale rhoAvg ((l_zIn l - l_zEx l) * l_grav l)) in
  let d := asub pEx (qu inn (Pressure Gas)) in
  if Qltb (l_thpres l) (Qabs (val d))
  then (if Qltb (val d) 0 then aadd d (constant (l_thpres l)) else asub d (constant (l_thpres l)))
  else constant 0.
(** blackoilsolventmodules.hh 1452-1524: updateVolumeFluxTrans; the flux and the upstream index. *)
Definition solventTrans (l : link) (i j : nat) (s : nat -> cell) : ad * nat :=
  let d := solventDp l (s i) (s j) in
  if Qltb 0 (val d) then
    (amul (ascale (dropped (qu (s j) SolventMobility)) (- l_trans l / l_area l)) d, j)
  else if Qltb (val d) 0 then
    (amul (ascale (qu (s i) SolventMobility) (- l_trans l / l_area l)) d, i)
  else (constant 0, Nat.min i j).
(** blackoilsolventmodules.hh 1349-1444: updateVolumeFluxPerm. The exception for gradients which are not finite is not
    modelled. [pl_K], the permeability of the face, is not used. *)
Definition solventPotentialGrad (p : place) (focus : nat) (s : nat -> cell) : nat -> ad :=
  let i := pl_in p in let j := pl_ex p in
  let raw := calculateGradient p focus (fun v => qu (s v) (Pressure Gas)) in
  match pl_gravity p with
  | None => raw
  | Some g =>
      let distIn := vminus (pl_pos p i) (pl_ipos p) in
      let distEx := vminus (pl_pos p j) (pl_ipos p) in
      let distTotal := vminus (pl_pos p j) (pl_pos p i) in
      let pStatIn := ascale (aopp (qu (s i) SolventDensity)) (dot (pl_dim p) (g i) distIn) in
      let pStatEx := constant (- val (qu (s j) SolventDensity) * dot (pl_dim p) (g j) distEx) in
      let f := ascale (asub pStatEx pStatIn) (/ norm2 (pl_dim p) distTotal) in
      fun k => aadd (raw k) (ascale f (distTotal k))
  end.
Definition solventPerm (p : place) (focus : nat) (s : nat -> cell) : ad * nat :=
  let n := normalPart p (solventPotentialGrad p focus s) in
  if Qltb 0 (val n)
  then (amul n (dropped (qu (s (pl_ex p)) SolventMobility)), pl_ex p)
  else (amul n (qu (s (pl_in p)) SolventMobility), pl_in p).

(** ** Microbially induced calcite precipitation *)
(** The parameters of blackoilmicpparams.hh as the deck gives them. *)
Record micp := mkMicp {
  m_attach : Q; m_death : Q; m_rhoB : Q; m_rhoC : Q; m_detach : Q; m_halfO : Q; m_halfU : Q;
  m_growth : Q; m_urea : Q; m_yield : Q; m_consumption : Q
}.
(** blackoilmicpmodules.hh 313-323: the greatest pressure gradient; a face gives the volume flux of the water and the
    mobility at the upstream side. (A mobility of zero gives NaN in the program, which std::max skips, and zero here.) *)
Definition greatestGradient (K : Q) (faces : list (ad * ad)) : ad :=
  fold_left (fun d fm => amax d (aabs (adiv (fst fm) (ascale (snd fm) K)))) faces (constant 0).
(** blackoilmicpmodules.hh 300-355: addSource; [pw] is pow(., 0.58). *)
Definition micpSource (M : micp) (pw : ad -> ad) (K : Q) (faces : list (ad * ad)) (c : cell) (e : nat) (v : eqs) : eqs :=
  let dpW := greatestGradient K faces in
  let ku := m_halfU M / 10 in
  let muU := m_urea M / 10 in
  let Yuc := (167 # 100) * 10 in
  let m := qu c MicrobeConc in let phi := qu c Porosity in let o := qu c OxygenConc in
  let u := qu c UreaConc in let b := qu c BiofilmConc in
  let growth := adiv (ascale o (m_yield M * m_growth M)) (aadd (constant (m_halfO M)) o) in
  let v := addTo v e
    (aadd (amul (amul m phi) (asub (asub growth (constant (m_death M))) (constant (m_attach M))))
       (amul (ascale b (m_rhoB M * m_detach M)) (pw (amul phi dpW)))) in
  let v := assign v (e + 1) (asub (v (e + 1)%nat)
    (adiv (amul (ascale (aadd (amul m phi) (ascale b (m_rhoB M))) (m_consumption M * m_growth M)) o) (aadd (constant (m_halfO M)) o))) in
  let v := assign v (e + 2) (asub (v (e + 2)%nat)
    (adiv (amul (ascale b (m_rhoB M * muU)) u) (aadd (constant ku) u))) in
  let v := addTo v (e + 3)
    (aadd (amul b (asub (asub (asub growth (constant (m_death M))) (ascale (pw (amul phi dpW)) (m_detach M)))
                     (adiv (amul (ascale b (Yuc * (m_rhoB M / m_rhoC M) * muU)) (adiv u (aadd (constant ku) u))) (aadd phi b))))
       (ascale (amul m phi) (m_attach M / m_rhoB M))) in
  addTo v (e + 4) (adiv (amul (ascale b (m_rhoB M / m_rhoC M * Yuc * muU)) u) (aadd (constant ku) u)).
