(** What the properties about the extensions of the black-oil model are stated with. *)
From Verif Require Import BoExtModel.
From Verif Require Export LocResSpec.
From Coq Require Export Qminmax.

(** The conserved quantities of the extensions and their equations. *)
Inductive substance := Solvent | ZSubstance | Polymer | PolymerMoles | Foam | Salt | Microbes | Oxygen | Urea | Biofilm | Calcite.
Definition equationOf (S : setup) (x : substance) : option nat :=
  let shift k := option_map (fun e => (e + k)%nat) (micpEq S) in
  match x with
  | Solvent => solventEq S | ZSubstance => zFracEq S | Polymer => polymerEq S
  | PolymerMoles => match polymerEq S with Some _ => weightEq S | None => None end
  | Foam => foamEq S | Salt => brineEq S
  | Microbes => shift 0%nat | Oxygen => shift 1%nat | Urea => shift 2%nat | Biofilm => shift 3%nat | Calcite => shift 4%nat
  end.
(** No two of them share an equation, none is the equation of the water, and the equation in front of that of the
    z-fraction belongs to none of them. *)
Definition lastComponent (S : setup) (j : nat) : Prop := exists e, zFracEq S = Some e /\ j = (e - 1)%nat.
Record separate (S : setup) : Prop := mkSeparate {
  s_distinct : forall x y e, equationOf S x = Some e -> equationOf S y = Some e -> x = y;
  s_water : forall x, equationOf S x <> Some (waterEq S);
  s_last : forall x e, equationOf S x = Some e -> ~ lastComponent S e }.

(** The value of a quantity; the surface volume of a phase in a unit of volume of the rock. *)
Definition at_ (c : cell) (k : quantity) : Q := val (qu c k).
Definition volumeOf (c : cell) (a : bphase) : Q := at_ c Porosity * at_ c (Saturation a) * at_ c (InvB a).
Definition solventVolume (c : cell) : Q := at_ c Porosity * at_ c SolventSaturation * at_ c SolventInvB.
Definition foamCarrier (S : setup) (c : cell) : Q :=
  match foamIn S with
  | ByWater => volumeOf c Water | ByGas => volumeOf c Gas | ByOther => 0
  | BySolvent => match solventEq S with Some _ => solventVolume c | None => at_ c Porosity end
  end.
(** The amount of a substance in a unit of volume: what the phases hold dissolved and what sits on the rock.
    [atLeast] is applied to the surface volume of the carrying phase and [eps] is added to the space which the solid salt
    has left; the amounts proper are those with [atLeast] the identity and [eps] zero. *)
Definition held (atLeast : Q -> Q) (eps : Q) (S : setup) (c : cell) (x : substance) : Q :=
  let polymer := atLeast (volumeOf c Water) * (1 - deadPore c) * at_ c PolymerConc
                 + (1 - at_ c Porosity) * polymerRock c * at_ c PolymerAdsorbed in
  match x with
  | Solvent => solventVolume c + (if soluble S then volumeOf c Water * at_ c SolventInWater else 0)
  | ZSubstance => volumeOf c Gas * at_ c YVolume
                  + (if dissolvedGas S then volumeOf c Oil * at_ c DissolvedGas * at_ c XVolume else 0)
  | Polymer => polymer
  | PolymerMoles => atLeast polymer * at_ c PolymerWeight
  | Foam => atLeast (foamCarrier S c) * at_ c FoamConc + (1 - at_ c Porosity) * foamRock c * at_ c FoamAdsorbed
  | Salt => atLeast (volumeOf c Water) * at_ c SaltConc
            + (if precipitation S
               then at_ c Porosity / (1 - at_ c SaltSaturation + eps) * (saltDensity c * at_ c SaltSaturation) else 0)
  | Microbes => atLeast (at_ c Porosity) * at_ c MicrobeConc
  | Oxygen => atLeast (at_ c Porosity) * at_ c OxygenConc
  | Urea => atLeast (at_ c Porosity) * at_ c UreaConc
  | Biofilm => at_ c BiofilmConc
  | Calcite => at_ c CalciteConc
  end.
(** There is something for the substance to be in; only what is left out below differs from the amount proper. *)
Definition carried (S : setup) (c : cell) (x : substance) : Prop :=
  match x with
  | Solvent => surfaceVolumes S = true
  | ZSubstance => False
  | Polymer => tiny <= volumeOf c Water
  | PolymerMoles => tiny <= volumeOf c Water /\ tiny <= held (fun v => v) 0 S c Polymer
  | Foam => tiny <= foamCarrier S c
  | Salt => tiny <= volumeOf c Water /\ (precipitation S = true -> at_ c SaltSaturation == 0)
  | Microbes | Oxygen | Urea => tiny <= at_ c Porosity
  | Biofilm | Calcite => True
  end.

(** An entry of what a function computes. *)
Definition entry (r : result) (j : nat) : ad := match r with Done w => w j | Throws => constant 0 end.

(** What a face transports: volume fluxes times what the cell upstream of the carrying phase holds per volume. *)
Definition moved (S : setup) (f : face) (s : nat -> cell) (x : substance) : Q :=
  let upw := s (f_up f Water) in let upg := s (f_up f Gas) in let upo := s (f_up f Oil) in let ups := s (f_sup f) in
  let water := val (f_flux f Water) in
  let polymer := water / val (f_pshear f) * at_ upw PolymerCorrection * (at_ upw (InvB Water) * at_ upw PolymerConc) in
  match x with
  | Solvent => val (f_sflux f) * at_ ups SolventInvB
               + (if soluble S then water * (at_ upw (InvB Water) * at_ upw SolventInWater) else 0)
  | ZSubstance => val (f_flux f Gas) * (at_ upg (InvB Gas) * at_ upg YVolume)
                  + (if dissolvedGas S then val (f_flux f Oil) * (at_ upo (InvB Oil) * at_ upo DissolvedGas * at_ upo XVolume) else 0)
  | Polymer => polymer
  | PolymerMoles => polymer * at_ upw PolymerWeight
  | Foam => match foamIn S with
            | ByWater => water * (at_ upw (InvB Water) * at_ upw FoamConc)
            | ByGas => val (f_flux f Gas) * (at_ upg (InvB Gas) * at_ upg FoamConc)
            | BySolvent => val (f_sflux f) * (at_ ups SolventInvB * at_ ups FoamConc)
            | ByOther => 0
            end
  | Salt => water * (at_ upw (InvB Water) * at_ upw SaltConc)
  | Microbes => water * at_ upw MicrobeConc
  | Oxygen => water * at_ upw OxygenConc
  | Urea => water * at_ upw UreaConc
  | Biofilm | Calcite => 0
  end.
(** The same face from the other side. *)
Record reversed (f g : face) : Prop := mkReversed {
  r_flux : forall a, val (f_flux g a) == - val (f_flux f a); r_sflux : val (f_sflux g) == - val (f_sflux f);
  r_up : forall a, f_up g a = f_up f a; r_sup : f_sup g = f_sup f;
  r_pshear : val (f_pshear g) == val (f_pshear f); r_wshear : val (f_wshear g) == val (f_wshear f) }.

(** A change of the solution in one variable of one cell: all quantities of this cell carry the right derivatives, the
    others stay as they are. *)
Definition cellVaries (c : Q -> cell) : Prop :=
  (forall k, tracks (fun h => qu (c h) k)) /\
  forall h, deadPore (c h) = deadPore (c 0) /\ polymerRock (c h) = polymerRock (c 0) /\
            foamRock (c h) = foamRock (c 0) /\ saltDensity (c h) = saltDensity (c 0).
Definition solutionVaries (s : Q -> nat -> cell) (focus : nat) : Prop :=
  cellVaries (fun h => s h focus) /\ forall h v, v <> focus -> s h v = s 0 v.
(** The extensive quantities of a face carry the right derivatives, and the upstream sides stay the same. *)
Record faceVaries (f : Q -> face) : Prop := mkFaceVaries {
  fv_flux : forall a, tracks (fun h => f_flux (f h) a); fv_sflux : tracks (fun h => f_sflux (f h));
  fv_wshear : tracks (fun h => f_wshear (f h)); fv_pshear : tracks (fun h => f_pshear (f h));
  fv_in : forall h, f_in (f h) = f_in (f 0); fv_up : forall h a, f_up (f h) a = f_up (f 0) a; fv_sup : forall h, f_sup (f h) = f_sup (f 0) }.

(** The potential difference between two cells and what a threshold pressure leaves of it. *)
Definition potentialDifference (l : link) (inn ex : cell) : Q :=
  (at_ ex (Pressure Gas) - at_ inn (Pressure Gas))
  + (l_zIn l - l_zEx l) * l_grav l * ((at_ inn SolventDensity + at_ ex SolventDensity) / 2).
Definition beyond (t d : Q) : Q :=
  if Qle_bool (Qabs d) t then 0 else if Qle_bool d 0 then d + t else d - t.
Definition turned (l : link) : link := mkLink (l_thpres l) (l_trans l) (l_grav l) (l_zEx l) (l_zIn l) (l_area l).

(** The solvent seen as a phase of the Darcy flux module (phase 0), with a permeability of one. *)
Definition asPhase (c : cell) : quants :=
  let z := constant 0 in
  mkQuants z (fun _ => qu c (Pressure Gas)) (fun _ => qu c SolventMobility) (fun _ => z) (fun _ => qu c SolventDensity)
    (fun _ => z) (fun _ _ => z) (fun _ _ => z) (fun _ _ => z) (fun _ => z) (fun _ => z) z z z (fun _ _ => z).
Definition unitPermeability (p : place) : place :=
  mkPlace (pl_dim p) (pl_pos p) (pl_gravity p) (pl_in p) (pl_ex p) (pl_normal p) (pl_ipos p)
    (fun r k => if (r =? k)%nat then 1 else 0) (pl_shapes p).

(** The processes of the calcite precipitation, per volume and time: the masses which grow, die, get attached and
    detached, and which the calcite buries. *)
Definition monod (x half : Q) : Q := x / (half + x).

(** Away from the kinks of the amounts and with finite amounts of solid salt. *)
Record smooth (S : setup) (c : cell) : Prop := mkSmooth {
  k_water : polymerEq S <> None \/ brineEq S <> None -> ~ volumeOf c Water == tiny;
  k_moles : equationOf S PolymerMoles <> None -> ~ held (Qmax tiny) 0 S c Polymer == tiny;
  k_foam : foamEq S <> None -> ~ foamCarrier S c == tiny;
  k_micp : micpEq S <> None -> ~ at_ c Porosity == tiny;
  k_salt : brineEq S <> None -> precipitation S = true -> ~ 1 - at_ c SaltSaturation + (1 # 100000000) == 0 }.

(** The pressure gradient of a face; the greatest of several; no two of them alike. *)
Definition gradientOf (K : Q) (fm : ad * ad) : Q := Qabs (val (fst fm) / (K * val (snd fm))).
Definition greatest (g : Q) (K : Q) (faces : list (ad * ad)) : Prop :=
  0 <= g /\ (forall fm, In fm faces -> gradientOf K fm <= g) /\ (g == 0 \/ exists fm, In fm faces /\ g == gradientOf K fm).
Fixpoint apart (l : list Q) : Prop :=
  match l with [] => True | x :: l => Forall (fun y => ~ x == y) l /\ apart l end.
(** The rates of the processes in a cell, per volume: the biomass (suspended and as biofilm), its growth and death,
    the attached and the detached microbes, the used urea. *)
Definition biomass (M : micp) (c : cell) : Q := at_ c MicrobeConc * at_ c Porosity + m_rhoB M * at_ c BiofilmConc.
Definition growthRate (M : micp) (c : cell) : Q := m_yield M * m_growth M * monod (at_ c OxygenConc) (m_halfO M).
Definition ureaUse (M : micp) (c : cell) : Q :=
  m_rhoB M * at_ c BiofilmConc * (m_urea M / 10) * monod (at_ c UreaConc) (m_halfU M / 10).
Record parameters (M : micp) : Prop := mkParameters {
  p_rhoB : 0 < m_rhoB M; p_rhoC : 0 < m_rhoC M; p_halfO : 0 < m_halfO M; p_halfU : 0 < m_halfU M;
  p_growth : 0 <= m_growth M; p_urea : 0 <= m_urea M; p_yield : 0 <= m_yield M; p_consumption : 0 <= m_consumption M;
  p_attach : 0 <= m_attach M; p_detach : 0 <= m_detach M; p_death : 0 <= m_death M }.
Record physical (c : cell) : Prop := mkPhysical {
  ph_m : 0 <= at_ c MicrobeConc; ph_o : 0 <= at_ c OxygenConc; ph_u : 0 <= at_ c UreaConc; ph_b : 0 <= at_ c BiofilmConc;
  ph_phi : 0 < at_ c Porosity }.

(** The equations of the extensions start at zero (as LocalResidual::computeStorage and computeFlux begin). *)
Definition zeroAt (S : setup) (v : eqs) : Prop := forall x e, equationOf S x = Some e -> v e = constant 0.
(** What regularizes the equation of the z-fraction. *)
Definition regularizing (c : cell) (x : substance) : Q :=
  match x with ZSubstance => regWeight * ((1 - at_ c ZFraction) + volumeOf c Gas) | _ => 0 end.
(** Faces whose fluxes and mobilities change with the solution. *)
Definition movingFaces (faces : list (Q -> ad * ad)) (h : Q) : list (ad * ad) := map (fun f => f h) faces.
