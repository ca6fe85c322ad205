(** What a user expects of the mixing rules of the black-oil extensions.  Of the model only the
    records of the inputs, the cut-off of saturations and the comparison are used. *)
From Coq Require Import Reals List.
From Verif Require Import BoMixModel.
Import ListNotations.
Local Open Scope R_scope.

(** A value lies in the range of the values of [l]. *)
Definition inHull (l : list R) (v : R) : Prop := exists a b, In a l /\ In b l /\ a <= v <= b.

(** A weight. *)
Definition weight (w : R) : Prop := 0 <= w <= 1.

(** The mean of two or three values weighted by volumes. *)
Definition mean2 (s1 x1 s2 x2 : R) : R := (s1 * x1 + s2 * x2) / (s1 + s2).
Definition mean3 (s1 x1 s2 x2 s3 x3 : R) : R := (s1 * x1 + s2 * x2 + s3 * x3) / (s1 + s2 + s3).

(** The part of a saturation above the residual one, which exists only besides water. *)
Definition mobileOil (f : fluids) : R :=
  if f_oil f then if f_water f then Rmax (f_so f - f_sorwmis f (f_sw f)) 0 else f_so f else 0.
Definition mobileGas (f : fluids) : R := if f_water f then Rmax (f_sg f - f_sgcwmis f (f_sw f)) 0 else f_sg f.
Definition mobileSolvent (f : fluids) : R := if f_water f then Rmax (f_ss f - f_sgcwmis f (f_sw f)) 0 else f_ss f.

(** The pressure at which the tables are read; the mixing parameters there. *)
Definition tablePressure (f : fluids) : R := if f_oil f then f_po f else f_pg f.
Definition misciblePart (f : fluids) : R := f_pmisc f (tablePressure f).
Definition viscosityMixing (f : fluids) : R := f_tlMu f * f_tlPMix f (tablePressure f).
Definition densityMixing (f : fluids) : R := f_tlRho f * f_tlPMix f (tablePressure f).

(** The pure fluids are given consistently. *)
Record physical (f : fluids) : Prop := mkPhysical {
  ph_sg : 0 <= f_sg f; ph_ss : 0 <= f_ss f;
  ph_muGas : 0 < f_muGas f; ph_muSolvent : 0 < f_muSolvent f;
  ph_bg : 0 < f_bg f; ph_bs : 0 < f_bs f;
  ph_refGas : 0 < f_refGas f; ph_refSolvent : 0 < f_refSolvent f;
  ph_rhoSolvent : f_rhoSolvent f = f_bs f * f_refSolvent f;
  ph_rhoGas : f_rhoGas f = f_bg f * (f_refGas f + (if f_oil f then f_refOil f * f_Rv f else 0));
  ph_oil : f_oil f = true -> 0 <= f_so f /\ 0 < f_muOil f /\ 0 < f_bo f /\ 0 < f_refOil f /\ 0 <= f_Rs f /\ 0 <= f_Rv f /\
    f_rhoOil f = f_bo f * (f_refOil f + f_refGas f * f_Rs f);
  ph_pmisc : weight (misciblePart f);
  ph_wMu : weight (viscosityMixing f);
  ph_wRho : weight (densityMixing f)
}.

(** Something mobile is there, and the mobile hydrocarbons are none or more than the cut-off. *)
Definition mixes (f : fluids) : Prop :=
  cutOff < mobileOil f + mobileGas f + mobileSolvent f /\
  (mobileOil f + mobileGas f = 0 \/ cutOff < mobileOil f + mobileGas f).

(** The values of the active fluids. *)
Definition viscosities (f : fluids) : list R := (if f_oil f then [f_muOil f] else []) ++ [f_muGas f; f_muSolvent f].
Definition densities (f : fluids) : list R := (if f_oil f then [f_rhoOil f] else []) ++ [f_rhoGas f; f_rhoSolvent f].

(** The mobility [m'] is the mobility [m] at viscosity [mu] for another viscosity in the range
    of [l], and the same relative permeability. *)
Definition mobilityFor (l : list R) (m mu m' : R) : Prop := exists mu', 0 < mu' /\ inHull l mu' /\ m' * mu' = m * mu.

(** A velocity [v] which comes from [v0] by division by the factor [z], up to the factor [exp tol]. *)
Definition sheared (z v v0 tol : R) : Prop := 0 < v /\ 0 < z /\ v0 * exp (- tol) <= v * z <= v0 * exp tol.

(** The polymer data are physical, and the concentration is not above the maximum of PLYMAX. *)
Record polymerOk (y : polymer) : Prop := mkPolymerOk {
  po_c : 0 <= y_c y <= y_cmax y; po_cmax : 0 < y_cmax y;
  po_mult : 1 <= y_mult y (y_c y) <= y_mult y (y_cmax y);
  po_w : weight (y_w y); po_mu : 0 < y_muWater y
}.
(** The same cell with another concentration. *)
Definition atConc (y : polymer) (c : R) : polymer :=
  mkPolymer c (y_cmax y) (y_mult y) (y_w y) (y_ads y) (y_noDesorption y) (y_maxAds y) (y_adsLimit y) (y_rrf y)
    (y_muWater y) (y_mobWater y).

(** The tables of the relative permeabilities: fractions in, fractions out, and permeabilities
    between zero and [kmax]. *)
Definition tablesOk (r : relperms) (kmax : R) : Prop :=
  (forall x, weight x -> weight (r_misc r x)) /\ weight (r_pmisc r) /\
  (forall x, weight x -> weight (r_msfnKro r x)) /\ (forall x, weight x -> weight (r_msfnKrsg r x)) /\
  (forall s, 0 <= r_sof2Krn r s <= kmax) /\
  (forall x, weight x -> weight (r_ssfnKrg r x)) /\ (forall x, weight x -> weight (r_ssfnKrs r x)).
