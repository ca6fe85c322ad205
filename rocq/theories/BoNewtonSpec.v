(** Vocabulary for the limits of the Newton update. *)
From Verif Require Export BoNewtonModel BoVarsSpec.

(** The variables with a name. *)
Definition names (x : indices) : list Z :=
  [pressureSwitchIdx x; waterSwitchIdx x; compositionSwitchIdx x; solventSaturationIdx x;
   zFractionIdx x; polymerConcentrationIdx x; polymerMoleWeightIdx x;
   microbialConcentrationIdx x; oxygenConcentrationIdx x; ureaConcentrationIdx x;
   biofilmConcentrationIdx x; calciteConcentrationIdx x; foamConcentrationIdx x;
   saltConcentrationIdx x; temperatureIdx x].
Definition name (x : indices) (k : nat) : Z := nth k (names x) (-1)%Z.

(** Each variable in use has its own entry in the vector, the pressure is in use, and the
    molecular weight of the polymer comes after its concentration. *)
Definition layout (x : indices) : Prop :=
  (forall i j, (i < 15)%nat -> (j < 15)%nat -> i <> j -> (0 <= name x i)%Z ->
               name x i <> name x j) /\
  (forall i, (i < 15)%nat -> (name x i < numEq x)%Z) /\
  (0 <= pressureSwitchIdx x)%Z /\
  ((0 <= polymerMoleWeightIdx x)%Z ->
   (0 <= polymerConcentrationIdx x < polymerMoleWeightIdx x)%Z).

(** Variables which are interpreted exist. *)
Definition in_use (c : config) (v : vars) : Prop :=
  (m_water v <> WDisabled -> (0 <= waterSwitchIdx (idx c))%Z) /\
  (m_gas v <> GDisabled -> (0 <= compositionSwitchIdx (idx c))%Z) /\
  (m_brine v <> BDisabled -> (0 <= saltConcentrationIdx (idx c))%Z) /\
  (m_solvent v <> SDisabled -> (0 <= solventSaturationIdx (idx c))%Z).

(** [a] and [b] differ by at most [d]. *)
Definition within (d a b : Q) : Prop := - d <= a - b /\ a - b <= d.
Definition between (lo hi a : Q) : Prop := lo <= a /\ a <= hi.

(** Saturated factors are not negative. *)
Definition nonneg_fluid (f : fluid) : Prop :=
  (forall p s m, 0 <= f_rsSat f p s m) /\ (forall p m, 0 <= f_rvSat f p m) /\
  (forall p s, 0 <= f_rvwSat f p s) /\ (forall p s, 0 <= f_rswSat f p s) /\
  (forall p s, 0 <= f_solLimit f p s) /\ 0 <= f_saltSol f /\ 0 <= f_rsMax f /\ 0 <= f_rvMax f.
