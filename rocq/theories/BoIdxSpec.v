(** What a collision-free layout is: a list of blocks (first index, number of entries),
    no two of which share an index, and which together make up exactly the indices
    [first, first + n). *)
From Verif Require Import BoIdxModel.

Definition block := (Z * Z)%type.
Definition inside (i : Z) (b : block) : Prop := fst b <= i < fst b + snd b.
Definition disjoint (a b : block) : Prop := forall i, ~ (inside i a /\ inside i b).

Definition tiles (first n : Z) (l : list block) : Prop :=
  (forall i, first <= i < first + n <-> exists b, In b l /\ inside i b) /\
  ForallOrdPairs disjoint l.

(** A switching variable is listed if its index is not negative. *)
Definition single (i : Z) : list block := if i <? 0 then [] else [(i, 1)].
(** An extension with [n] variables occupies [n] entries from its first index on. *)
Definition many (i : Z) (n : nat) : list block :=
  match n with O => [] | _ => [(i, Z.of_nat n)] end.

(** The primary variables of the model. *)
Definition variables (p : params) (x : indices) : list block :=
  single (waterSwitchIdx x) ++ single (pressureSwitchIdx x) ++
  single (compositionSwitchIdx x) ++
  many (solventSaturationIdx x) (p_solvents p) ++
  many (zFractionIdx x) (p_extbos p) ++
  many (polymerConcentrationIdx x) (p_polymers p) ++
  many (microbialConcentrationIdx x) (p_micps p) ++
  many (foamConcentrationIdx x) (if p_foam p then 1 else 0) ++
  many (saltConcentrationIdx x) (if p_brine p then 1 else 0) ++
  many (temperatureIdx x) (p_energy p).

(** The conservation equations of the model; one per phase, then the extensions. *)
Definition equations (phases : nat) (p : params) (x : indices) : list block :=
  many (conti0EqIdx x) phases ++
  many (contiSolventEqIdx x) (p_solvents p) ++
  many (contiZfracEqIdx x) (p_extbos p) ++
  many (contiPolymerEqIdx x) (p_polymers p) ++
  many (contiMicrobialEqIdx x) (p_micps p) ++
  many (contiFoamEqIdx x) (if p_foam p then 1 else 0) ++
  many (contiBrineEqIdx x) (if p_brine p then 1 else 0) ++
  many (contiEnergyEqIdx x) (p_energy p).

(** The named variables of the extensions with several variables are the consecutive
    entries of their block. *)
Definition names_consecutive (p : params) (x : indices) : Prop :=
  ((1 < p_polymers p)%nat -> polymerMoleWeightIdx x = polymerConcentrationIdx x + 1) /\
  ((1 < p_micps p)%nat -> oxygenConcentrationIdx x = microbialConcentrationIdx x + 1) /\
  ((2 < p_micps p)%nat -> ureaConcentrationIdx x = microbialConcentrationIdx x + 2) /\
  ((3 < p_micps p)%nat -> biofilmConcentrationIdx x = microbialConcentrationIdx x + 3) /\
  ((4 < p_micps p)%nat -> calciteConcentrationIdx x = microbialConcentrationIdx x + 4) /\
  ((1 < p_polymers p)%nat -> contiPolymerMWEqIdx x = contiPolymerEqIdx x + 1) /\
  ((1 < p_micps p)%nat -> contiOxygenEqIdx x = contiMicrobialEqIdx x + 1) /\
  ((2 < p_micps p)%nat -> contiUreaEqIdx x = contiMicrobialEqIdx x + 2) /\
  ((3 < p_micps p)%nat -> contiBiofilmEqIdx x = contiMicrobialEqIdx x + 3) /\
  ((4 < p_micps p)%nat -> contiCalciteEqIdx x = contiMicrobialEqIdx x + 4).
