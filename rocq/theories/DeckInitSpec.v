(** * Vocabulary for the initialization of the polymer and foam modules *)
From Coq Require Import List Bool Arith.
From Verif Require Import DeckInitModel.
Import ListNotations.

(** The features compiled in are those the deck asks for, and molecular weights are tracked with polymer only. *)
Definition polymerSwitches {T} (enP enMW : bool) (d : polymerDeck T) : Prop :=
  polymer d = enP /\ polymw d = enMW /\ (enMW = true -> enP = true).

(** One record for each saturation region, and there are some. *)
Definition forRegions {T} (n : nat) (l : list T) : Prop := l <> [] /\ length l = n.

(** A deck with all the keywords polymer needs. *)
Definition polymerComplete {T} (enMW : bool) (d : polymerDeck T) : Prop :=
  forRegions (numSat d) (plyrock d) /\ forRegions (numSat d) (plyads d) /\ plymax d <> [] /\
  (enMW = false ->
     forRegions (numPvt d) (plyvisc d) /\ plmixpar d <> [] /\ length (plymax d) <= length (plmixpar d) /\
     (hasPlyshlog d = true -> length (plyshlog d) = numPvt d) /\
     (useShrate d = true -> hasPlyshlog d = true /\ (shrate d = [] \/ length (shrate d) = numPvt d \/ numPvt d = 0))) /\
  (enMW = true -> forRegions (length (plymax d)) (plyvmh d)).

(** The records there are agree with the numbers of regions (TABDIMS, PLMIXNUM). *)
Definition polymerSizes {T} (enMW : bool) (d : polymerDeck T) : Prop :=
  (plyrock d <> [] -> length (plyrock d) = numSat d) /\ (plyads d <> [] -> length (plyads d) = numSat d) /\
  (plyvisc d <> [] -> length (plyvisc d) = numPvt d) /\
  (hasPlyshlog d = true -> length (plyshlog d) = numPvt d) /\
  (plyvmh d <> [] -> length (plyvmh d) = length (plymax d)).

(** What is wrong with the deck according to an error. *)
Definition polymerFault {T} (enP enMW : bool) (d : polymerDeck T) (e : nat) : Prop :=
  (e = eEnabled /\ enP = true /\ polymer d = false) \/ (e = eDisabled /\ enP = false /\ polymer d = true) \/
  (e = eMwEnabled /\ enMW = true /\ polymw d = false) \/ (e = eMwDisabled /\ enMW = false /\ polymw d = true) \/
  (e = eMwAlone /\ enMW = true /\ enP = false) \/
  (e = ePlyrock /\ plyrock d = []) \/ (e = ePlyads /\ plyads d = []) \/ (e = ePlyvisc /\ plyvisc d = [] /\ enMW = false) \/
  (e = ePlymax /\ plymax d = []) \/ (e = ePlmixpar /\ plmixpar d = [] /\ enMW = false) \/
  (e = ePlyshlog /\ useShrate d = true /\ hasPlyshlog d = false /\ enMW = false) \/
  (e = eShrate /\ useShrate d = true /\ shrate d <> [] /\ length (shrate d) <> numPvt d /\ numPvt d <> 0 /\ enMW = false) \/
  (e = ePlyvmh /\ plyvmh d = [] /\ enMW = true).

Definition foamComplete {T} (d : foamDeck T) : Prop :=
  tabModel d = true /\ length (foamrock d) = fNumSat d /\ forRegions (fNumSat d) (foamads d) /\ forRegions (fNumPvt d) (foammob d).

Definition foamFault {T} (en : bool) (d : foamDeck T) (e : nat) : Prop :=
  (e = eEnabled /\ en = true /\ foam d = false) \/ (e = eDisabled /\ en = false /\ foam d = true) \/
  (e = eModel /\ tabModel d = false) \/ (e = eFoamrock /\ length (foamrock d) <> fNumSat d) \/
  (e = eFoamads /\ foamads d = []) \/ (e = eFoamadsSize /\ length (foamads d) <> fNumSat d) \/
  (e = eFoammob /\ foammob d = []) \/ (e = eFoammobSize /\ length (foammob d) <> fNumPvt d).

(** The parameters hold the records of the deck, region by region. *)
Definition sameUpTo {T} (n : nat) (have want : list T) : Prop :=
  length have = n /\ forall i, i < n -> nth_error have i = nth_error want i.

Definition polymerRegions {T} (shrateDefault : T) (convert : T -> T -> T) (enMW : bool) (d : polymerDeck T)
  (p : polymerParams T) : Prop :=
  sameUpTo (numSat d) (pRock p) (plyrock d) /\ sameUpTo (numSat d) (pAds p) (plyads d) /\
  sameUpTo (length (plymax d)) (pMax p) (plymax d) /\
  (enMW = false ->
     sameUpTo (numPvt d) (pVisc p) (plyvisc d) /\ sameUpTo (length (plymax d)) (pMix p) (plmixpar d) /\
     (hasPlyshlog d = true -> forall i v x, i < numPvt d -> nth_error (plyvisc d) i = Some v -> nth_error (plyshlog d) i = Some x ->
        nth_error (pShlog p) i = Some (convert v x)) /\
     (useShrate d = true -> forall i, i < numPvt d ->
        nth_error (pShrate p) i = match shrate d with [] => Some shrateDefault | _ => nth_error (shrate d) i end)) /\
  (enMW = true -> sameUpTo (length (plymax d)) (pVmh p) (plyvmh d)).
