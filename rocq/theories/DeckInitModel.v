(** * Initialization of the polymer and foam modules from the deck

    Models initFromState of opm/models/blackoil/blackoilpolymermodules.hh 98-343 and
    opm/models/blackoil/blackoilfoammodules.hh 94-175.
    Simplifications: what a keyword gives for one region (a record or a table) is a value of the type [T], since these
    functions only move it; the conversion of a table of PLYSHLOG (239-267), which reads the viscosity table of the region,
    is a function [convert]. The tables by number of POLYMW runs (PLYMWINJ, SKPRWAT, SKPRPOLY, 305-342) are left out, they
    are copied without conditions. Assertions are active. An access behind the end of a container is an outcome of its
    own, which the C++ standard leaves undefined. Warnings are left out. *)
From Coq Require Import List Bool Arith.
Import ListNotations.

Inductive result (A : Type) := Done (a : A) | Throws (e : nat) | Aborts | PastEnd.
Arguments Done {A}. Arguments Throws {A}. Arguments Aborts {A}. Arguments PastEnd {A}.

Definition bind {A B} (r : result A) (f : A -> result B) : result B :=
  match r with Done a => f a | Throws e => Throws e | Aborts => Aborts | PastEnd => PastEnd end.

(** The errors, in the order of the source. *)
Definition eEnabled := 0. Definition eDisabled := 1. Definition eMwEnabled := 2. Definition eMwDisabled := 3.
Definition eMwAlone := 4. Definition ePlyrock := 5. Definition ePlyads := 6. Definition ePlyvisc := 7.
Definition ePlymax := 8. Definition ePlmixpar := 9. Definition ePlyshlog := 10. Definition eShrate := 11.
Definition ePlyvmh := 12. Definition eModel := 13. Definition eFoamrock := 14. Definition eFoamads := 15.
Definition eFoamadsSize := 16. Definition eFoammob := 17. Definition eFoammobSize := 18.

(** if (!c) throw. *)
Definition require (c : bool) (e : nat) : result unit := if c then Done tt else Throws e.
(** assert(c). *)
Definition assertion (c : bool) : result unit := if c then Done tt else Aborts.

Definition nonempty {A} (l : list A) : bool := match l with [] => false | _ => true end.

Section DeckInit.
  Context {T : Type} (initial shrateDefault : T) (convert : T -> T -> T).

  (** dst[i] = x. *)
  Fixpoint put (dst : list T) (i : nat) (x : T) : list T :=
    match dst, i with
    | [], _ => []
    | _ :: dst', O => x :: dst'
    | y :: dst', S i' => y :: put dst' i' x
    end.

  (** for (i ...) dst[i] = src[i]. *)
  Fixpoint fill (src : list T) (is : list nat) (dst : list T) : result (list T) :=
    match is with
    | [] => Done dst
    | i :: is' => match nth_error src i with Some x => fill src is' (put dst i x) | None => PastEnd end
    end.

  (** dst.resize(n) and the loop over the n regions. *)
  Definition copy (n : nat) (src : list T) : result (list T) := fill src (seq 0 n) (repeat initial n).

  (** The polymer part of the deck: the phases, TABDIMS, and the records of the keywords. *)
  Record polymerDeck := mkPolymerDeck {
    polymer : bool; polymw : bool; numSat : nat; numPvt : nat; plyrock : list T; plyads : list T; plyvisc : list T;
    plymax : list T; plmixpar : list T; hasPlyshlog : bool; plyshlog : list T; useShrate : bool; shrate : list T;
    plyvmh : list T }.

  (** blackoilpolymerparams.hh 111-130: one entry for each region. *)
  Record polymerParams := mkPolymerParams {
    pRock : list T; pAds : list T; pVisc : list T; pMax : list T; pMix : list T; pShlog : list T; pShrate : list T;
    pVmh : list T }.

  (** 231-269: the loop over PLYSHLOG; the table of viscosities of the region is read. *)
  Fixpoint fillShlog (visc src : list T) (is : list nat) (dst : list T) : result (list T) :=
    match is with
    | [] => Done dst
    | i :: is' => match nth_error src i, nth_error visc i with
                  | Some x, Some v => fillShlog visc src is' (put dst i (convert v x))
                  | _, _ => PastEnd
                  end
    end.

  (** 271-288: the loop over SHRATE. *)
  Fixpoint fillShrate (n : nat) (src : list T) (is : list nat) (dst : list T) : result (list T) :=
    match is with
    | [] => Done dst
    | i :: is' => if negb (nonempty src) then fillShrate n src is' (put dst i shrateDefault)
                  else if length src =? n
                  then match nth_error src i with Some x => fillShrate n src is' (put dst i x) | None => PastEnd end
                  else Throws eShrate
    end.

  (** blackoilpolymermodules.hh 98-343; [None] if the function returns at once (125-126). *)
  Definition polymerInit (enP enMW : bool) (d : polymerDeck) : result (option polymerParams) :=
    if enP && negb (polymer d) then Throws eEnabled else
    if negb enP && polymer d then Throws eDisabled else
    if enMW && negb (polymw d) then Throws eMwEnabled else
    if negb enMW && polymw d then Throws eMwDisabled else
    if enMW && negb enP then Throws eMwAlone else
    if negb (polymer d) then Done None else
    bind (require (nonempty (plyrock d)) ePlyrock) (fun _ =>
    bind (assertion (numSat d =? length (plyrock d))) (fun _ =>
    bind (copy (numSat d) (plyrock d)) (fun rock =>
    bind (require (nonempty (plyads d)) ePlyads) (fun _ =>
    bind (assertion (numSat d =? length (plyads d))) (fun _ =>
    bind (copy (numSat d) (plyads d)) (fun ads =>
    bind (if nonempty (plyvisc d) then
            if enMW then Done (repeat initial (numPvt d))
            else bind (assertion (numPvt d =? length (plyvisc d))) (fun _ => copy (numPvt d) (plyvisc d))
          else if negb enMW then Throws ePlyvisc else Done (repeat initial (numPvt d))) (fun visc =>
    let numMix := length (plymax d) in
    bind (require (nonempty (plymax d)) ePlymax) (fun _ =>
    bind (copy numMix (plymax d)) (fun max =>
    bind (if nonempty (plmixpar d) then
            if enMW then Done (repeat initial numMix) else copy numMix (plmixpar d)
          else if negb enMW then Throws ePlmixpar else Done (repeat initial numMix)) (fun mix =>
    bind (if hasPlyshlog d && negb enMW
          then bind (assertion (numPvt d =? length (plyshlog d))) (fun _ =>
                 fillShlog visc (plyshlog d) (seq 0 (numPvt d)) (repeat initial (numPvt d)))
          else Done []) (fun shl =>
    bind (if useShrate d && negb enMW
          then bind (require (hasPlyshlog d) ePlyshlog) (fun _ =>
                 fillShrate (numPvt d) (shrate d) (seq 0 (numPvt d)) (repeat initial (numPvt d)))
          else Done []) (fun shr =>
    bind (if enMW
          then bind (require (nonempty (plyvmh d)) ePlyvmh) (fun _ =>
               bind (assertion (length (plyvmh d) =? numMix)) (fun _ => copy numMix (plyvmh d)))
          else Done []) (fun vmh =>
    Done (Some (mkPolymerParams rock ads visc max mix shl shr vmh))))))))))))))).

  (** The foam part of the deck; [tabModel]: FOAMOPTS selects TAB. *)
  Record foamDeck := mkFoamDeck {
    foam : bool; tabModel : bool; fNumSat : nat; fNumPvt : nat; foamrock : list T; foamads : list T; foammob : list T }.

  Record foamParams := mkFoamParams { fRock : list T; fAds : list T; fMob : list T }.

  (** blackoilfoammodules.hh 94-175. *)
  Definition foamInit (en : bool) (d : foamDeck) : result (option foamParams) :=
    if en && negb (foam d) then Throws eEnabled else
    if negb en && foam d then Throws eDisabled else
    if negb (foam d) then Done None else
    bind (require (tabModel d) eModel) (fun _ =>
    bind (require (fNumSat d =? length (foamrock d)) eFoamrock) (fun _ =>
    bind (require (nonempty (foamads d)) eFoamads) (fun _ =>
    bind (require (fNumSat d =? length (foamads d)) eFoamadsSize) (fun _ =>
    bind (copy (fNumSat d) (foamrock d)) (fun rock =>
    bind (copy (fNumSat d) (foamads d)) (fun ads =>
    bind (require (nonempty (foammob d)) eFoammob) (fun _ =>
    bind (require (fNumPvt d =? length (foammob d)) eFoammobSize) (fun _ =>
    bind (copy (fNumPvt d) (foammob d)) (fun mob =>
    Done (Some (mkFoamParams rock ads mob))))))))))).
End DeckInit.

Arguments polymerDeck : clear implicits.
Arguments polymerParams : clear implicits.
Arguments foamDeck : clear implicits.
Arguments foamParams : clear implicits.
