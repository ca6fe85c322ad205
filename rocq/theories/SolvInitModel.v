(** * Initialization of the solvent module from the deck

    Models initFromState of opm/models/blackoil/blackoilsolventmodules.hh 105-351, with the outcomes and the loop of
    DeckInitModel.v. A table is a value of the type [T]: the two tables made from SSFN, from MSFN and from TLMIXPAR are one
    value, since they are filled by the same statements. The PVT objects (126-138) are not modelled, only which of them is
    initialized. Assertions are active. [PastEnd] stands for the access to a table with a number which does not exist
    (getTable of opm-common). *)
From Coq Require Import List Bool Arith.
From Verif Require Import DeckInitModel.
Import ListNotations.

(** Which PVT objects are initialized (126-138). *)
Inductive solventPvt := OwnPvt | Co2Pvt | H2Pvt.

(** The errors, in the order of the source, after [eEnabled] and [eDisabled]. *)
Definition eBoth := 20. Definition eSof2 := 21. Definition eMisc := 22. Definition eTlmixpar := 23. Definition eTlpmixpa := 24.

Section SolvInit.
  Context {T : Type} (initial ones linear zero : T).

  (** The solvent part of the deck; [oil]: oil is an active phase; [disgasw]: hasDISGASW. *)
  Record solventDeck := mkSolventDeck {
    solvent : bool; co2sol : bool; h2sol : bool; disgasw : bool; oil : bool; sNumSat : nat; ssfn : list T; misc : list T;
    sof2 : list T; pmisc : list T; msfn : list T; sorwmis : list T; sgcwmis : list T; tlmixpar : list T; tlpmixpa : list T }.

  (** blackoilsolventparams.hh 54-79; [sMisc] is [None] if isMiscible_ is false. *)
  Record miscibleParams := mkMiscibleParams {
    mSof2 : list T; mMisc : list T; mPmisc : list T; mMsfn : list T; mSorwmis : list T; mSgcwmis : list T; mTlmix : list T;
    mTlpmix : list T }.
  Record solventParams := mkSolventParams { sPvt : solventPvt; sRsSolw : bool; sSsfn : list T; sMisc : option miscibleParams }.

  (** The pattern of 195-218 (PMISC), 220-249 (MSFN), 250-274 (SORWMIS) and 276-299 (SGCWMIS): an assertion and a loop, or a
      default for each region. *)
  Definition orDefault (n : nat) (src : list T) (default : T) : result (list T) :=
    if nonempty src then bind (assertion (n =? length src)) (fun _ => copy initial n src) else Done (repeat default n).

  (** 156-350. numMiscRegions is 1 (160). *)
  Definition miscibleInit (d : solventDeck) : result miscibleParams :=
    bind (if nonempty (sof2 d) then copy initial (sNumSat d) (sof2 d)
          else if oil d then Throws eSof2 else Done []) (fun s =>
    bind (if nonempty (misc d) then bind (assertion (1 =? length (misc d))) (fun _ => copy initial 1 (misc d))
          else Throws eMisc) (fun mi =>
    bind (orDefault 1 (pmisc d) ones) (fun pm =>
    bind (orDefault (sNumSat d) (msfn d) linear) (fun ms =>
    bind (orDefault 1 (sorwmis d) zero) (fun sw =>
    bind (orDefault 1 (sgcwmis d) zero) (fun sg =>
    bind (if nonempty (tlmixpar d) then bind (assertion (1 =? length (tlmixpar d))) (fun _ => copy initial 1 (tlmixpar d))
          else Throws eTlmixpar) (fun tl =>
    bind (if nonempty (tlpmixpa d) then
            if nonempty (tlpmixpa d) then bind (assertion (1 =? length (tlpmixpa d))) (fun _ => copy initial 1 (tlpmixpa d))
            else if nonempty pm then Done pm else Throws eTlpmixpa
          else Done (repeat ones 1)) (fun tp =>
    Done (mkMiscibleParams s mi pm ms sw sg tl tp))))))))).

  (** 105-351. *)
  Definition solventInit (en : bool) (d : solventDeck) : result (option solventParams) :=
    if en && negb (solvent d) then Throws eEnabled else
    if negb en && solvent d then Throws eDisabled else
    if negb (solvent d) then Done None else
    if co2sol d && h2sol d then Throws eBoth else
    let pvt := if co2sol d || h2sol d then if co2sol d then Co2Pvt else H2Pvt else OwnPvt in
    let rsw := if co2sol d || h2sol d then disgasw d else false in
    bind (copy initial (sNumSat d) (ssfn d)) (fun ss =>
    bind (if nonempty (misc d) then bind (miscibleInit d) (fun m => Done (Some m)) else Done None) (fun m =>
    Done (Some (mkSolventParams pvt rsw ss m)))).
End SolvInit.

Arguments solventDeck : clear implicits.
Arguments solventParams : clear implicits.
Arguments miscibleParams : clear implicits.
