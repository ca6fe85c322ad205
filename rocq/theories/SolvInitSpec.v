(** * Vocabulary for the initialization of the solvent module *)
From Coq Require Import List Bool Arith.
From Verif Require Import DeckInitModel DeckInitSpec SolvInitModel.
Import ListNotations.

(** Either no table at all or one for each region. *)
Definition noneOrAll {T} (n : nat) (l : list T) : Prop := l = [] \/ length l = n.

(** The tables a miscible run needs. *)
Definition miscibleComplete {T} (d : solventDeck T) : Prop :=
  (sof2 d = [] -> oil d = false) /\ (sof2 d <> [] -> sNumSat d <= length (sof2 d)) /\ length (misc d) = 1 /\
  noneOrAll 1 (pmisc d) /\ noneOrAll (sNumSat d) (msfn d) /\ noneOrAll 1 (sorwmis d) /\ noneOrAll 1 (sgcwmis d) /\
  length (tlmixpar d) = 1 /\ noneOrAll 1 (tlpmixpa d).

Definition solventComplete {T} (d : solventDeck T) : Prop :=
  ~ (co2sol d = true /\ h2sol d = true) /\ sNumSat d <= length (ssfn d) /\ (misc d <> [] -> miscibleComplete d).

(** The tables of the deck for each region, or a default for each region without tables. *)
Definition given {T} (n : nat) (have want : list T) (default : T) : Prop :=
  length have = n /\
  forall i, i < n -> nth_error have i = match want with [] => Some default | _ => nth_error want i end.

Definition miscibleRegions {T} (ones linear zero : T) (d : solventDeck T) (m : miscibleParams T) : Prop :=
  (sof2 d <> [] -> sameUpTo (sNumSat d) (mSof2 m) (sof2 d)) /\ sameUpTo 1 (mMisc m) (misc d) /\
  given 1 (mPmisc m) (pmisc d) ones /\ given (sNumSat d) (mMsfn m) (msfn d) linear /\
  given 1 (mSorwmis m) (sorwmis d) zero /\ given 1 (mSgcwmis m) (sgcwmis d) zero /\
  sameUpTo 1 (mTlmix m) (tlmixpar d) /\ given 1 (mTlpmix m) (tlpmixpa d) ones.

Definition solventRegions {T} (ones linear zero : T) (d : solventDeck T) (p : solventParams T) : Prop :=
  sameUpTo (sNumSat d) (sSsfn p) (ssfn d) /\
  (sPvt p = Co2Pvt <-> co2sol d = true) /\ (sPvt p = H2Pvt <-> h2sol d = true) /\
  (sRsSolw p = true <-> (disgasw d = true /\ (co2sol d = true \/ h2sol d = true))) /\
  match sMisc p with None => misc d = [] | Some m => misc d <> [] /\ miscibleRegions ones linear zero d m end.

Definition solventFault {T} (en : bool) (d : solventDeck T) (e : nat) : Prop :=
  (e = eEnabled /\ en = true /\ solvent d = false) \/ (e = eDisabled /\ en = false /\ solvent d = true) \/
  (e = eBoth /\ co2sol d = true /\ h2sol d = true) \/
  (misc d <> [] /\ ((e = eSof2 /\ sof2 d = [] /\ oil d = true) \/ (e = eTlmixpar /\ tlmixpar d = []))).

(** A count of tables which the assertions or the accesses refuse. *)
Definition solventMisfit {T} (d : solventDeck T) : Prop :=
  length (ssfn d) < sNumSat d \/
  (misc d <> [] /\
     ((sof2 d <> [] /\ length (sof2 d) < sNumSat d) \/ length (misc d) <> 1 \/ ~ noneOrAll 1 (pmisc d) \/
      ~ noneOrAll (sNumSat d) (msfn d) \/ ~ noneOrAll 1 (sorwmis d) \/ ~ noneOrAll 1 (sgcwmis d) \/
      ~ noneOrAll 1 (tlmixpar d) \/ ~ noneOrAll 1 (tlpmixpa d))).
