(** * Vocabulary for the initialization of the brine module *)
From Coq Require Import List Bool Arith.
From Verif Require Import DeckInitModel DeckInitSpec BrineInitModel.
Import ListNotations.

(** The counts of tables for which the initialization works. *)
Definition brineCounts {T} (enSP : bool) (d : brineDeck T) : Prop :=
  (bdensity d <> [] -> length (bdensity d) = bNumPvt d /\ bNumPvt d <= length (pvtwsalt d)) /\
  (enSP = true -> length (permfact d) <= bNumPvt d /\ (saltsol d <> [] -> length (saltsol d) = bNumPvt d) /\
                  length (pcfact d) <= bNumSat d).

(** The entries of [have] are those of [want], and [default] where [want] has none. *)
Definition padded {T} (default : T) (n : nat) (have want : list T) : Prop :=
  length have = n /\
  forall i, i < n -> nth_error have i = match nth_error want i with Some x => Some x | None => Some default end.

Definition brineRegions {T} (initial : T) (join : T -> T -> T) (enSP : bool) (d : brineDeck T) (p : brineParams T) : Prop :=
  (bdensity d <> [] -> length (pDensity p) = bNumPvt d /\
     forall i b c, i < bNumPvt d -> nth_error (bdensity d) i = Some b -> nth_error (pvtwsalt d) i = Some c ->
       nth_error (pDensity p) i = Some (join c b)) /\
  (bdensity d = [] -> pDensity p = []) /\
  (enSP = true -> padded initial (bNumPvt d) (pPermfact p) (permfact d) /\
     (saltsol d <> [] -> sameUpTo (bNumPvt d) (pSaltsol p) (saltsol d)) /\
     (pcfact d <> [] -> padded initial (bNumSat d) (pPcfact p) (pcfact d)) /\ (pcfact d = [] -> pPcfact p = [])).
