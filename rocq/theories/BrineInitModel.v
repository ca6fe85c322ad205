(** * Initialization of the brine module from the deck

    Models initFromState of opm/models/blackoil/blackoilbrinemodules.hh 93-159, with the outcomes and the loops of
    DeckInitModel.v. A table is a value of the type [T]; [join] makes the table of densities from the concentrations of
    PVTWSALT and the values of BDENSITY (124-125). Of saltsolTable_ and saltdenTable_ (144-145), filled by the same
    statements, one list is kept. Assertions are active; an access behind the end of a container is an outcome. *)
From Coq Require Import List Bool Arith.
From Verif Require Import DeckInitModel.
Import ListNotations.

Section BrineInit.
  Context {T : Type} (initial : T) (join : T -> T -> T).

  (** The brine part of the deck. *)
  Record brineDeck := mkBrineDeck {
    brine : bool; bNumPvt : nat; bNumSat : nat; pvtwsalt : list T; bdensity : list T; permfact : list T;
    saltsol : list T; pcfact : list T }.

  (** blackoilbrineparams.hh 39-47. *)
  Record brineParams := mkBrineParams { pDensity : list T; pPermfact : list T; pSaltsol : list T; pPcfact : list T }.

  (** 121-126: BDENSITY and PVTWSALT are both read by region. *)
  Fixpoint fillDensity (salt src : list T) (is : list nat) (dst : list T) : result (list T) :=
    match is with
    | [] => Done dst
    | i :: is' => match nth_error src i, nth_error salt i with
                  | Some b, Some c => fillDensity salt src is' (put dst i (join c b))
                  | _, _ => PastEnd
                  end
    end.

  (** 132-135 and 153-156: the loop goes over the tables, the container written to has an entry for each region. *)
  Fixpoint fillInto (src : list T) (is : list nat) (dst : list T) : result (list T) :=
    match is with
    | [] => Done dst
    | i :: is' => match nth_error src i with
                  | Some x => if i <? length dst then fillInto src is' (put dst i x) else PastEnd
                  | None => PastEnd
                  end
    end.

  (** 93-159; [enSP]: salt precipitation is compiled in. *)
  Definition brineInit (en enSP : bool) (d : brineDeck) : result (option brineParams) :=
    if en && negb (brine d) then Throws eEnabled else
    if negb en && brine d then Throws eDisabled else
    if negb (brine d) then Done None else
    bind (if nonempty (bdensity d)
          then bind (assertion (bNumPvt d =? length (bdensity d))) (fun _ =>
                 fillDensity (pvtwsalt d) (bdensity d) (seq 0 (bNumPvt d)) (repeat initial (bNumPvt d)))
          else Done []) (fun dens =>
    bind (if enSP then fillInto (permfact d) (seq 0 (length (permfact d))) (repeat initial (bNumPvt d)) else Done []) (fun perm =>
    bind (if enSP && nonempty (saltsol d)
          then bind (assertion (bNumPvt d =? length (saltsol d))) (fun _ => copy initial (bNumPvt d) (saltsol d))
          else Done []) (fun sol =>
    bind (if enSP && nonempty (pcfact d)
          then fillInto (pcfact d) (seq 0 (length (pcfact d))) (repeat initial (bNumSat d)) else Done []) (fun pcf =>
    Done (Some (mkBrineParams dens perm sol pcf)))))).
End BrineInit.

Arguments brineDeck : clear implicits.
Arguments brineParams : clear implicits.
