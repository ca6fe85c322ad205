(** Model of the threaded element loops: [ThreadedEntityIterator]
    (opm/models/parallel/threadedentityiterator.hh) and the loops that use it
    to assemble the global system
    (opm/models/discretization/common/fvbaselinearizer.hh: linearize_,
    linearizeElement_; fvbasediscretization.hh: globalResidual).

    One step per mutex protected region. Numbers are the elements of an arbitrary
    type [R] with an addition; rounding is not modelled. The unlocked variant
    (UseLinearizationLock = false) is not modelled. *)
From Coq Require Export List Arith Lia Bool Permutation.
Export ListNotations.

Section Loop.
  Variable R : Type.
  Variable add : R -> R -> R.

  (** An element of the grid view as seen by the linearizer: its partition type
      and the entries the local linearizer produces for it
      (fvbaselinearizer.hh:605-622): residual entries (globI, value) and Jacobian
      entries (globJ, globI, block). *)
  Record elem := {
    interior : bool;
    rentries : list (nat * R);
    jentries : list (nat * nat * R) }.

  Variable elems : list elem.          (* the grid view, in iteration order *)
  Variable nonlocal : bool.            (* linearizeNonLocalElements *)
  Variable prefetching : bool.         (* true: loop of fvbaselinearizer.hh:545-562;
                                          false: loop of fvbasediscretization.hh:899-918 *)

  Definition nelem : nat := length elems.   (* position of sequentialEnd_ *)

  (** Local control state of a thread. *)
  Inductive tstate :=
  | TStart                      (* before beginParallel *)
  | THave (p : nat)             (* elemIt = p, before the isFinished test *)
  | TWork (p : nat) (q : option nat)   (* linearizing p; q: prefetched next position *)
  | TAdd (p : nat) (q : option nat)    (* local system ready, before the global mutex *)
  | TNext                       (* about to call increment() *)
  | TCatch                      (* in the catch block *)
  | TDone.

  Record pst := {
    it : nat;                   (* sequentialIt_ *)
    threads : list tstate;
    handed : list nat;          (* entities handed out so far, newest first *)
    finishedl : list nat;       (* entities completely processed (or skipped), newest first *)
    threw : bool;               (* exceptionPtr set *)
    res : nat -> R;             (* residual_ *)
    jac : nat -> nat -> R }.    (* jacobian_ *)

  Definition updt (l : list tstate) (i : nat) (x : tstate) : list tstate :=
    firstn i l ++ match skipn i l with [] => [] | _ :: r => x :: r end.

  (** beginParallel / increment (threadedentityiterator.hh:55-64, 81-90): both have the same body. *)
  Definition fetch (s : pst) : nat * pst :=
    let tmp := it s in
    (tmp,
     {| it := if Nat.eqb (it s) nelem then it s else S (it s);
        threads := threads s;
        handed := if Nat.eqb tmp nelem then handed s else tmp :: handed s;
        finishedl := finishedl s; threw := threw s; res := res s; jac := jac s |}).

  (** isFinished (67-68). *)
  Definition is_finished (p : nat) : bool := Nat.eqb p nelem.

  Definition set_thread (i : nat) (x : tstate) (s : pst) : pst :=
    {| it := it s; threads := updt (threads s) i x; handed := handed s; finishedl := finishedl s;
       threw := threw s; res := res s; jac := jac s |}.

  (** Element [p] must not be linearized: fvbaselinearizer.hh:559-560. *)
  Definition skipped (p : nat) : bool :=
    match nth_error elems p with
    | Some e => negb nonlocal && negb (interior e)
    | None => false
    end.

  (** residual_[globI] += ..., addToBlock(globJ, globI, ...): fvbaselinearizer.hh:609-621. *)
  Definition add_res (f : nat -> R) (e : nat * R) : nat -> R :=
    fun i => if Nat.eqb i (fst e) then add (f i) (snd e) else f i.
  Definition add_jac (f : nat -> nat -> R) (e : nat * nat * R) : nat -> nat -> R :=
    fun i j => if Nat.eqb i (fst (fst e)) && Nat.eqb j (snd (fst e)) then add (f i j) (snd e) else f i j.

  Definition commit (p : nat) (s : pst) : pst :=
    match nth_error elems p with
    | Some e =>
        {| it := it s; threads := threads s; handed := handed s; finishedl := p :: finishedl s;
           threw := threw s;
           res := fold_left add_res (rentries e) (res s);
           jac := fold_left add_jac (jentries e) (jac s) |}
    | None => s
    end.
  Definition mark_skipped (p : nat) (s : pst) : pst :=
    {| it := it s; threads := threads s; handed := handed s; finishedl := p :: finishedl s;
       threw := threw s; res := res s; jac := jac s |}.

  Definition continue_at (q : option nat) : tstate :=
    match q with Some q => THave q | None => TNext end.

  (** One step of thread [i]; [b]: linearizing the element throws. *)
  Definition tstep (i : nat) (b : bool) (s : pst) : option pst :=
    match nth_error (threads s) i with
    | None => None
    | Some t =>
        match t with
        | TStart | TNext => let '(p, s1) := fetch s in Some (set_thread i (THave p) s1)
        | THave p =>
            if is_finished p then Some (set_thread i TDone s)
            else if prefetching then let '(q, s1) := fetch s in Some (set_thread i (TWork p (Some q)) s1)
            else Some (set_thread i (TWork p None) s)
        | TWork p q =>
            if skipped p then Some (set_thread i (continue_at q) (mark_skipped p s))
            else if b then Some (set_thread i TCatch s)
            else Some (set_thread i (TAdd p q) s)
        | TAdd p q => Some (set_thread i (continue_at q) (commit p s))
        | TCatch =>                                     (* 573-577 and setFinished 71-76 *)
            Some (set_thread i TDone
                   {| it := nelem; threads := threads s; handed := handed s;
                      finishedl := finishedl s; threw := true; res := res s; jac := jac s |})
        | TDone => None
        end
    end.

  Definition pinit (T : nat) (r0 : nat -> R) (j0 : nat -> nat -> R) : pst :=
    {| it := 0; threads := repeat TStart T; handed := []; finishedl := []; threw := false;
       res := r0; jac := j0 |}.

  Fixpoint prun (ls : list (nat * bool)) (s : pst) : option pst :=
    match ls with
    | [] => Some s
    | (i, b) :: r => match tstep i b s with Some s' => prun r s' | None => None end
    end.
End Loop.

Arguments interior {R}. Arguments rentries {R}. Arguments jentries {R}.
Arguments it {R}. Arguments threads {R}. Arguments handed {R}. Arguments finishedl {R}.
Arguments threw {R}. Arguments res {R}. Arguments jac {R}.
