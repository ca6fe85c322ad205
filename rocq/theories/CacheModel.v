(** Model of the solution vectors of the time levels and of the cache of intensive
    quantities: opm/models/discretization/common/fvbasediscretization.hh and its users
    fvbaseelementcontext.hh, fvbasenewtonmethod.hh, pvs/pvsmodel.hh.
    A solution vector is a function of the degree of freedom.  The intensive quantities of
    a degree of freedom are a function of its primary variables; their dependence on the
    time, on the problem's parameters and on hints is not modelled. *)
From Coq Require Export List Bool Arith Lia.
Export ListNotations.

Definition upd {A} (f : nat -> A) (k : nat) (v : A) : nat -> A := fun i => if Nat.eqb i k then v else f i.

(** Parameters EnableIntensiveQuantityCache, EnableThermodynamicHints,
    EnableStorageCache (fvbasediscretization.hh:402-404), recycleFirstIterationStorage of
    the problem (:786), TimeDiscHistorySize (:328), numGridDof. *)
Record flags := mkFlags {
  g_cache : bool; g_hints : bool; g_storage : bool; g_recycle : bool;
  g_history : nat; g_dofs : nat
}.

(** [storeIntensiveQuantities], fvbasediscretization.hh:1799-1800. *)
Definition store_iq (g : flags) : bool := g_cache g || g_hints g.

Section Cache.
  Context {PV IQ : Type}.
  Variable F : nat -> PV -> IQ.      (* IntensiveQuantities::update *)
  Variable g : flags.

  (** solution_ (:1924), intensiveQuantityCache_ (:1920), intensiveQuantityCacheUpToDate_
      (:1922), all by time index and degree of freedom. *)
  Record st := mkSt { sol : nat -> nat -> PV; cache : nat -> nat -> IQ; valid : nat -> nat -> bool }.

  (** [cachedIntensiveQuantities], :655-671.  The caches of all levels are allocated
      (:415-418), so the test for an empty one never applies. *)
  Definition cachedIntensiveQuantities (s : st) (t i : nat) : option IQ :=
    if negb (g_cache g) || negb (valid s t i) then None else Some (cache s t i).

  (** [thermodynamicHint], :635-642. *)
  Definition thermodynamicHint (s : st) (t i : nat) : option IQ :=
    if negb (g_hints g) then None else cachedIntensiveQuantities s t i.

  (** [updateCachedIntensiveQuantities], :681-690. *)
  Definition updateCached (q : IQ) (t i : nat) (s : st) : st :=
    if negb (store_iq g) then s
    else mkSt (sol s) (upd (cache s) t (upd (cache s t) i q)) (upd (valid s) t (upd (valid s t) i true)).

  (** [setIntensiveQuantitiesCacheEntryValidity], :699-707. *)
  Definition setValidity (t i : nat) (v : bool) (s : st) : st :=
    if negb (store_iq g) then s
    else mkSt (sol s) (cache s) (upd (valid s) t (upd (valid s t) i v)).

  (** [invalidateIntensiveQuantitiesCache], :714-721. *)
  Definition invalidate (t : nat) (s : st) : st :=
    if store_iq g then mkSt (sol s) (cache s) (upd (valid s) t (fun _ => false)) else s.

  (** One degree of freedom of [updateIntensiveQuantities_], fvbaseelementcontext.hh:554-571:
      take the cached object or compute a new one and put it into the cache. *)
  Definition read (s : st) (t i : nat) : IQ :=
    match cachedIntensiveQuantities s t i with
    | Some q => q
    | None => F i (sol s t i)
    end.
  Definition access (t i : nat) (s : st) : st :=
    match cachedIntensiveQuantities s t i with
    | Some _ => s
    | None => updateCached (F i (sol s t i)) t i s
    end.
  Definition access_all (t : nat) (dofs : list nat) (s : st) : st := fold_left (fun a i => access t i a) dofs s.

  (** [invalidateAndUpdateIntensiveQuantities], :723-741; [dofs]: the primary degrees of
      freedom of the elements in the order in which the threads treat them. *)
  Definition invalidateAndUpdate (t : nat) (dofs : list nat) (s : st) : st :=
    access_all t dofs (invalidate t s).

  Definition set_sol (t : nat) (u : nat -> PV) (s : st) : st := mkSt (upd (sol s) t u) (cache s) (valid s).

  (** [FvBaseNewtonMethod::update_], fvbasenewtonmethod.hh:123-138: any new solution, then
      the entries of all grid DOFs are marked invalid. *)
  Fixpoint invalidate_dofs (n : nat) (s : st) : st :=
    match n with O => s | S m => setValidity 0 m false (invalidate_dofs m s) end.
  Definition newton_update (u : nat -> PV) (s : st) : st := invalidate_dofs (g_dofs g) (set_sol 0 u s).

  (** [updateFailed], :1362-1367. *)
  Definition updateFailed (dofs : list nat) (s : st) : st := invalidateAndUpdate 0 dofs (set_sol 0 (sol s 1) s).

  (** The loop of [shiftIntensiveQuantityCache], :798-801, from time index [t] on. *)
  Fixpoint shift_loop (n : nat) (t slots : nat) (s : st) : st :=
    match n with
    | O => s
    | S n => shift_loop n (S t) slots
               (mkSt (sol s) (upd (cache s) (t + slots) (cache s t)) (upd (valid s) (t + slots) (valid s t)))
    end.

  (** [shiftIntensiveQuantityCache], :781-806. *)
  Definition shift (slots : nat) (s : st) : st :=
    if negb (store_iq g) then s
    else if g_storage g && g_recycle g then s
    else shift_loop (g_history g - slots) 0 slots s.

  (** [advanceTimeLevel], :1388-1401, without grid adaptation. *)
  Definition advanceTimeLevel (s : st) : st := shift 1 (set_sol 1 (sol s 0) s).

  (** [globalResidual(dest, u)], :866-875; [dofs]: the degrees of freedom whose intensive
      quantities are used, with their time index. *)
  Definition globalResidualFor (u : nat -> PV) (reads : list (nat * nat)) (s : st) : st :=
    let tmp := sol s 0 in
    set_sol 0 tmp (fold_left (fun a '(t, i) => access t i a) reads (set_sol 0 u s)).

  (** [applyInitialSolution], :549-597: all time levels get the same solution; the cache is
      not touched. *)
  Definition applyInitial (u : nat -> PV) (s : st) : st := mkSt (fun _ => u) (cache s) (valid s).

  (** What the model's user and the Newton method can do. *)
  Inductive op :=
  | Read (t i : nat)                                        (* element context, globalStorage *)
  | Invalidate (t : nat)
  | InvalidateEntry (t i : nat)                             (* setIntensiveQuantitiesCacheEntryValidity(.., false) *)
  | Refresh (t : nat) (dofs : list nat)                     (* invalidateAndUpdateIntensiveQuantities *)
  | NewtonUpdate (u : nat -> PV)
  | UpdateFailed (dofs : list nat)
  | Advance
  | ResidualFor (u : nat -> PV) (reads : list (nat * nat))
  | PvsSwitch (u : nat -> PV).                              (* switchPrimaryVars_, pvsmodel.hh:506-553 *)

  Definition step (o : op) (s : st) : st :=
    match o with
    | Read t i => access t i s
    | Invalidate t => invalidate t s
    | InvalidateEntry t i => setValidity t i false s
    | Refresh t dofs => invalidateAndUpdate t dofs s
    | NewtonUpdate u => newton_update u s
    | UpdateFailed dofs => updateFailed dofs s
    | Advance => advanceTimeLevel s
    | ResidualFor u reads => globalResidualFor u reads s
    | PvsSwitch u => set_sol 0 u s
    end.
  Definition steps (os : list op) (s : st) : st := fold_left (fun a o => step o a) os s.

  (** [update] when Newton's method reports failure, :1248-1321: whatever the method did to
      the current solution and to the cache, then updateFailed.  [Partial u]: an update_
      that throws after having changed a part of the solution (the cache entries have not
      been marked yet). *)
  Inductive inner := InRead (t i : nat) | InUpdate (u : nat -> PV) | InPartial (u : nat -> PV).
  Definition inner_step (o : inner) (s : st) : st :=
    match o with
    | InRead t i => access t i s
    | InUpdate u => newton_update u s
    | InPartial u => set_sol 0 u s
    end.
  Definition failed_update (os : list inner) (dofs : list nat) (s : st) : st :=
    updateFailed dofs (fold_left (fun a o => inner_step o a) os s).
End Cache.
