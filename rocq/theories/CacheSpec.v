(** When the cache of intensive quantities is right. *)
From Verif Require Export CacheModel.

Section Spec.
  Context {PV IQ : Type}.
  Variable F : nat -> PV -> IQ.
  Variable g : flags.
  Notation state := (@st PV IQ).

  (** Whatever the cache hands out was computed from the present solution. *)
  Definition coherent (s : state) : Prop :=
    forall t i q, t < g_history g -> i < g_dofs g ->
      cachedIntensiveQuantities g s t i = Some q -> q = F i (sol s t i).

  Definition empty_cache (s : state) : Prop := forall t i, valid s t i = false.

  (** Histories for which the cache stays right. *)
  Definition safe (o : @op PV) : Prop :=
    match o with
    | ResidualFor _ _ | PvsSwitch _ => g_cache g = false
    | Read t _ | Refresh t _ => t = 0 \/ g_storage g && g_recycle g = false
    | _ => True
    end.
End Spec.
