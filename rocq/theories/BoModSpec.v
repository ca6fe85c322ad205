(** * Vocabulary for the factors of the extension modules *)
From Coq Require Import QArith List Bool.
From Verif Require Import BoIqModel BoModModel.
Open Scope Q_scope.

(** The factor which a foam in the given phase is responsible for. *)
Definition foamFactor (M : modules) (t : foamPhase) : Q :=
  match foamM M with
  | Some (P, c) =>
      match transport P, t with
      | FoamWater, FoamWater | FoamGas, FoamGas | FoamSolvent, FoamSolvent =>
          multiplierTable P (pvtRegion c) (foamVar c)
      | _, _ => 1
      end
  | None => 1
  end.

(** The factor of a phase by all modules: polymer, foam and MICP act on the water, foam perhaps on the gas, salt which
    has precipitated on every phase there is. *)
Definition factorOf (C : config) (M : modules) (p : phase) : Q :=
  (match p, polymerM M with Water, Some (corr, res) => corr / res | _, _ => 1 end) *
  (match p with Water => foamFactor M FoamWater | Gas => foamFactor M FoamGas | Oil => 1 end) *
  (match p, micpM M with Water, Some x => x | _, _ => 1 end) *
  (match saltM M with Some x => if active C p then x else 1 | None => 1 end).

(** The errors in the setup of foam. *)
Definition foamFails (M : modules) (e : foamError) : Prop :=
  exists P c, foamM M = Some (P, c) /\
    match e with
    | NoSolvent => transport P = FoamSolvent /\ solventEnabled M = false
    | BadTransportPhase => transport P = FoamOther
    | NoDesorption => allowDesorption P (satRegion c) = false /\ transport P <> FoamOther /\
                      (transport P = FoamSolvent -> solventEnabled M = true)
    end.
