(** * Vocabulary for the properties of the convergence writer *)
From Coq Require Import QArith List Bool Arith.
From Verif Require Import ConvWModel.
Import ListNotations.

(** The updates a call of the Newton method computes, each with the solution it is for. *)
Fixpoint computed (V : Type) (apply : V -> V -> V) (x : V) (its : list (iteration V)) : list (V * V * bool) :=
  match its with
  | Updates _ u ok :: its => (x, u, ok) :: computed V apply (apply x u) its
  | NotFinite _ u ok :: _ => [(x, u, ok)]
  | UpdatesAndThrows _ u ok :: _ => [(x, u, ok)]
  | _ => []
  end.
(** The [i]-th one (from 1) of the [k]-th call (from 1). *)
Fixpoint labelled (V : Type) (k i : nat) (us : list (V * V * bool)) : list (dataset V) :=
  match us with
  | [] => []
  | (x, u, ok) :: us => mkDataset V (inject_Z (Z.of_nat k) + inject_Z (Z.of_nat i) / 100) (Some (x, u)) ok :: labelled V k (S i) us
  end.
Fixpoint allUpdates (V : Type) (apply : V -> V -> V) (k : nat) (calls : list (V * list (iteration V))) : list (dataset V) :=
  match calls with
  | [] => []
  | (x, its) :: calls => labelled V k 1 (computed V apply x its) ++ allUpdates V apply (S k) calls
  end.
(** What is on disk at the end; no file if there is no writer. *)
Definition collection (V : Type) (w : writer V) : option (list (dataset V)) := option_map (m_done V) (w_multi V w).
Fixpoint increasing (l : list Q) : Prop :=
  match l with
  | a :: (b :: _) as r => a < b /\ increasing r
  | _ => True
  end.
