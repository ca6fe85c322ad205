(** Vocabulary for C38-C40, independent of the model's helpers. *)
From Coq Require Export List ZArith QArith Lia Lqa Bool Arith.
From Verif Require Import Num BiCGModel.
Export ListNotations.
Open Scope Q_scope.

(** Vectors agree. *)
Definition same (u v : vec) : Prop := forall i, u i == v i.
(** A linear operator. *)
Record linear (A : vec -> vec) : Prop := mkLinear {
  lin_same : forall u v, same u v -> same (A u) (A v);
  lin_add : forall u v, same (A (fun i => u i + v i)) (fun i => A u i + A v i);
  lin_scale : forall a u, same (A (fun i => a * u i)) (fun i => a * A u i)
}.
(** The true residual [b - A x]. *)
Definition residual (A : vec -> vec) (b x : vec) : vec := fun i => b i - A x i.
Definition solves (A : vec -> vec) (b x : vec) : Prop := same (A x) b.

(** A criterion which decides in an arbitrary way on the basis of everything it has ever seen. *)
Record seen := mkSeen { s_solution : vec; s_change : vec; s_residual : vec }.
Definition observer (conv fail : vec -> list seen -> bool) : criterion (vec * list seen) :=
  mkCrit (vec * list seen)
    (fun _ _ r => (r, []))
    (fun c x d r => (fst c, snd c ++ [mkSeen x d r]))
    (fun c => conv (fst c) (snd c)) (fun c => fail (fst c) (snd c)).
(** The residuals seen first, third, fifth ... are the true residuals of the solutions seen with them. *)
Definition trueResiduals (A : vec -> vec) (b : vec) (log : list seen) : Prop :=
  forall k e, nth_error log (2 * k) = Some e -> same (s_residual e) (residual A b (s_solution e)).
(** Those seen in between are true residuals of the solutions seen just before. *)
Definition staleResiduals (A : vec -> vec) (b : vec) (log : list seen) : Prop :=
  forall k e e', nth_error log (2 * k) = Some e -> nth_error log (2 * k + 1) = Some e' ->
    same (s_residual e') (residual A b (s_solution e)).
(** Nothing seen before the end made the criterion stop the solver. *)
Definition undecidedBefore (conv fail : vec -> list seen -> bool) (b : vec) (log : list seen) : Prop :=
  forall k, (k < length log)%nat -> conv b (firstn k log) = false /\ (k <> 0%nat -> fail b (firstn k log) = false).
Definition lastSolution (log : list seen) : vec := last (map s_solution log) vzero.

(** A criterion which after an update says what a function [f] of the initial and the current residual
    says, and initially at most accepts what [f] accepts. *)
Definition dependsOnResidual {St} (crit : criterion St) (c0 : St) (f : vec -> vec -> bool) : Prop :=
  exists inv : St -> vec -> Prop,
    (forall x b, inv (setInitial crit c0 x b) b /\ (converged crit (setInitial crit c0 x b) = true -> f b b = true)) /\
    (forall c b x d r, inv c b -> inv (updateCrit crit c x d r) b /\ converged crit (updateCrit crit c x d r) = f b r).

(** Every entry is bounded by [t] in magnitude. *)
Definition boundedBy (t : num) (l : list (list num)) : Prop :=
  forall p x, In p l -> In x p -> nleb (nabs x) t = true.
Definition noNaN (l : list (list num)) : Prop := forall p x, In p l -> In x p -> x <> NaN.
Definition hasNaN (l : list (list num)) : Prop := exists p, In p l /\ In NaN p.
Definition nonneg (x : num) : Prop := match x with Fin q => 0 <= q | PInf => True | _ => False end.
Definition positive (x : num) : Prop := match x with Fin q => 0 < q | _ => False end.

(** ** Determinants of square matrices of any size by expansion along the first row. *)
Definition minor (j : nat) (m : nat -> nat -> Q) : nat -> nat -> Q :=
  fun r c => m (S r) (if Nat.ltb c j then c else S c).
Fixpoint altSum (f : nat -> Q) (k : nat) : Q :=
  match k with
  | O => 0
  | S k' => altSum f k' + (if Nat.even k' then f k' else - f k')
  end.
Fixpoint det (n : nat) (m : nat -> nat -> Q) : Q :=
  match n with
  | O => 1
  | S n' => altSum (fun j => m O j * det n' (minor j m)) n
  end.
(** Products with and identity of [n] by [n] matrices. *)
Definition entry (n : nat) (a b : nat -> nat -> Q) (i j : nat) : Q :=
  fold_right Qplus 0 (map (fun k => a i k * b k j) (seq 0 n)).
Definition inverseOf (n : nat) (a b : nat -> nat -> Q) : Prop :=
  forall i j, (i < n)%nat -> (j < n)%nat ->
    entry n a b i j == (if Nat.eqb i j then 1 else 0) /\ entry n b a i j == (if Nat.eqb i j then 1 else 0).
