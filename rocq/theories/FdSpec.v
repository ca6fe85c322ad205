(** Vocabulary for the claims on numeric differentiation: the residual as a function of the
    primary variables, its change when one variable changes, and affine residuals. *)
From Coq Require Import List QArith.
Import ListNotations.
From Verif Require Import FdModel.
Open Scope Q_scope.

(** The primary variables of the degrees of freedom of the element, one variable of one
    degree of freedom replaced. *)
Definition replaced (x : list (list Q)) (d p : nat) (v : Q) : list (list Q) :=
  put d (put p v (nth d x [])) x.

(** The value of variable [p] of degree of freedom [d]. *)
Definition at_ (x : list (list Q)) (d p : nat) : Q := nth p (nth d x []) 0.

Section Residual.
Variables (IQ EQ : Type).
Variable iqUpdate : nat -> list Q -> IQ.
Variable eqUpdate : list IQ -> list EQ.
Variable evalResidual : list (list Q) -> list IQ -> list EQ -> nat -> nat -> Q.

(** The intensive quantities that belong to primary variables. *)
Definition iqsOf (x : list (list Q)) : list IQ :=
  map (fun dp => iqUpdate (fst dp) (snd dp)) (combine (seq 0 (length x)) x).

(** The residual of the element as a function of the primary variables alone. *)
Definition F (x : list (list Q)) (i e : nat) : Q :=
  evalResidual x (iqsOf x) (eqUpdate (iqsOf x)) i e.

(** The residual [F i e] depends on variable [p] of degree of freedom [d] with slope [a],
    from any point. *)
Definition slope (x : list (list Q)) (d p i e : nat) (a : Q) : Prop :=
  forall v, F (replaced x d p v) i e == F x i e + a * (v - at_ x d p).

(** The same with curvature [b]. *)
Definition parabola (x : list (list Q)) (d p i e : nat) (a b : Q) : Prop :=
  forall v, F (replaced x d p v) i e
            == F x i e + a * (v - at_ x d p) + b * (v - at_ x d p) * (v - at_ x d p).

(** The residual reads the primary variables only through the quantities. *)
Definition throughQuantities : Prop :=
  forall x y iqs eqs i e, evalResidual x iqs eqs i e = evalResidual y iqs eqs i e.
End Residual.
