(** What the properties about Darcy fluxes, approximated values and free-flow boundaries are stated with. *)
From Verif Require Import DarcyModel.
From Verif Require Export FluxSpec.

(** The inner product of two vectors and the vector from one point to another one. *)
Definition inner (dim : nat) (a b : vec) : Q := sumOver (fun k => a k * b k) (seq 0 dim).
Definition fromTo (x y : vec) : vec := fun k => y k - x k.
(** [n^T K d]. *)
Definition bilinear (dim : nat) (n : vec) (K : mat) (d : vec) : Q :=
  sumOver (fun r => n r * inner dim (K r) d) (seq 0 dim).

(** An affine quantity. *)
Definition affine (dim : nat) (c : Q) (G x : vec) : Q := c + inner dim G x.

(** The pressure which a phase would have at a point if it were at rest between the degree of freedom and
    that point (without gravity: the pressure of the degree of freedom). *)
Definition restPressure (gravity : bool) (dim : nat) (x : vec) (s : point) (a : nat) : Q :=
  p_press s a + (if gravity then p_rho s a * inner dim (p_grav s) (fromTo (p_pos s) x) else 0).

Definition scalarMatrix (dim : nat) (k : Q) (K : mat) : Prop :=
  forall r c, (r < dim)%nat -> (c < dim)%nat -> K r c == if (r =? c)%nat then k else 0.
Definition symmetricMean (mean : Q -> Q -> Q) : Prop := forall x y, mean x y == mean y x.
Definition opposite (n : vec) : vec := fun k => - n k.

(** What the fluxes of all phases take along if every phase leaves the domain as it is inside and enters
    it as it is outside; [amount f a] is what the fluid [f] holds per volume of the phase [a]. *)
Definition upstreamRate (amount : fluid -> nat -> Q) (phases : nat) (vf : nat -> Q) (inside bnd : fluid) : Q :=
  sumOver (fun a => vf a * amount (if Qltb (vf a) 0 then bnd else inside) a) (seq 0 phases).

(** The point of a degree of freedom has the pressures of a fluid state. *)
Definition holds (s : point) (f : fluid) : Prop := forall a, p_press s a == f_press f a.

(** Shape functions of an element at an integration point: they reproduce constants and the position [x]
    of the integration point; their gradients (as the geometry of the element maps them) reproduce the
    gradients of constants and of the coordinates. *)
Definition shapeValues (dim vertices : nat) (corner : nat -> vec) (x : vec) (shape : nat -> Q) : Prop :=
  sumOver shape (seq 0 vertices) == 1 /\
  forall k, (k < dim)%nat -> sumOver (fun v => shape v * corner v k) (seq 0 vertices) == x k.
Definition shapeGradients (dim vertices : nat) (corner : nat -> vec) (jacInvT : mat) (local : nat -> vec) : Prop :=
  let global v k := inner dim (jacInvT k) (local v) in
  (forall k, (k < dim)%nat -> sumOver (fun v => global v k) (seq 0 vertices) == 0) /\
  forall k l, (k < dim)%nat -> (l < dim)%nat ->
    sumOver (fun v => global v k * corner v l) (seq 0 vertices) == if (k =? l)%nat then 1 else 0.
