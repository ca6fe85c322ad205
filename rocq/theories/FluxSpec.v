(** What the properties about fluxes and residuals are stated with. *)
From Coq Require Import Permutation.
From Verif Require Import FluxModel ResidualModel.

(** The potential of a phase in a cell: pressure minus the weight of a fluid column of density
    [rho]. *)
Definition potential (rho g : Q) (c : cell) (a : phase) : Q := c_p c a - rho * g * c_z c.
Definition meanDensity (a : phase) (x y : cell) : Q := (c_rho x a + c_rho y a) / 2.

(** Two values which may be missing agree. *)
Definition same (x y : option Q) : Prop :=
  match x, y with Some a, Some b => a == b | None, None => True | _, _ => False end.

(** How much of a component a unit of (surface) volume of a phase of the given cell carries, in the
    conserved unit of that component in the given region. *)
Definition unitOf (fs : fluidsys) (region : nat) (c : comp) : Q :=
  if conserveSurfaceVolume fs then 1
  else refDensity fs (match c with CWater => Water | COil => Oil | CGas => Gas end) region.
Definition content (fs : fluidsys) (x : cell) (a : phase) (c : comp) : Q :=
  match a, c with
  | Water, CWater | Oil, COil | Gas, CGas => 1
  | Oil, CGas => if dissolvedGas fs then c_Rs x else 0
  | Water, CGas => if dissolvedGasInWater fs then c_Rsw x else 0
  | Gas, COil => if vaporizedOil fs then c_Rv x else 0
  | Gas, CWater => if vaporizedWater fs then c_Rvw x else 0
  | _, _ => 0
  end.

Fixpoint qsum (l : list Q) : Q := match l with [] => 0 | x :: r => x + qsum r end.
Definition sumOver {A} (f : A -> Q) (l : list A) : Q := qsum (map f l).

(** ** Balances *)
(** The amount stored in the primary degrees of freedom of an element at the end and at the beginning
    of the time step, the amount produced per time and what leaves over the boundary per time. *)
Definition primaries (e : element) : list dof := firstn (e_primary e) (e_dofs e).
Definition stored (e : element) : Q := sumOver (fun d => d_storage d * (d_vol d * d_ext d)) (primaries e).
Definition storedBefore (e : element) : Q := sumOver (fun d => d_storage1 d * (d_vol d * d_ext d)) (primaries e).
Definition produced (e : element) : Q := sumOver (fun d => d_source d * (d_vol d * d_ext d)) (primaries e).
Definition boundaryLoss (e : element) : Q :=
  sumOver (fun b => b_rate b * (b_area b * d_ext (nth (b_dof b) (e_dofs e) noDof))) (e_bfaces e).
(** The balance of all elements. *)
Definition balance (dt : Q) (elems : list element) : Q :=
  sumOver (fun e => (stored e - storedBefore e) / dt - produced e + boundaryLoss e) elems.

(** Elements are well formed: primary degrees of freedom exist, boundary segments and faces belong to
    degrees of freedom of the stencil, a boundary segment to a primary one. *)
Definition wellFormed (e : element) : Prop :=
  (e_primary e <= length (e_dofs e))%nat /\
  Forall (fun b => (b_dof b < e_primary e)%nat) (e_bfaces e) /\
  Forall (fun f => (f_in f < length (e_dofs e))%nat /\ (f_ex f < length (e_dofs e))%nat) (e_faces e).

(** Vertex-centred: all degrees of freedom of an element's stencil are primary. *)
Definition vertexCentred (e : element) : Prop := e_primary e = length (e_dofs e).
(** Cell-centred: one primary degree of freedom, every face leads from it to another one. *)
Definition cellCentred (e : element) : Prop :=
  e_primary e = 1%nat /\ Forall (fun f => f_in f = 0%nat /\ (0 < f_ex f)%nat) (e_faces e).

(** A face seen from one of its sides: the cells on both sides and the amount which crosses it. *)
Record side := mkSide { s_from : nat; s_to : nat; s_amount : Q }.
Definition sides (e : element) : list side :=
  map (fun f =>
    let di := nth (f_in f) (e_dofs e) noDof in let dj := nth (f_ex f) (e_dofs e) noDof in
    mkSide (d_global di) (d_global dj) (f_flux f * ((d_ext di + d_ext dj) / 2 * f_area f))) (e_faces e).
(** The faces of a grid come in pairs, one side for each of the two cells, and what leaves the one
    enters the other one. *)
Definition faces_match (l : list side) : Prop :=
  exists pairs : list (side * side),
    Permutation l (flat_map (fun p => [fst p; snd p]) pairs) /\
    Forall (fun p => s_from (fst p) = s_to (snd p) /\ s_to (fst p) = s_from (snd p) /\
                     s_amount (fst p) == - s_amount (snd p)) pairs.

(** Total of a global vector over degrees of freedom [0 .. n-1], weighted. *)
Definition vectorSum (n : nat) (w v : nat -> Q) : Q := sumOver (fun g => w g * v g) (seq 0 n).

(** ** A cell-centred grid with transmissibilities *)
(** Cells are numbered; a connection joins two different ones. The elements are what the local
    residual sees of them: cell [i] is the primary degree of freedom, the cells it is connected with
    follow, and the flux of a component is the one of the black-oil model. *)
Record connection := mkConn { k_a : nat; k_b : nat; k_area : Q; k_trans : Q }.
Definition neighbours (conns : list connection) (i : nat) : list (nat * connection) :=
  flat_map (fun k => if (k_a k =? i)%nat then [(k_b k, k)] else if (k_b k =? i)%nat then [(k_a k, k)] else []) conns.
Definition gridElement (fs : fluidsys) (g : Q) (c : comp) (cells : nat -> cell) (data : nat -> dof)
  (bnd : nat -> list bface) (conns : list connection) (i : nat) : element :=
  let nb := neighbours conns i in
  mkElem (data i :: map (fun p => data (fst p)) nb) 1
    (map (fun q : nat * (nat * connection) =>
       let (pos, jk) := q in let (j, k) := jk in
       mkFace 0 (S pos) (k_area k) (advective fs (volumeFlux g (k_trans k) (cells i) (cells j)) (cells i) (cells j) c))
       (combine (seq 0 (length nb)) nb))
    (bnd i).
