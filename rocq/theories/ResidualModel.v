(** The local residual and its assembly into the global one. Models
    opm/models/discretization/common/fvbaselocalresidual.hh, fvbaseextensivequantities.hh and the
    parts of fvbasediscretization.hh which sum residuals and storage terms up. All equations are
    treated alike and independently of each other: the model is written for one of them. Only the
    values are modelled, not the derivatives. *)
From Verif Require Export FluxModel.

(** A degree of freedom of an element's stencil: what the local residual reads for it. *)
Record dof := mkDof {
  d_global : nat;       (* index in the global vectors *)
  d_vol : Q;            (* volume of the sub-control volume *)
  d_total : Q;          (* dofTotalVolume: of the whole finite volume *)
  d_ext : Q;            (* extrusion factor at the end of the time step *)
  d_ext1 : Q;           (* and at its beginning *)
  d_storage : Q;        (* computeStorage at the end of the time step *)
  d_storage1 : Q;       (* and at its beginning *)
  d_source : Q          (* computeSource *)
}.
Definition noDof : dof := mkDof 0 0 0 0 0 0 0 0.
(** A sub-control volume face and the flux which computeFlux returns for it; a boundary segment and
    the value the problem returns for it. *)
Record face := mkFace { f_in : nat; f_ex : nat; f_area : Q; f_flux : Q }.
Record bface := mkBface { b_dof : nat; b_area : Q; b_rate : Q }.
Record element := mkElem {
  e_dofs : list dof;
  e_primary : nat;      (* the first degrees of freedom are the primary ones *)
  e_faces : list face;
  e_bfaces : list bface
}.
Definition dofOf (e : element) (k : nat) : dof := nth k (e_dofs e) noDof.

(** [residual\[k\] += q] *)
Definition addTo (r : nat -> Q) (k : nat) (q : Q) : nat -> Q := fun l => if (l =? k)%nat then r l + q else r l.

(** fvbaseextensivequantities.hh 66-77. *)
Definition faceExtrusion (e : element) (f : face) : Q :=
  (d_ext (dofOf e (f_in f)) + d_ext (dofOf e (f_ex f))) / 2.
(** fvbaselocalresidual.hh 299-358. *)
Definition amount (e : element) (f : face) : Q := f_flux f * (faceExtrusion e f * f_area f).
Definition evalFluxes (e : element) (r : nat -> Q) : nat -> Q :=
  fold_left (fun r f => addTo (addTo r (f_in f) (amount e f)) (f_ex f) (- amount e f)) (e_faces e) r.

(** fvbaselocalresidual.hh 491-632. The storage term at the beginning of the time step is taken from
    the cache if that is enabled; [d_storage1] is the value either way (what the cache holds is
    modelled in CacheModel.v). *)
Definition evalVolumeTerms (dt : Q) (e : element) (r : nat -> Q) : nat -> Q :=
  fold_left (fun r k =>
    let d := dofOf e k in
    let scvVolume := d_vol d * d_ext d in
    let r := addTo r k ((d_storage d - d_storage1 d) * (scvVolume / dt)) in
    addTo r k (- (d_source d * scvVolume)))
    (seq 0 (e_primary e)) r.

(** fvbaselocalresidual.hh 419-482. *)
Definition evalBoundary (e : element) (r : nat -> Q) : nat -> Q :=
  fold_left (fun r b => addTo r (b_dof b) (b_rate b * (b_area b * d_ext (dofOf e (b_dof b))))) (e_bfaces e) r.

(** fvbaselocalresidual.hh 158-191: eval. *)
Definition eval (volumetric : bool) (dt : Q) (e : element) : nat -> Q :=
  let r := evalBoundary e (evalVolumeTerms dt e (evalFluxes e (fun _ => 0))) in
  if volumetric then
    fun k => if (k <? length (e_dofs e))%nat && Qltb 0 (d_total (dofOf e k)) then r k / d_total (dofOf e k) else r k
  else r.

(** fvbasediscretization.hh 883-935: globalResidual. The list contains the interior elements of all
    processes; adding over the elements of one process and then over the process borders is adding
    over this list. The order in which threads pick elements is the order of the list. *)
Definition globalResidual (volumetric : bool) (dt : Q) (elems : list element) : nat -> Q :=
  fold_left (fun dest e =>
    fold_left (fun dest k => addTo dest (d_global (dofOf e k)) (eval volumetric dt e k)) (seq 0 (e_primary e)) dest)
    elems (fun _ => 0).

(** fvbaselocalresidual.hh 204-288 (evalStorage without the storage cache) and
    fvbasediscretization.hh 943-985 (globalStorage). *)
Definition globalStorage (elems : list element) : Q :=
  fold_left (fun s e => fold_left (fun s k => s + d_storage (dofOf e k) * (d_vol (dofOf e k) * d_ext (dofOf e k)))
                          (seq 0 (e_primary e)) s) elems 0.
Definition globalStorage1 (elems : list element) : Q :=
  fold_left (fun s e => fold_left (fun s k => s + d_storage1 (dofOf e k) * (d_vol (dofOf e k) * d_ext1 (dofOf e k)))
                          (seq 0 (e_primary e)) s) elems 0.
(** fvbasediscretization.hh 1018-1071: the boundary and source rates of checkConservativeness. *)
Definition totalRate (elems : list element) : Q :=
  fold_left (fun s e =>
    let s := fold_left (fun s b => s + b_rate b * (b_area b * d_ext (dofOf e (b_dof b)))) (e_bfaces e) s in
    fold_left (fun s k => s + - (d_vol (dofOf e k) * d_ext (dofOf e k)) * d_source (dofOf e k)) (seq 0 (e_primary e)) s)
    elems 0.
(** fvbasediscretization.hh 1079-1098: does the assertion of checkConservativeness hold? *)
Definition conservative (tolerance dt : Q) (elems : list element) : bool :=
  let storageRate := (globalStorage1 elems - globalStorage elems) / dt in
  let rate := totalRate elems in
  let eps := (qabs storageRate + rate) * tolerance in
  let eps := if Qltb tolerance eps then eps else tolerance in
  Qle_bool (qabs (storageRate - rate)) eps.
