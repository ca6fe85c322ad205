(** Model of the degrees of freedom of auxiliary modules:
    opm/models/discretization/common/fvbasediscretization.hh:1480-1502, 1746-1776 and
    baseauxiliarymodule.hh.  The number of degrees of freedom of a module is taken to be
    constant; machine integers do not overflow. *)
From Coq Require Export List Bool Arith Lia.
Export ListNotations.

(** A module: numDofs() (baseauxiliarymodule.hh:73) and dofOffset_ (:79-87). *)
Record aux := mkAux { a_num : nat; a_off : nat }.

(** numGridDof, auxEqModules_ and the size of the solution vectors. *)
Record dofs := mkDofs { d_grid : nat; d_mods : list aux; d_size : nat }.

(** [numAuxiliaryDof], fvbasediscretization.hh:1487-1496. *)
Definition numAuxiliaryDof (s : dofs) : nat := fold_left (fun r m => r + a_num m) (d_mods s) 0.

(** [numTotalDof], fvbasediscretization.hh:1501-1502. *)
Definition numTotalDof (s : dofs) : nat := d_grid s + numAuxiliaryDof s.

(** [addAuxiliaryModule], fvbasediscretization.hh:1746-1764. *)
Definition addAuxiliaryModule (n : nat) (s : dofs) : dofs :=
  let s' := mkDofs (d_grid s) (d_mods s ++ [mkAux n (numTotalDof s)]) (d_size s) in
  mkDofs (d_grid s') (d_mods s') (numTotalDof s').

(** [clearAuxiliaryModules], fvbasediscretization.hh:1771-1776; the solution vectors keep
    their size. *)
Definition clearAuxiliaryModules (s : dofs) : dofs := mkDofs (d_grid s) [] (d_size s).

(** [localToGlobalDof], baseauxiliarymodule.hh:93-97. *)
Definition localToGlobalDof (m : aux) (l : nat) : nat := a_off m + l.

Inductive aop := AddModule (n : nat) | ClearModules.
Definition astep (o : aop) (s : dofs) : dofs :=
  match o with AddModule n => addAuxiliaryModule n s | ClearModules => clearAuxiliaryModules s end.
Definition asteps (os : list aop) (s : dofs) : dofs := fold_left (fun a o => astep o a) os s.

(** After construction: fvbasediscretization.hh:1976-1979. *)
Definition no_modules (grid : nat) : dofs := mkDofs grid [] grid.
