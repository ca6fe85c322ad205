(** * Adaptation of the grid

    Models opm/models/common/multiphasebaseproblem.hh (markForGridAdaptation),
    opm/models/discretization/common/restrictprolong.hh and the order of the steps in
    opm/models/discretization/common/fvbasediscretizationfemadapt.hh (adaptGrid).

    Saturations are exact rationals.  The grid and the walk over its elements belong to Dune
    and dune-fem; they are modelled as documented there: a grid without closure, whose marks
    are replaced by later ones and deleted by an adaptation, which refines every marked leaf
    once and removes the children of an element if all of them are leaves marked for
    coarsening. *)
From Coq Require Import QArith List Arith Bool.
Import ListNotations.
Open Scope Q_scope.

(** ** Marks *)
(** The argument of [grid.mark]: 1, 0 and -1. *)
Inductive mark := Refine | Keep | Coarsen.

(** The quantities of one element which matter: its level and, for every phase, the
    saturations in the degrees of freedom of the stencil. *)
Record elem := mkElem { e_level : nat; e_sats : list (list Q) }.

(** [std::min], [std::max]: the first argument if the arguments are equal. *)
Definition stdMin (a b : Q) : Q := if Qle_bool a b then a else b.
Definition stdMax (a b : Q) : Q := if Qle_bool b a then a else b.

(** multiphasebaseproblem.hh:332-342. *)
Definition minSat (l : list Q) : Q := fold_left stdMin l (inject_Z (10 ^ 100)).
Definition maxSat (l : list Q) : Q := fold_left stdMax l (- inject_Z (10 ^ 100)).
(** multiphasebaseproblem.hh:344-345. *)
Definition indicator (l : list Q) : Q :=
  (maxSat l - minSat l) / (stdMax (1 # 100) (maxSat l + minSat l) / 2).

Definition Qlt_bool (a b : Q) : bool := negb (Qle_bool b a).
(** multiphasebaseproblem.hh:346-357: the mark which a phase sets. *)
Definition markPhase (level : nat) (l : list Q) : mark :=
  if Qlt_bool (2 # 10) (indicator l) && (level <? 2)%nat then Refine
  else if Qlt_bool (indicator l) (25 # 1000) then Coarsen
  else Keep.

(** What [grid.mark] keeps of an element, and [numMarked]. *)
Record marking := mkMarking { m_mark : mark; m_num : nat }.
Definition counts (m : mark) : nat := match m with Keep => 0 | _ => 1 end.
(** multiphasebaseproblem.hh:331-358: the loop over the phases. *)
Definition markElement (e : elem) (num : nat) : marking :=
  fold_left (fun a l => let m := markPhase (e_level e) l in mkMarking m (m_num a + counts m)) (e_sats e)
    (mkMarking Keep num).
(** multiphasebaseproblem.hh:327-359: the loop over the interior elements. *)
Definition markElements (es : list elem) : list mark * nat :=
  fold_left (fun a e => let m := markElement e (snd a) in (fst a ++ [m_mark m], m_num m)) es ([], 0%nat).
(** multiphasebaseproblem.hh:361-364: the sum over all processes; what every process returns. *)
Definition markForGridAdaptation (ps : list (list elem)) : nat :=
  fold_left (fun a es => (a + snd (markElements es))%nat) ps 0%nat.

(** ** The grid *)
(** The hierarchy below an element. *)
Inductive tree := T (kids : list tree).
Definition kidsOf (t : tree) : list tree := match t with T ks => ks end.
(** An element: the number of the child, then that of the father, ..., the number of the
    element of level zero last. *)
Definition path := list nat.
Definition isLeafTree (t : tree) : bool := match kidsOf t with [] => true | _ => false end.

Section Grid.
(** Number of children of a refined element. *)
Variable numKids : nat.
(** The marks. *)
Variable m : path -> mark.

Definition isCoarsen (x : mark) : bool := match x with Coarsen => true | _ => false end.
Definition isRefine (x : mark) : bool := match x with Refine => true | _ => false end.

(** Documentation of Dune::Entity::mightVanish: leaves marked for coarsening. *)
Definition mightVanish (p : path) (t : tree) : bool := isLeafTree t && isCoarsen (m p).
(** Whether the children [ks], the first of which has the number [i], might all vanish. *)
Fixpoint allVanish (p : path) (i : nat) (ks : list tree) : bool :=
  match ks with [] => true | t :: ks => mightVanish (i :: p) t && allVanish p (S i) ks end.
(** Dune::Grid::adapt below the element [p]. *)
Fixpoint adaptTree (p : path) (t : tree) : tree :=
  match t with
  | T [] => if isRefine (m p) then T (repeat (T []) numKids) else T []
  | T ks =>
      if allVanish p 0 ks then T []
      else T ((fix go (i : nat) (ks : list tree) : list tree :=
                 match ks with [] => [] | t :: ks => adaptTree (i :: p) t :: go (S i) ks end) 0%nat ks)
  end.
(** ... and on the elements of level zero, the first of which has the number [i]. *)
Fixpoint adaptForest (i : nat) (ts : list tree) : list tree :=
  match ts with [] => [] | t :: ts => adaptTree [i] t :: adaptForest (S i) ts end.

(** ** The transfer of the data *)
Variable V : Type.
(** Dune::PersistentContainer; its slots for elements which do not exist hold anything. *)
Definition container := path -> V.
Definition store (c : container) (p : path) (v : V) : container :=
  fun q => if list_eq_dec Nat.eq_dec q p then v else c q.

(** restrictprolong.hh:68-77. *)
Definition restrictLocal (father son : path) (initialize : bool) (c : container) : container :=
  if initialize then store c father (c son) else c.
(** restrictprolong.hh:89-97. *)
Definition prolongLocal (father son : path) (c : container) : container := store c son (c father).

(** Dune::Fem::AdaptationManager: the calls of restrictLocal for one father. *)
Fixpoint restrictKids (p : path) (i : nat) (ks : list tree) (initialize : bool) (c : container) : container :=
  match ks with
  | [] => c
  | _ :: ks => restrictKids p (S i) ks false (restrictLocal p (i :: p) initialize c)
  end.
(** Dune::Fem::AdaptationManager::hierarchicRestrict: the children first; the data are
    restricted if all children might vanish. *)
Fixpoint restrictTree (p : path) (t : tree) (c : container) : container :=
  match t with
  | T [] => c
  | T ks =>
      let c := (fix go (i : nat) (ks : list tree) (c : container) : container :=
                  match ks with [] => c | t :: ks => go (S i) ks (restrictTree (i :: p) t c) end) 0%nat ks c in
      if allVanish p 0 ks then restrictKids p 0 ks true c else c
  end.
Fixpoint restrictForest (i : nat) (ts : list tree) (c : container) : container :=
  match ts with [] => c | t :: ts => restrictForest (S i) ts (restrictTree [i] t c) end.

Fixpoint prolongKids (p : path) (i : nat) (num : nat) (c : container) : container :=
  match num with O => c | S num => prolongKids p (S i) num (prolongLocal p (i :: p) c) end.
(** Dune::Fem::AdaptationManager::hierarchicProlong: the new elements are the children of the
    refined leaves; [t] is the hierarchy before the adaptation. *)
Fixpoint prolongTree (p : path) (t : tree) (c : container) : container :=
  match t with
  | T [] => if isRefine (m p) then prolongKids p 0 numKids c else c
  | T ks =>
      if allVanish p 0 ks then c
      else (fix go (i : nat) (ks : list tree) (c : container) : container :=
              match ks with [] => c | t :: ks => go (S i) ks (prolongTree (i :: p) t c) end) 0%nat ks c
  end.
Fixpoint prolongForest (i : nat) (ts : list tree) (c : container) : container :=
  match ts with [] => c | t :: ts => prolongForest (S i) ts (prolongTree [i] t c) end.

(** Dune::Fem::AdaptationManager::adapt, called in fvbasediscretizationfemadapt.hh:126:
    restriction, the adaptation of the grid, prolongation. *)
Definition adaptData (ts : list tree) (c : container) : container :=
  prolongForest 0 ts (restrictForest 0 ts c).
End Grid.

(** ** A run *)
(** fvbasediscretizationfemadapt.hh:118-127 as often as it is called on one process with
    adaptation enabled: the elements are those of the leaves, in any order ([order]), with
    whatever saturations ([sats]) they have at that time. *)
Record call := mkCall { c_order : list path; c_sats : path -> list (list Q) }.
Definition level (p : path) : nat := length p - 1.
Definition elemsOf (a : call) : list elem := map (fun p => mkElem (level p) (c_sats a p)) (c_order a).
Definition marksOf (a : call) : path -> mark :=
  fun p => match find (fun q => if list_eq_dec Nat.eq_dec (fst q) p then true else false)
                   (combine (c_order a) (fst (markElements (elemsOf a)))) with
           | Some q => snd q
           | None => Keep
           end.
Definition adaptGrid (numKids : nat) (a : call) (ts : list tree) : list tree :=
  match markForGridAdaptation [elemsOf a] with
  | O => ts
  | S _ => adaptForest numKids (marksOf a) 0 ts
  end.
Definition adaptRun (numKids : nat) (as_ : list call) (ts : list tree) : list tree :=
  fold_left (fun ts a => adaptGrid numKids a ts) as_ ts.
