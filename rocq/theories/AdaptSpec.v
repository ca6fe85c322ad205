(** * Vocabulary for the properties of grid adaptation *)
From Coq Require Import QArith List Arith Bool.
From Verif Require Import AdaptModel.
Import ListNotations.
Open Scope Q_scope.

(** The largest and the smallest number of a list. *)
Definition largest (l : list Q) (x : Q) : Prop := (exists y, In y l /\ y == x) /\ forall y, In y l -> y <= x.
Definition smallest (l : list Q) (x : Q) : Prop := (exists y, In y l /\ y == x) /\ forall y, In y l -> x <= y.
(** Saturations, with a lot of room for unphysical ones. *)
Definition sane (l : list Q) : Prop := l <> [] /\ forall x, In x l -> -1000 <= x /\ x <= 1000.
(** How much a saturation varies, relative to its mean. *)
Definition variation (hi lo : Q) : Q := (hi - lo) / ((if Qle_bool (hi + lo) (1 # 100) then 1 # 100 else hi + lo) / 2).

(** The tree below an element. *)
Fixpoint below (t : tree) (down : list nat) : option tree :=
  match down with
  | [] => Some t
  | i :: down => match nth_error (kidsOf t) i with Some s => below s down | None => None end
  end.
(** The element of level zero comes last in a path. *)
Definition treeAt (ts : list tree) (p : path) : option tree :=
  match rev p with
  | [] => None
  | i :: down => match nth_error ts i with Some t => below t down | None => None end
  end.
Definition leaf (ts : list tree) (p : path) : Prop := treeAt ts p = Some (T []).
Definition inner (ts : list tree) (p : path) : Prop := exists k ks, treeAt ts p = Some (T (k :: ks)).

(** Sum over the leaves, each weighted with its volume. *)
Fixpoint sumTree (f : path -> Q) (p : path) (t : tree) : Q :=
  match t with
  | T [] => f p
  | T ks => (fix go (i : nat) (ks : list tree) : Q :=
               match ks with [] => 0 | t :: ks => sumTree f (i :: p) t + go (S i) ks end) 0%nat ks
  end.
Fixpoint sumFrom (f : path -> Q) (i : nat) (ts : list tree) : Q :=
  match ts with [] => 0 | t :: ts => sumTree f [i] t + sumFrom f (S i) ts end.
Definition overLeaves (f : path -> Q) (ts : list tree) : Q := sumFrom f 0 ts.
(** The volumes of the children of an element add up to its volume. *)
Fixpoint volumesOf (vol : path -> Q) (p : path) (i n : nat) : Q :=
  match n with O => 0 | S n => vol (i :: p) + volumesOf vol p (S i) n end.
Definition additive (numKids : nat) (vol : path -> Q) : Prop := forall p, volumesOf vol p 0 numKids == vol p.
(** What a phase with the largest and smallest saturations [hi] and [lo] asks for. *)
Definition asksRefine (lev : nat) (hi lo : Q) : Prop := 2 # 10 < variation hi lo /\ (lev < 2)%nat.
Definition asksCoarsen (lev : nat) (hi lo : Q) : Prop := ~ asksRefine lev hi lo /\ variation hi lo < 25 # 1000.
(** Elements which an adaptation would change or try to. *)
Definition marked (ms : list mark) : nat := length (filter (fun x => match x with Keep => false | _ => true end) ms).
(** Every refined element has the same number of children. *)
Inductive regular (numKids : nat) : tree -> Prop :=
| regLeaf : regular numKids (T [])
| regNode : forall ks, length ks = numKids -> Forall (regular numKids) ks -> regular numKids (T ks).
