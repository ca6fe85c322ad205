(** Specification vocabulary for the threaded element loops: plain sums over the
    element list, in grid order, on one thread. *)
From Verif Require Import ParLoopModel.

Section Spec.
  Variable R : Type.
  Variable add : R -> R -> R.
  Variable zero : R.

  Fixpoint rsum (l : list R) : R := match l with [] => zero | x :: r => add x (rsum r) end.

  (** Elements that take part in the linearization. *)
  Definition participates (nonlocal : bool) (e : elem R) : bool := nonlocal || interior e.

  (** All entries of the participating elements that concern residual row [i] /
      Jacobian block [(i,j)]. *)
  Definition row_values (nonlocal : bool) (elems : list (elem R)) (i : nat) : list R :=
    flat_map (fun e => map snd (filter (fun x => Nat.eqb (fst x) i) (rentries e)))
             (filter (participates nonlocal) elems).
  Definition block_values (nonlocal : bool) (elems : list (elem R)) (i j : nat) : list R :=
    flat_map (fun e => map snd (filter (fun x => Nat.eqb (fst (fst x)) i && Nat.eqb (snd (fst x)) j) (jentries e)))
             (filter (participates nonlocal) elems).
End Spec.

(** All threads have left the loop. *)
Definition all_done {R} (s : pst R) : Prop := forall t, In t (threads s) -> t = TDone.
