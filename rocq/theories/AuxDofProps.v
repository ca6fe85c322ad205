(** C26: degrees of freedom of auxiliary modules. *)
From Verif Require Import AuxDofModel AuxDofSpec AuxDofProofs.

(** The degrees of freedom of the grid and of the modules partition the total range:
    every index below the total belongs to the grid or to a module, modules only own
    such indices, none of them a grid index, and no index has two owners. *)
Theorem C26_partition :
  forall grid os, let s := asteps os (no_modules grid) in
    (forall x, x < numTotalDof s <-> x < grid \/ exists k l, owned_by s x k l) /\
    (forall x k l, owned_by s x k l -> grid <= x) /\
    (forall x k l k' l', owned_by s x k l -> owned_by s x k' l' -> k = k' /\ l = l').
Proof.
  intros grid os s. destruct (AInv_steps grid os _ (AInv_start grid)) as (G & C & _). fold s in G, C.
  assert (T : numTotalDof s = grid + total (d_mods s)) by (unfold numTotalDof; rewrite num_aux, G; reflexivity).
  split; [|split].
  - intros x. rewrite T. split.
    + intros H. destruct (lt_dec x grid) as [L|L]; [left; auto|right].
      destruct (covered (d_mods s) grid x C ltac:(lia)) as (k & m & i & E1 & E2 & E3). exists k, i, m. auto.
    + intros [H|(k & l & m & E1 & E2 & E3)]; [lia|].
      destruct (in_range (d_mods s) grid k m l C E1 E2). unfold localToGlobalDof in E3. lia.
  - intros x k l (m & E1 & E2 & E3). destruct (in_range (d_mods s) grid k m l C E1 E2). unfold localToGlobalDof in E3. lia.
  - intros x k l k' l' (m & E1 & E2 & E3) (m' & E1' & E2' & E3').
    apply (unique_owner (d_mods s) grid k m l k' m' l' C E1 E2 E1' E2'). unfold localToGlobalDof in *. lia.
Qed.
Print Assumptions C26_partition.

(** The solution vectors are never shorter than the total number of degrees of freedom,
    and exactly as long after a module has been added. *)
Theorem C26_solution_size :
  forall grid os, numTotalDof (asteps os (no_modules grid)) <= d_size (asteps os (no_modules grid)) /\
    forall n, d_size (asteps (os ++ [AddModule n]) (no_modules grid)) = numTotalDof (asteps (os ++ [AddModule n]) (no_modules grid)).
Proof.
  intros grid os. split.
  - destruct (AInv_steps grid os _ (AInv_start grid)) as (_ & _ & B). exact B.
  - intros n. unfold asteps. rewrite fold_left_app. reflexivity.
Qed.
Print Assumptions C26_solution_size.

Example C26_example : let s := asteps [AddModule 2; ClearModules; AddModule 3; AddModule 0; AddModule 1] (no_modules 10) in
  numTotalDof s = 14 /\ map a_off (d_mods s) = [10; 13; 13] /\ owned_by s 13 2 0.
Proof. cbn. repeat split. exists (mkAux 1 13). repeat split; cbn; auto. Qed.
(** Clearing the modules does not shorten the solution vectors. *)
Example C26_example_clear : let s := asteps [AddModule 2; ClearModules] (no_modules 10) in d_size s = 12 /\ numTotalDof s = 10.
Proof. split; reflexivity. Qed.
