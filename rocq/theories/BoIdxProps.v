(** C51: equation and variable indices never collide. *)
From Verif Require Import BoIdxModel BoIdxSpec BoIdxProofs.

(** The claim fails with the default index structure: the extended black-oil model
    together with polymer (or with brine) puts two variables into the same entry. *)
Theorem C51_variables_distinct_refuted :
  exists p, p = default_params false true true false false false false /\
    ~ tiles (off p) (numEq (three_phase p)) (variables p (three_phase p)).
Proof.
  exists (default_params false true true false false false false). split; [reflexivity|].
  intros T. apply variables3_only_if in T. cbn in T. intuition discriminate.
Qed.
Print Assumptions C51_variables_distinct_refuted.

(** Exactly which combinations give a collision-free layout of the variables. Missing from
    the claim: the extended black-oil model with polymers, biofilm or brine, and polymers
    together with biofilm. *)
Theorem C51_variables_distinct_partial : forall p,
  tiles (off p) (numEq (three_phase p)) (variables p (three_phase p)) <->
  ((p_extbos p = 0%nat \/
    (p_polymers p = 0%nat /\ p_micps p = 0%nat /\ p_brine p = false)) /\
   (p_polymers p = 0%nat \/ p_micps p = 0%nat)).
Proof.
  intros p. split; [apply variables3_only_if|].
  intros [HX HM]. apply variables3_if; assumption.
Qed.
Print Assumptions C51_variables_distinct_partial.

Theorem C51_equations_distinct_partial : forall p,
  tiles (off p) (numEq (three_phase p)) (equations 3 p (three_phase p)) <->
  (p_polymers p = 0%nat \/ p_micps p = 0%nat).
Proof. exact equations3_iff. Qed.
Print Assumptions C51_equations_distinct_partial.

(** The same for two phases, whichever is the disabled one ... *)
Theorem C51_two_phases_distinct_partial : forall dis p, (dis <= 2)%nat ->
  let ok := (p_extbos p = 0%nat \/
             (p_polymers p = 0%nat /\ p_micps p = 0%nat /\
              p_foam p = false /\ p_brine p = false)) /\
            (p_polymers p = 0%nat \/ p_micps p = 0%nat) in
  (tiles (off p) (numEq (two_phase dis p)) (variables p (two_phase dis p)) <-> ok) /\
  (tiles (off p) (numEq (two_phase dis p)) (equations 2 p (two_phase dis p)) <-> ok).
Proof.
  intros dis p D ok. split; [exact (variables2_iff dis p D) | exact (equations2_iff dis p)].
Qed.
Print Assumptions C51_two_phases_distinct_partial.

(** ... and for one phase. *)
Theorem C51_one_phase_distinct_partial : forall p,
  let ok := (p_extbos p = 0%nat \/
             (p_polymers p = 0%nat /\ p_micps p = 0%nat /\ p_foam p = false)) /\
            (p_polymers p = 0%nat \/ p_micps p = 0%nat) in
  (tiles (off p) (numEq (one_phase p)) (variables p (one_phase p)) <-> ok) /\
  (tiles (off p) (numEq (one_phase p)) (equations 1 p (one_phase p)) <-> ok).
Proof.
  intros p ok. split; [exact (variables1_iff p) | exact (equations1_iff p)].
Qed.
Print Assumptions C51_one_phase_distinct_partial.

(** The variables and equations of polymer and biofilm which have their own names are the
    consecutive entries of the block of their extension. *)
Theorem C51_named_entries_consecutive : forall dis p,
  names_consecutive p (three_phase p) /\ names_consecutive p (two_phase dis p) /\
  names_consecutive p (one_phase p).
Proof. intros dis p. split; [apply names3|]. split; [apply names2 | apply names1]. Qed.
Print Assumptions C51_named_entries_consecutive.

(** The biofilm extension needs five variables. The default index structure counts a single
    one for it, and the remaining four have an index outside of the vector. *)
Theorem C51_biofilm_variables_in_range_refuted : exists p x,
  p = default_params false false false false false false true /\ x = three_phase p /\
  0 <= microbialConcentrationIdx x < numEq x /\
  ~ (0 <= oxygenConcentrationIdx x < numEq x) /\ ~ (0 <= ureaConcentrationIdx x < numEq x) /\
  ~ (0 <= biofilmConcentrationIdx x < numEq x) /\ ~ (0 <= calciteConcentrationIdx x < numEq x).
Proof.
  eexists. eexists. split; [reflexivity|]. split; [reflexivity|].
  vm_compute. repeat split; intros H; try discriminate H; destruct H as [H _]; apply H; reflexivity.
Qed.
Print Assumptions C51_biofilm_variables_in_range_refuted.

(** The renumbering of the components is a bijection between the active components and
    0, ..., number of phases - 1. *)
Theorem C51_component_numbering : forall dis c a, (dis <= 2)%nat ->
  ((c <= 2)%nat -> c <> dis ->
     (toActive2 dis c < 2)%nat /\ toCanonical2 dis (toActive2 dis c) = c) /\
  ((a < 2)%nat ->
     (toCanonical2 dis a <= 2)%nat /\ toCanonical2 dis a <> dis /\
     toActive2 dis (toCanonical2 dis a) = a) /\
  toCanonical3 (toActive3 c) = c /\ toActive3 (toCanonical3 a) = a /\
  (toCanonical1 dis (toActive1 dis) = dis /\ toActive1 (toCanonical1 dis 0) = 0%nat).
Proof.
  intros dis c a D.
  split; [|split; [|split; [reflexivity|split; [reflexivity|]]]].
  - intros C N. destruct dis as [|[|[|dis]]], c as [|[|[|c]]]; try lia; cbn; lia.
  - intros A. destruct dis as [|[|[|dis]]], a as [|[|a]]; try lia; cbn; lia.
  - destruct dis as [|[|[|dis]]]; try lia; vm_compute; repeat split; auto; lia.
Qed.
Print Assumptions C51_component_numbering.

(** Solvent, two polymer variables, energy, foam and brine together, with an offset. *)
Example many_extensions :
  let p := mkParams 1 0 2 1 true true 4 0 in
  tiles 4 9 (variables p (three_phase p)) /\ tiles 4 9 (equations 3 p (three_phase p)).
Proof.
  split; [apply (proj2 (C51_variables_distinct_partial (mkParams 1 0 2 1 true true 4 0)))
         |apply (proj2 (C51_equations_distinct_partial (mkParams 1 0 2 1 true true 4 0)))];
    cbn; auto.
Qed.
