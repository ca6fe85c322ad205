(** C47: numeric differentiation of the residual of an element. *)
From Coq Require Import List ZArith QArith Lia.
From Coq Require Import Lqa Field.
Import ListNotations.
From Verif Require Import FdModel FdSpec FdProofs.
Open Scope Q_scope.

(** What every theorem assumes: the entries of the cache of intensive quantities are those of
    the current solution, each degree of freedom has [numEq] primary variables, there is at
    least one equation and one primary degree of freedom, and the residual either does not
    look at primary variables directly or there is just one primary degree of freedom (the
    element centered method). *)
Definition wellFormed (IQ EQ : Type) (iqUpdate : nat -> list Q -> IQ)
  (evalResidual : list (list Q) -> list IQ -> list EQ -> nat -> nat -> Q)
  (solution : nat -> list Q) (cached : nat -> option IQ) (spaceIndex : list nat)
  (numEq numPrimaryDof : nat) : Prop :=
  (forall d q, (d < length spaceIndex)%nat -> cached (nth d spaceIndex 0%nat) = Some q ->
     q = iqUpdate d (solution (nth d spaceIndex 0%nat))) /\
  (forall g, length (solution g) = numEq) /\
  (0 < numEq)%nat /\ (0 < numPrimaryDof <= length spaceIndex)%nat /\
  (throughQuantities IQ EQ evalResidual \/ numPrimaryDof = 1%nat).

Section Statements.
Variables (IQ EQ : Type).
Variable iqUpdate : nat -> list Q -> IQ.
Variable eqUpdate : list IQ -> list EQ.
Variable evalResidual : list (list Q) -> list IQ -> list EQ -> nat -> nat -> Q.
Variable solution : nat -> list Q.
Variable cached : nat -> option IQ.
Variable spaceIndex : list nat.
Variable baseEpsilon : Q.
Variable weight : nat -> nat -> Q.
Variable numEq numPrimaryDof : nat.

Notation linearize m :=
  (linearize IQ EQ iqUpdate eqUpdate evalResidual solution cached spaceIndex m baseEpsilon weight
     numEq numPrimaryDof).
Notation F := (F IQ EQ iqUpdate eqUpdate evalResidual).
Notation wellFormed :=
  (wellFormed IQ EQ iqUpdate evalResidual solution cached spaceIndex numEq numPrimaryDof).
Notation slope := (slope IQ EQ iqUpdate eqUpdate evalResidual).
Notation parabola := (parabola IQ EQ iqUpdate eqUpdate evalResidual).
(** The current primary variables of the degrees of freedom of the element. *)
Notation x := (map solution spaceIndex).
(** The step for a variable. *)
Notation eps f p := (baseEpsilon / weight (nth f spaceIndex 0%nat) p).

Lemma eps_positive : (0 < baseEpsilon) -> (forall g p, 0 < weight g p) -> forall f p, 0 < eps f p.
Proof.
  intros HB HW f p. apply Qlt_shift_div_l; auto. lra.
Qed.

(** The residual that comes with the matrix is the residual at the current solution. *)
Theorem C47_residual_is_the_one_of_the_solution : forall m c i e,
  wellFormed -> snd (fst (linearize m c)) i e = F x i e.
Proof. intros m c i e (H1 & _). apply linearize_residual; auto. Qed.

(** A residual that is affine in a variable is differentiated exactly, whatever the method
    and the step. *)
Theorem C47_affine_residuals_are_differentiated_exactly : forall m c i f e p a,
  wellFormed -> 0 < baseEpsilon -> (forall g q, 0 < weight g q) ->
  (i < length spaceIndex)%nat -> (f < numPrimaryDof)%nat -> (e < numEq)%nat -> (p < numEq)%nat ->
  slope x f p i e a ->
  snd (linearize m c) i f e p == a.
Proof.
  intros m c i f e p a (H1 & H2 & H3 & H4 & H5) HB HW Hi Hf He Hp HS.
  destruct (linearize_result IQ EQ iqUpdate eqUpdate evalResidual solution cached spaceIndex m
              baseEpsilon weight numEq numPrimaryDof c H1 H3 H4 H5 H2) as (_ & _ & _ & _ & R).
  rewrite R by auto. unfold entry, here, epsilon.
  pose proof (eps_positive HB HW f p) as HE.
  unfold FdSpec.slope in HS.
  set (h := eps f p) in *.
  destruct (0 <? m)%Z; [|destruct (m <? 0)%Z]; rewrite !HS; field; lra.
Qed.

(** Central differences are exact for parabolas; one-sided ones are off by the curvature
    times the step. *)
Theorem C47_central_differences_are_exact_for_parabolas : forall m c i f e p a b,
  wellFormed -> 0 < baseEpsilon -> (forall g q, 0 < weight g q) ->
  (i < length spaceIndex)%nat -> (f < numPrimaryDof)%nat -> (e < numEq)%nat -> (p < numEq)%nat ->
  parabola x f p i e a b ->
  snd (linearize m c) i f e p == a + inject_Z (Z.sgn m) * (b * eps f p).
Proof.
  intros m c i f e p a b (H1 & H2 & H3 & H4 & H5) HB HW Hi Hf He Hp HS.
  destruct (linearize_result IQ EQ iqUpdate eqUpdate evalResidual solution cached spaceIndex m
              baseEpsilon weight numEq numPrimaryDof c H1 H3 H4 H5 H2) as (_ & _ & _ & _ & R).
  rewrite R by auto. unfold entry, here, epsilon.
  pose proof (eps_positive HB HW f p) as HE.
  unfold FdSpec.parabola in HS.
  set (h := eps f p) in *.
  destruct (0 <? m)%Z eqn:E1; [|destruct (m <? 0)%Z eqn:E2].
  - rewrite Z.sgn_pos by lia. change (inject_Z 1) with 1. rewrite !HS. field; lra.
  - rewrite Z.sgn_neg by lia. change (inject_Z (-1)) with (-(1)). rewrite !HS. field; lra.
  - replace m with 0%Z by lia. change (inject_Z (Z.sgn 0)) with 0. rewrite !HS. field; lra.
Qed.

(** Any residual whatsoever: the entry is the difference quotient of the method. *)
Theorem C47_entries_are_difference_quotients : forall m c i f e p,
  wellFormed -> 0 < baseEpsilon -> (forall g q, 0 < weight g q) ->
  (i < length spaceIndex)%nat -> (f < numPrimaryDof)%nat -> (e < numEq)%nat -> (p < numEq)%nat ->
  (forall v w, v == w -> F (replaced x f p v) i e == F (replaced x f p w) i e) ->
  let plus := F (replaced x f p (at_ x f p + eps f p)) i e in
  let minus := F (replaced x f p (at_ x f p - eps f p)) i e in
  ((0 < m)%Z -> snd (linearize m c) i f e p == (plus - F x i e) / eps f p) /\
  ((m < 0)%Z -> snd (linearize m c) i f e p == (F x i e - minus) / eps f p) /\
  (m = 0%Z -> snd (linearize m c) i f e p == (plus - minus) / (2 * eps f p)).
Proof.
  intros m c i f e p (H1 & H2 & H3 & H4 & H5) HB HW Hi Hf He Hp HP plus minus.
  destruct (linearize_result IQ EQ iqUpdate eqUpdate evalResidual solution cached spaceIndex m
              baseEpsilon weight numEq numPrimaryDof c H1 H3 H4 H5 H2) as (_ & _ & _ & _ & R).
  rewrite R by auto. unfold plus, minus. clear plus minus. unfold entry, here, epsilon.
  pose proof (eps_positive HB HW f p) as HE. set (h := eps f p) in *.
  split; [|split]; intros Hm.
  - rewrite (proj2 (Z.ltb_lt 0 m)) by lia. field; lra.
  - rewrite (proj2 (Z.ltb_ge 0 m)), (proj2 (Z.ltb_lt m 0)) by lia.
    rewrite (HP (at_ x f p - (0 + h)) (at_ x f p - h)) by ring. field; lra.
  - subst m. cbn [Z.ltb Z.compare].
    rewrite (HP (at_ x f p + h - (0 + h + h)) (at_ x f p - h)) by ring. field; lra.
Qed.

(** Afterwards the context has the intensive quantities it had before, of every degree of
    freedom, and nothing is marked as stashed. *)
Theorem C47_intensive_quantities_are_restored : forall m c,
  wellFormed ->
  intQuants (fst (fst (linearize m c)))
  = intQuants (updateAll IQ EQ iqUpdate eqUpdate solution cached spaceIndex c) /\
  stashedDof (fst (fst (linearize m c))) = None.
Proof.
  intros m c (H1 & H2 & H3 & H4 & H5).
  destruct (linearize_result IQ EQ iqUpdate eqUpdate evalResidual solution cached spaceIndex m
              baseEpsilon weight numEq numPrimaryDof c H1 H3 H4 H5 H2) as (HI & _ & HN & _ & _).
  split; [|exact HN]. rewrite updateAll_iqs by auto. apply HI.
Qed.

(** Which primary variables the context returns afterwards: for the degrees of freedom that
    have been differentiated those of the last of them, for the others their own. *)
Theorem C47_primary_variables_afterwards : forall m c s j,
  wellFormed -> (j < length spaceIndex)%nat ->
  primaryVars IQ EQ solution (fst (fst (linearize m c))) s j
  = nth (Nat.max j (numPrimaryDof - 1)) x [].
Proof.
  intros m c s j (H1 & H2 & H3 & H4 & H5) Hj.
  destruct (linearize_result IQ EQ iqUpdate eqUpdate evalResidual solution cached spaceIndex m
              baseEpsilon weight numEq numPrimaryDof c H1 H3 H4 H5 H2)
    as ((I1 & I2 & I3 & I4 & I5) & HT & HN & HS & _).
  unfold primaryVars.
  destruct (Nat.lt_ge_cases j numPrimaryDof) as [L|G].
  - rewrite (HT j L). cbn [deref]. rewrite HS. f_equal. lia.
  - rewrite I3 by lia. cbn [deref]. rewrite Nat.max_l by lia. symmetry. now apply nth_here.
Qed.

End Statements.

Print Assumptions C47_residual_is_the_one_of_the_solution.
Print Assumptions C47_affine_residuals_are_differentiated_exactly.
Print Assumptions C47_central_differences_are_exact_for_parabolas.
Print Assumptions C47_entries_are_difference_quotients.
Print Assumptions C47_intensive_quantities_are_restored.
Print Assumptions C47_primary_variables_afterwards.

(** An element with two degrees of freedom and one equation.  The intensive quantity is the
    variable itself, the extensive quantity of the one face is the difference, and the
    residual is the flux plus the own value. *)
Definition demoIq (d : nat) (pv : list Q) : Q := nth 0 pv 0.
Definition demoEq (iqs : list Q) : list Q := [nth 0 iqs 0 - nth 1 iqs 0].
Definition demoRes (pvs : list (list Q)) (iqs eqs : list Q) (i e : nat) : Q :=
  nth i iqs 0 + (match i with O => 2 | _ => - 2 end) * nth 0 eqs 0.
Definition demoSol (g : nat) : list Q := [inject_Z (Z.of_nat g)].
Definition demoContext : context Q Q := mkContext [] [] [] [] None None.

Definition demo (m : Z) :=
  linearize Q Q demoIq demoEq demoRes demoSol (fun _ => None) [4%nat; 9%nat] m (1 # 10)
    (fun _ _ => 2) 1 2 demoContext.

Example demo_well_formed :
  wellFormed Q Q demoIq demoRes demoSol (fun _ => None) [4%nat; 9%nat] 1 2.
Proof.
  split; [intros; discriminate|]. split; [intros; reflexivity|]. split; [lia|].
  split; [cbn [length]; lia|]. left. intros x y iqs eqs i e. reflexivity.
Qed.

Example demo_slope : forall d i,
  slope Q Q demoIq demoEq demoRes [[4]; [9]] d 0 i 0
    (match i, d with O, O => 3 | O, S O => -2 | 1%nat, O => -2 | 1%nat, S O => 3
                   | _, O => -2 | _, S O => 2 | _, _ => 0 end).
Proof.
  intros d i v.
  destruct d as [|[|d]]; destruct i as [|[|i]];
    unfold F, iqsOf, replaced, at_; cbn [put nth combine seq length map fst snd];
    unfold demoRes, demoEq, demoIq; cbn [put nth]; try ring.
  all: destruct d; cbn [put nth combine seq length map fst snd]; try destruct i; cbn [nth]; ring.
Qed.

Example demo_matrix : forall m, In m [-1; 0; 1]%Z ->
  snd (demo m) 0%nat 0%nat 0%nat 0%nat == 3 /\ snd (demo m) 0%nat 1%nat 0%nat 0%nat == -2 /\
  snd (demo m) 1%nat 0%nat 0%nat 0%nat == -2 /\ snd (demo m) 1%nat 1%nat 0%nat 0%nat == 3.
Proof.
  intros m H. repeat (destruct H as [<-|H]; [repeat split; vm_compute; reflexivity|]). destruct H.
Qed.

(** With two primary degrees of freedom (the vertex centered method) the context returns the
    wrong primary variables for the first of them after the second has been differentiated:
    the pointer of the first leads to the storage that now holds the variables of the second. *)
Theorem C47_context_is_the_same_afterwards_refuted :
  exists c,
    primaryVars Q Q demoSol (fst (fst (demo 0))) [] 0 = [9] /\
    primaryVars Q Q demoSol (updateAll Q Q demoIq demoEq demoSol (fun _ => None) [4%nat; 9%nat] c) [] 0
    = [4] /\
    (* and the extensive quantities are those of the last deflection *)
    map Qred (extQuants (fst (fst (demo 0)))) = [ - (99 # 20) ] /\
    map Qred (extQuants (updateAll Q Q demoIq demoEq demoSol (fun _ => None) [4%nat; 9%nat] c)) = [ - (5) ].
Proof. exists demoContext. repeat split; vm_compute; reflexivity. Qed.
Print Assumptions C47_context_is_the_same_afterwards_refuted.

(** A residual that reads the primary variables of the context directly then gets a wrong
    matrix: the residual is the variable of the first degree of freedom, its derivative with
    regard to that of the second is zero, the matrix has something else. *)
Definition directRes (pvs : list (list Q)) (iqs eqs : list Q) (i e : nat) : Q :=
  nth 0 (nth 0 pvs []) 0.

Theorem C47_residuals_reading_primary_variables_refuted :
  let J := snd (linearize Q Q demoIq demoEq directRes demoSol (fun _ => None) [4%nat; 9%nat] 1
                  (1 # 10) (fun _ _ => 2) 1 2 demoContext) in
  slope Q Q demoIq demoEq directRes [[4]; [9]] 1 0 0 0 0 /\
  J 0%nat 1%nat 0%nat 0%nat == 100.
Proof.
  split.
  - intros v. unfold F, directRes, replaced; cbn [put nth]. ring.
  - vm_compute. reflexivity.
Qed.
Print Assumptions C47_residuals_reading_primary_variables_refuted.
