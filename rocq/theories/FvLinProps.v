(** Properties of the linearizer of the finite volume discretizations: linearizing some of the
    elements (C45), erasing the matrix (C46), and constraints (C70). *)
From Coq Require Import List Bool Arith QArith Lia Lqa.
Import ListNotations.
From Verif Require Import TpfaModel TpfaSpec TpfaProofs FvLinModel FvLinSpec FvLinProofs.
Open Scope Q_scope.

Section Grid.
Context {PV : Type}.
Variables (numElements numTotal : nat) (dofs : nat -> list nat) (primaries : nat -> nat)
          (interior : nat -> bool) (nonLocal enableConstraints : bool).
Let linearize := fvLinearizeDomain (PV := PV) numElements numTotal dofs primaries interior nonLocal enableConstraints.
Let reaching := fvReaches (PV := PV) numElements numTotal dofs primaries interior nonLocal enableConstraints.
Let grid := fvGrid numElements numTotal dofs primaries.
Let rows := rowSum dofs primaries.
Let blocks := blockSum dofs primaries.
Let done := linearized numElements interior nonLocal.
Let free (a : fvLin PV) (i : nat) := enableConstraints = false \/ ~ constrained a i.

Lemma not_keys (cm : list (nat * PV)) i : ~ (exists v, In (i, v) cm) -> ~ In i (map fst cm).
Proof. intros N I. apply in_map_iff in I. destruct I as ((k, v) & X & I). cbn in X. subst. eauto. Qed.

Lemma keys (cm : list (nat * PV)) i : (exists v, In (i, v) cm) -> In i (map fst cm).
Proof. intros (v & I). apply in_map_iff. exists (i, v). auto. Qed.

Lemma entry_val (a : fvLin PV) m : fvMatrix a = Some m -> forall i j q p, fvEntry a i j q p = val_ m i j q p.
Proof. intros M i j q p. unfold fvEntry. rewrite M. reflexivity. Qed.

(** After any history, also after linearizations which ended with an exception, the next
    linearization gives every degree of freedom of its elements the sum of what the elements
    contribute: nothing of what was there before remains. *)
Theorem C45_equations_of_the_elements : forall us u v s E d a,
  grid -> fvDomain numElements d -> reaching (fvNew u v) us s -> linearize E d s = Done a ->
  (forall i q, owned dofs primaries (elementsOf numElements d) i -> free a i ->
     fvResidual a i q == rows (results E a) (done d) i q) /\
  (forall i j q p, owned dofs primaries (elementsOf numElements d) i -> free a i ->
     fvEntry a i j q p == blocks (results E a) (done d) i j q p).
Proof.
  intros us u v s E d a G D R L.
  destruct (lin_result _ _ _ _ _ _ _ E d s a L) as (K & _ & _ & _ & m & M & _ & O & _).
  assert (X : forall i, owned dofs primaries (elementsOf numElements d) i -> free a i ->
    (forall q, fvResidual a i q == rows (results E a) (done d) i q) /\
    (forall j q p, fvEntry a i j q p == blocks (results E a) (done d) i j q p)).
  { intros i Ow F. destruct (O i) as (A & B).
    - destruct F as [F|F]; [auto|]. right. rewrite <- K. apply not_keys. exact F.
    - apply existsb_owned in Ow. rewrite Ow in A, B. rewrite orb_true_r in A, B. split.
      + intros q. rewrite A. unfold rows, done. lra.
      + intros j q p. rewrite (entry_val a m M), B. unfold blocks, done. lra. }
  split; intros; apply X; auto.
Qed.

(** The same equations as those of the whole system, for every degree of freedom all of whose
    elements are linearized, and the same blocks in the rows of the elements and in the columns
    of these degrees of freedom. *)
Theorem C45_same_equations_as_the_whole_system : forall us u v s E els a b,
  grid -> fvDomain numElements (Some els) -> NoDup els -> reaching (fvNew u v) us s ->
  linearize E (Some els) s = Done a -> linearize E None s = Done b ->
  let inside i := forall e, (e < numElements)%nat -> primaryOf dofs primaries e i -> In e els in
  (forall i q, owned dofs primaries els i -> inside i -> fvResidual a i q == fvResidual b i q) /\
  (forall i j q p, owned dofs primaries els i -> inside j -> fvEntry a i j q p == fvEntry b i j q p).
Proof.
  intros us u v s E els a b G D N R La Lb inside.
  destruct (lin_result _ _ _ _ _ _ _ E (Some els) s a La) as (Ka & Ua & Va & _ & ma & Ma & Sa & Oa & Ca).
  destruct (lin_result _ _ _ _ _ _ _ E None s b Lb) as (Kb & Ub & Vb & _ & mb & Mb & Sb & Ob & Cb).
  assert (RR : results E a = results E b) by (unfold results; rewrite Ua, Va, Ub, Vb; reflexivity).
  assert (OW : forall i, owned dofs primaries els i -> owned dofs primaries (seq 0 numElements) i).
  { intros i (e & I & P). exists e. split; [|exact P]. unfold fvDomain in D. rewrite Forall_forall in D.
    apply in_seq. specialize (D e I). lia. }
  assert (SUB : forall f, (forall e, (e < numElements)%nat -> ~ In e els -> f e == 0) ->
    total f (linearized numElements interior nonLocal (Some els)) == total f (linearized numElements interior nonLocal None)).
  { intros f Z. apply total_subset.
    - apply NoDup_filter. exact N.
    - apply NoDup_filter. apply seq_NoDup.
    - intros e I. apply filter_In in I. apply filter_In. split; [|tauto].
      unfold fvDomain in D. rewrite Forall_forall in D. apply in_seq. specialize (D e (proj1 I)). lia.
    - intros e I J. apply filter_In in I. apply Z.
      + destruct I as (I & _). apply in_seq in I. lia.
      + intros X. apply J. apply filter_In. split; [exact X|tauto]. }
  assert (DEC : forall i, enableConstraints = true /\ In i (map fst (mapAfter numElements dofs primaries enableConstraints E s)) \/
                          (enableConstraints = false \/ ~ In i (map fst (mapAfter numElements dofs primaries enableConstraints E s)))).
  { intros i. destruct (in_dec Nat.eq_dec i (map fst (mapAfter numElements dofs primaries enableConstraints E s)));
      destruct (bool_dec enableConstraints true) as [X|X]; auto.
    right. left. now apply not_true_is_false. }
  split.
  - intros i q Ow In_. destruct (DEC i) as [(Y & I)|F].
    + destruct (Ca Y i I) as (A & _). destruct (Cb Y i I) as (B & _). rewrite A, B. reflexivity.
    + destruct (Oa i F) as (A & _). destruct (Ob i F) as (B & _).
      pose proof (OW i Ow) as Ow'. apply existsb_owned in Ow. apply existsb_owned in Ow'. cbn [elementsOf] in A, B.
      rewrite Ow in A. rewrite Ow' in B. rewrite orb_true_r in A, B. rewrite A, B, RR.
      apply Qplus_comp; [reflexivity|]. apply SUB. intros e He Ne. apply element_row. intros P. apply Ne. auto.
  - intros i j q p Ow In_. rewrite (entry_val a ma Ma), (entry_val b mb Mb). destruct (DEC i) as [(Y & I)|F].
    + destruct (Ca Y i I) as (_ & A & A'). destruct (Cb Y i I) as (_ & B & B').
      destruct (Nat.eq_dec j i) as [->|Nj]; [|rewrite A, B by exact Nj; reflexivity].
      destruct (ma i i) as [x|] eqn:X.
      * rewrite A' by congruence. rewrite B'; [reflexivity|]. intros Z. apply Sb in Z. apply Sa in Z. congruence.
      * unfold val_. rewrite X. apply Sa in X. apply Sb in X. rewrite X. reflexivity.
    + destruct (Oa i F) as (_ & A). destruct (Ob i F) as (_ & B).
      pose proof (OW i Ow) as Ow'. apply existsb_owned in Ow. apply existsb_owned in Ow'. cbn [elementsOf] in A, B.
      rewrite Ow in A. rewrite Ow' in B. rewrite orb_true_r in A, B. rewrite A, B, RR.
      apply Qplus_comp; [reflexivity|]. apply SUB. intros e He Ne. apply element_block. intros P. apply Ne. auto.
Qed.

(** The other rows keep their values, and what the elements contribute is added to them, unless
    the number of elements is the number of degrees of freedom. *)
Theorem C45_equations_of_other_elements_exactly : forall us u v s E d a m,
  grid -> fvDomain numElements d -> reaching (fvNew u v) us s -> fvMatrix s = Some m ->
  linearize E d s = Done a -> length (elementsOf numElements d) <> numTotal ->
  (forall i q, ~ owned dofs primaries (elementsOf numElements d) i -> free a i ->
     fvResidual a i q == fvResidual s i q) /\
  (forall i j q p, ~ owned dofs primaries (elementsOf numElements d) i -> free a i ->
     fvEntry a i j q p == fvEntry s i j q p + blocks (results E a) (done d) i j q p).
Proof.
  intros us u v s E d a m0 G D R M0 L NL.
  destruct (lin_result _ _ _ _ _ _ _ E d s a L) as (K & _ & _ & _ & m & M & _ & O & _).
  apply Nat.eqb_neq in NL.
  assert (X : forall i, ~ owned dofs primaries (elementsOf numElements d) i -> free a i ->
    (forall q, fvResidual a i q == fvResidual s i q) /\
    (forall j q p, fvEntry a i j q p == fvEntry s i j q p + blocks (results E a) (done d) i j q p)).
  { intros i Ow F. destruct (O i) as (A & B).
    - destruct F as [F|F]; [auto|]. right. rewrite <- K. apply not_keys. exact F.
    - assert (Z : existsb (Nat.eqb i) (flat_map (primaryDofs dofs primaries) (elementsOf numElements d)) = false).
      { destruct (existsb _ _) eqn:Z; [|reflexivity]. exfalso. apply Ow. apply existsb_owned. exact Z. }
      rewrite Z, NL in A, B. cbn [orb] in A, B. split.
      + intros q. rewrite A. unfold startResidual. rewrite M0.
        assert (Y : rows (results E a) (done d) i q == 0).
        { apply total_zero. intros e I. apply element_row. intros P. apply Ow. exists e. split; [|exact P].
          apply filter_In in I. tauto. }
        unfold rows, done in Y. rewrite Y. lra.
      + intros j q p. rewrite (entry_val a m M), (entry_val s m0 M0), B. unfold startMatrix. rewrite M0. reflexivity. }
  split; intros; apply X; auto.
Qed.

(** No linearization fails unless an element cannot be linearized. *)
Theorem C46_every_linearization_works : forall us u v s E d,
  grid -> fvDomain numElements d -> reaching (fvNew u v) us s ->
  (exists a, linearize E d s = Done a) \/
  exists a e, linearize E d s = Problem a /\ In e (done d) /\ localOf E (solution0 a) (solution1 a) e = None.
Proof.
  intros us u v s E d G D R.
  destruct (reached_wellFormed numElements numTotal dofs primaries interior nonLocal enableConstraints us _ _ G R
              (new_wellFormed _ _ _ _ _)) as (W & _).
  destruct (lin_progress numElements numTotal dofs primaries interior nonLocal enableConstraints E d s G D W)
    as (a & [A|A] & _ & _ & F); [left; eauto|].
  destruct (existsb (fun e => match localOf E (solution0 a) (solution1 a) e with None => true | Some _ => false end)
              (done d)) eqn:X.
  - apply existsb_exists in X. destruct X as (e & I & X). right. exists a, e.
    destruct (localOf E (solution0 a) (solution1 a) e); [discriminate|]. auto.
  - left. exists a. apply F. intros e I Z. assert (Y : existsb (fun e => match localOf E (solution0 a) (solution1 a) e with None => true | Some _ => false end) (done d) = true).
    { apply existsb_exists. exists e. rewrite Z. auto. }
    congruence.
Qed.

(** Erasing the matrix and linearizing everything gives, for the degrees of freedom of the
    elements, the system which is obtained without erasing it. *)
Theorem C46_erasing_gives_the_same_system : forall us u v s E a b,
  grid -> reaching (fvNew u v) us s ->
  linearize E None (fvErase s) = Done a -> linearize E None s = Done b ->
  (forall i q, owned dofs primaries (seq 0 numElements) i -> fvResidual a i q == fvResidual b i q) /\
  (forall i j q p, owned dofs primaries (seq 0 numElements) i -> fvEntry a i j q p == fvEntry b i j q p) /\
  solution0 a = solution0 b /\ solution1 a = solution1 b /\ constraintsMap a = constraintsMap b.
Proof.
  intros us u v s E a b G R La Lb.
  destruct (reached_wellFormed numElements numTotal dofs primaries interior nonLocal enableConstraints us _ _ G R
              (new_wellFormed _ _ _ _ _)) as (W & _).
  destruct (lin_result _ _ _ _ _ _ _ E None (fvErase s) a La) as (Ka & Ua & Va & _ & ma & Ma & Sa & Oa & Ca).
  destruct (lin_result _ _ _ _ _ _ _ E None s b Lb) as (Kb & Ub & Vb & _ & mb & Mb & Sb & Ob & Cb).
  change (mapAfter numElements dofs primaries enableConstraints E (fvErase s))
    with (mapAfter numElements dofs primaries enableConstraints E s) in *.
  change (solution0 (fvErase s)) with (solution0 s) in *. change (solution1 (fvErase s)) with (solution1 s) in *.
  assert (RR : results E a = results E b) by (unfold results; rewrite Ua, Va, Ub, Vb; reflexivity).
  assert (CA : covers numElements dofs primaries ma).
  { intros e i j X Y Z. rewrite (Sa j i). eapply start_covers; eauto. discriminate. }
  assert (CB : covers numElements dofs primaries mb).
  { intros e i j X Y Z. rewrite (Sb j i). eapply start_covers; eauto. }
  assert (DEC : forall i, enableConstraints = true /\ In i (map fst (mapAfter numElements dofs primaries enableConstraints E s)) \/
                          (enableConstraints = false \/ ~ In i (map fst (mapAfter numElements dofs primaries enableConstraints E s)))).
  { intros i. destruct (in_dec Nat.eq_dec i (map fst (mapAfter numElements dofs primaries enableConstraints E s)));
      destruct (bool_dec enableConstraints true) as [X|X]; auto.
    right. left. now apply not_true_is_false. }
  split; [|split; [|split; [congruence|split; congruence]]].
  - intros i q Ow. destruct (DEC i) as [(Y & I)|F].
    + destruct (Ca Y i I) as (A & _). destruct (Cb Y i I) as (B & _). rewrite A, B. reflexivity.
    + destruct (Oa i F) as (A & _). destruct (Ob i F) as (B & _). apply existsb_owned in Ow.
      cbn [elementsOf] in A, B. rewrite Ow in A, B. rewrite orb_true_r in A, B. rewrite A, B, RR. reflexivity.
  - intros i j q p Ow. rewrite (entry_val a ma Ma), (entry_val b mb Mb). destruct (DEC i) as [(Y & I)|F].
    + destruct (Ca Y i I) as (_ & A & A'). destruct (Cb Y i I) as (_ & B & B').
      destruct (Nat.eq_dec j i) as [->|Nj]; [|rewrite A, B by exact Nj; reflexivity].
      destruct Ow as (e & He & P). apply in_seq in He. assert (Hd : In i (dofs e)).
      { unfold primaryOf in P. rewrite <- (firstn_skipn (primaries e) (dofs e)). apply in_app_iff. auto. }
      rewrite A', B'; [reflexivity| |]; [apply (CB e)|apply (CA e)]; auto; lia.
    + destruct (Oa i F) as (_ & A). destruct (Ob i F) as (_ & B). apply existsb_owned in Ow.
      cbn [elementsOf] in A, B. rewrite Ow in A, B. rewrite orb_true_r in A, B. rewrite A, B, RR. reflexivity.
Qed.

(** The matrix which is created after erasing has exactly the blocks of the stencils and those
    which the auxiliary modules ask for at that moment; without erasing, it keeps its blocks
    whatever the modules ask for. *)
Theorem C46_blocks_of_the_matrix : forall E d s a,
  linearize E d s = Done a ->
  (fvMatrix s = None -> forall i j,
     fvHas a i j <-> (i < numTotal)%nat /\
       ((exists e, (e < numElements)%nat /\ primaryOf dofs primaries e i /\ In j (dofs e)) \/
        In j (auxBlocks E i))) /\
  (fvMatrix s <> None -> forall i j, fvHas a i j <-> fvHas s i j).
Proof.
  intros E d s a L.
  destruct (lin_result _ _ _ _ _ _ _ E d s a L) as (_ & _ & _ & _ & m & M & S & _ & _).
  assert (H : forall i j, fvHas a i j <-> startMatrix numElements numTotal dofs primaries E s i j <> None).
  { intros i j. rewrite <- (S i j). unfold fvHas. rewrite M. split.
    - intros (m' & b & X & Y). injection X as <-. congruence.
    - intros X. destruct (m i j) as [b|] eqn:Y; [|congruence]. exists m, b. auto. }
  split; intros N i j; rewrite H; unfold startMatrix.
  - rewrite N. rewrite <- (pattern_iff numElements numTotal dofs primaries E i j).
    destruct (pattern _ _ _ _ E i j); split; congruence.
  - destruct (fvMatrix s) as [m0|] eqn:M0; [|congruence]. unfold fvHas. rewrite M0. split.
    + intros X. destruct (m0 i j) as [b|] eqn:Y; [|congruence]. exists m0, b. auto.
    + intros (m' & b & X & Y). injection X as <-. congruence.
Qed.

(** A constrained degree of freedom has its prescribed value at both times, its equation says
    that it does not change, and every other degree of freedom keeps its value and gets its own
    equation. *)
Theorem C70_constrained_degrees_of_freedom : forall us u v s E d a,
  enableConstraints = true ->
  grid -> fvDomain numElements d -> reaching (fvNew u v) us s -> linearize E d s = Done a ->
  (forall i x, In (i, x) (constraintsMap a) -> solution0 a i = x /\ solution1 a i = x) /\
  (forall i, constrained a i ->
     (forall q, fvResidual a i q = 0) /\
     (forall j q p, j <> i -> fvEntry a i j q p = 0) /\
     (owned dofs primaries (seq 0 numElements) i ->
      forall q p, fvEntry a i i q p = if (q =? p)%nat then 1 else 0)) /\
  (forall i, ~ constrained a i -> solution0 a i = solution0 s i /\ solution1 a i = solution1 s i).
Proof.
  intros us u v s E d a Y G D R L.
  destruct (reached_wellFormed numElements numTotal dofs primaries interior nonLocal enableConstraints us _ _ G R
              (new_wellFormed _ _ _ _ _)) as (W & ND).
  destruct (lin_result _ _ _ _ _ _ _ E d s a L) as (K & U & V & _ & m & M & S & _ & C).
  assert (N : NoDup (map fst (constraintsMap a))) by (rewrite K; now apply mapAfter_nodup).
  unfold solAfter in U, V. rewrite Y in U, V. rewrite <- Y in U, V. rewrite <- K in U, V.
  split; [|split].
  - intros i x I. rewrite U, V. split; apply applyToSolution_in; assumption.
  - intros i Ci. destruct (C Y i) as (A & B & B').
    { rewrite <- K. apply keys. exact Ci. }
    split; [exact A|]. split; [intros j q p Nj; rewrite (entry_val a m M); auto|].
    intros (e & He & P) q p. rewrite (entry_val a m M). apply B'. rewrite (S i i).
    apply in_seq in He. apply (start_covers numElements numTotal dofs primaries E s G W e); [lia|exact P|].
    unfold primaryOf in P. rewrite <- (firstn_skipn (primaries e) (dofs e)). apply in_app_iff. auto.
  - intros i Ni. rewrite U, V. split; apply applyToSolution_other; apply not_keys; exact Ni.
Qed.

(** Which degrees of freedom are constrained is decided in the first iteration of each Newton
    solve: exactly those for which the problem has a constraint, with a value the problem gives;
    in the other iterations the answer stays. *)
Theorem C70_constraints_of_the_first_iteration : forall E d s a,
  enableConstraints = true -> linearize E d s = Done a ->
  (newtonIteration E = 0%nat ->
     (forall i, constrained a i <->
        exists e k, (e < numElements)%nat /\ (k < primaries e)%nat /\
                    constraintOf E e k <> None /\ nth k (dofs e) 0%nat = i) /\
     (forall i x, In (i, x) (constraintsMap a) ->
        exists e k, (e < numElements)%nat /\ (k < primaries e)%nat /\
                    constraintOf E e k = Some x /\ nth k (dofs e) 0%nat = i)) /\
  (newtonIteration E <> 0%nat -> constraintsMap a = constraintsMap s).
Proof.
  intros E d s a Y L. destruct (lin_result _ _ _ _ _ _ _ E d s a L) as (K & _).
  unfold mapAfter in K. rewrite Y in K. split.
  - intros Z. rewrite Z in K. cbn [Nat.eqb] in K. split.
    + intros i. rewrite <- (newConstraints_keys numElements dofs primaries interior E i), <- K. unfold constrained. split; [apply keys|].
      intros I. apply in_map_iff in I. destruct I as ((k, x) & X & I). cbn in X. subst. eauto.
    + intros i x I. rewrite K in I. apply (newConstraints_values numElements dofs primaries interior). exact I.
  - intros Z. apply Nat.eqb_neq in Z. rewrite Z in K. exact K.
Qed.

End Grid.

(** Three cells in a row, each with its neighbours; the second cell can be constrained. *)
Definition cellDofs (e : nat) : list nat :=
  match e with 0%nat => [0; 1]%nat | 1%nat => [1; 0; 2]%nat | _ => [2; 1]%nat end.

Definition rowEnv (iteration : nat) (c : option Q) : fvEnv Q :=
  mkFvEnv (fun u v e => Some (mkLocal (fun k q => u (nth k (cellDofs e) 0%nat) + 1)
                                      (fun l k q p => if (l =? 0)%nat then 2 else -(1))))
          (fun e k => if (e =? 1)%nat then c else None)
          (fun _ => []) (fun _ => zeroV) [] iteration.

Lemma row_is_a_fv_grid numTotal : (3 <= numTotal)%nat -> fvGrid 3 numTotal cellDofs (fun _ => 1%nat).
Proof.
  intros H e i j He P J. destruct e as [|[|[|e]]]; [| | |lia]; cbn in P, J.
  - destruct P as [<-|[]]. split; [lia|]. destruct J as [<-|[<-|[]]]; [exists 0%nat|exists 1%nat]; (split; [lia|]; split; unfold primaryOf; cbn; auto 6).
  - destruct P as [<-|[]]. split; [lia|].
    destruct J as [<-|[<-|[<-|[]]]]; [exists 1%nat|exists 0%nat|exists 2%nat]; (split; [lia|]; split; unfold primaryOf; cbn; auto 6).
  - destruct P as [<-|[]]. split; [lia|]. destruct J as [<-|[<-|[]]]; [exists 2%nat|exists 1%nat]; (split; [lia|]; split; unfold primaryOf; cbn; auto 6).
Qed.

Definition fvSystem (n : nat) (o : fvOutcome Q) : list Q * list (list Q) :=
  match o with
  | Done s => (map (fun i => Qred (fvResidual s i 0%nat)) (seq 0 n),
               map (fun i => map (fun j => Qred (fvEntry s i j 0%nat 0%nat)) (seq 0 n)) (seq 0 n))
  | _ => ([], [])
  end.

Definition rowLin (E : fvEnv Q) (d : option (list nat)) (s : fvLin Q) : fvOutcome Q :=
  fvLinearizeDomain 3 3 cellDofs (fun _ => 1%nat) (fun _ => true) false true E d s.
Definition thenDo (o : fvOutcome Q) (f : fvLin Q -> fvOutcome Q) : fvOutcome Q :=
  match o with Done s => f s | o => o end.

Example row_fv_system :
  fvSystem 3 (rowLin (rowEnv 1 None) None (fvNew (fun _ => 4) (fun _ => 0)))
  = ([5; 5; 5], [[2; -(1); 0]; [-(1); 2; -(1)]; [0; -(1); 2]]) /\
  fvSystem 3 (thenDo (rowLin (rowEnv 1 None) None (fvNew (fun _ => 4) (fun _ => 0)))
                     (fun s => rowLin (rowEnv 1 None) (Some [0; 1]%nat) s))
  = ([5; 5; 5], [[2; -(1); 0]; [-(1); 2; 0]; [0; -(2); 2]]).
Proof. split; vm_compute; reflexivity. Qed.

Example row_constrained :
  fvSystem 3 (rowLin (rowEnv 0 (Some 7)) None (fvNew (fun _ => 4) (fun _ => 0)))
  = ([5; 0; 5], [[2; -(1); 0]; [0; 1; 0]; [0; -(1); 2]]).
Proof. vm_compute. reflexivity. Qed.

(** The rows outside of a domain are not unchanged: the derivatives of their equations with
    respect to the degrees of freedom of the domain are added again each time. *)
Theorem C45_blocks_of_other_elements_refuted :
  exists (n numTotal : nat) dofs primaries interior (E : fvEnv Q) u s els a,
    fvGrid n numTotal dofs primaries /\ fvDomain n (Some els) /\
    fvReaches n numTotal dofs primaries interior false false (fvNew u u) [FvDomain E None] s /\
    fvLinearizeDomain n numTotal dofs primaries interior false false E (Some els) s = Done a /\
    exists i j, ~ owned dofs primaries els i /\ ~ fvEntry a i j 0%nat 0%nat == fvEntry s i j 0%nat 0%nat.
Proof.
  pose (E := rowEnv 1 None). pose (u := fun _ : nat => 4%Q).
  assert (X : fvSystem 3 (fvLinearizeDomain 3 3 cellDofs (fun _ => 1%nat) (fun _ => true) false false E None (fvNew u u))
    = ([5; 5; 5], [[2; -(1); 0]; [-(1); 2; -(1)]; [0; -(1); 2]])) by (vm_compute; reflexivity).
  assert (Y : fvSystem 3 (thenDo (fvLinearizeDomain 3 3 cellDofs (fun _ => 1%nat) (fun _ => true) false false E None (fvNew u u))
       (fvLinearizeDomain 3 3 cellDofs (fun _ => 1%nat) (fun _ => true) false false E (Some [0; 1]%nat)))
    = ([5; 5; 5], [[2; -(1); 0]; [-(1); 2; 0]; [0; -(2); 2]])) by (vm_compute; reflexivity).
  destruct (fvLinearizeDomain 3 3 cellDofs (fun _ => 1%nat) (fun _ => true) false false E None (fvNew u u)) as [s|s|] eqn:L;
    try discriminate X.
  cbn [thenDo] in Y.
  destruct (fvLinearizeDomain 3 3 cellDofs (fun _ => 1%nat) (fun _ => true) false false E (Some [0; 1]%nat) s) as [a|a|] eqn:L';
    try discriminate Y.
  exists 3%nat, 3%nat, cellDofs, (fun _ => 1%nat), (fun _ => true), E, u, s, [0; 1]%nat, a.
  split; [apply row_is_a_fv_grid; lia|]. split; [repeat constructor|]. split; [|split; [exact L'|]].
  - eapply fv_domain; [|left; exact L|apply fv_end]. repeat constructor.
  - exists 2%nat, 1%nat. split.
    + intros (e & [<-|[<-|[]]] & P); cbn in P; intuition discriminate.
    + apply (f_equal (fun z => nth 1 (nth 2 (snd z) []) 0)) in X, Y.
      change (Qred (fvEntry s 2%nat 1%nat 0%nat 0%nat) = -(1)) in X.
      change (Qred (fvEntry a 2%nat 1%nat 0%nat 0%nat) = -(2)) in Y.
      intros Z. apply Qred_complete in Z. rewrite X, Y in Z. discriminate Z.
Qed.

(** Auxiliary equations: their rows are not reset by linearizing the whole domain, and what the
    modules add accumulates; erasing the matrix changes the system.  Two cells and an auxiliary
    degree of freedom with the number 2, whose module adds 1 to its residual. *)
Definition auxEnv : fvEnv Q :=
  mkFvEnv (fun u v e => Some (mkLocal (fun k q => 1) (fun l k q p => 1)))
          (fun _ _ => None) (fun i => if (i =? 2)%nat then [2%nat] else [])
          (fun i q => if (i =? 2)%nat then 1 else 0) [((2%nat, 2%nat), fun _ _ => 1)] 1.
Notation auxLin := (fvLinearize 2 3 (fun e => if (e =? 0)%nat then [0; 1]%nat else [1; 0]%nat) (fun _ => 1%nat) (fun _ => true) false false auxEnv).

Lemma aux_is_a_fv_grid : fvGrid 2 3 (fun e => if (e =? 0)%nat then [0; 1]%nat else [1; 0]%nat) (fun _ => 1%nat).
Proof.
  intros e i j He P J. destruct e as [|[|e]]; [| |lia]; cbn in P, J; destruct P as [<-|[]]; (split; [lia|]).
  - destruct J as [<-|[<-|[]]]; [exists 0%nat|exists 1%nat]; (split; [lia|]; split; unfold primaryOf; cbn; auto 6).
  - destruct J as [<-|[<-|[]]]; [exists 1%nat|exists 0%nat]; (split; [lia|]; split; unfold primaryOf; cbn; auto 6).
Qed.

Example aux_once : fvSystem 3 (auxLin (fvNew (fun _ => 0) (fun _ => 0)))
  = ([1; 1; 1], [[1; 1; 0]; [1; 1; 0]; [0; 0; 1]]).
Proof. vm_compute. reflexivity. Qed.
Example aux_twice : fvSystem 3 (thenDo (auxLin (fvNew (fun _ => 0) (fun _ => 0))) auxLin)
  = ([1; 1; 2], [[1; 1; 0]; [1; 1; 0]; [0; 0; 2]]).
Proof. vm_compute. reflexivity. Qed.
Example aux_erased : fvSystem 3 (thenDo (auxLin (fvNew (fun _ => 0) (fun _ => 0))) (fun s => auxLin (fvErase s)))
  = ([1; 1; 1], [[1; 1; 0]; [1; 1; 0]; [0; 0; 1]]).
Proof. vm_compute. reflexivity. Qed.

Theorem C46_auxiliary_rows_refuted :
  exists (n numTotal : nat) dofs primaries interior (E : fvEnv Q) u s a b i,
    fvGrid n numTotal dofs primaries /\ (i < numTotal)%nat /\
    fvLinearize n numTotal dofs primaries interior false false E (fvNew u u) = Done s /\
    fvLinearize n numTotal dofs primaries interior false false E s = Done a /\
    fvLinearize n numTotal dofs primaries interior false false E (fvErase s) = Done b /\
    ~ fvResidual a i 0%nat == fvResidual b i 0%nat.
Proof.
  pose proof aux_once as X. pose proof aux_twice as Y. pose proof aux_erased as Z. cbv beta in *.
  match type of X with fvSystem _ ?o = _ => destruct o as [s|s|] eqn:L; try discriminate X end.
  cbn [thenDo] in Y, Z.
  match type of Y with fvSystem _ ?o = _ => destruct o as [a|a|] eqn:La; try discriminate Y end.
  match type of Z with fvSystem _ ?o = _ => destruct o as [b|b|] eqn:Lb; try discriminate Z end.
  eexists 2%nat, 3%nat, _, _, _, auxEnv, (fun _ => 0), s, a, b, 2%nat.
  split; [exact aux_is_a_fv_grid|]. split; [lia|]. split; [exact L|]. split; [exact La|]. split; [exact Lb|].
  apply (f_equal (fun z => nth 2 (fst z) 0)) in Y, Z.
  change (Qred (fvResidual a 2%nat 0%nat) = 2) in Y. change (Qred (fvResidual b 2%nat 0%nat) = 1) in Z.
  intros K. apply Qred_complete in K. rewrite Y, Z in K. discriminate K.
Qed.

(** A vertex centered grid of eight triangles with seven vertices: linearizing seven triangles
    which do not touch the last vertex resets its row as well, because the number of triangles
    is compared with the number of degrees of freedom. *)
Definition triangles (e : nat) : list nat :=
  nth e [[0; 1; 3]; [1; 2; 4]; [2; 0; 5]; [1; 4; 3]; [2; 5; 4]; [0; 3; 5]; [3; 4; 5]; [0; 1; 6]]%nat [].
Definition triEnv : fvEnv Q :=
  mkFvEnv (fun u v e => Some (mkLocal (fun k q => 1) (fun l k q p => 1)))
          (fun _ _ => None) (fun _ => []) (fun _ => zeroV) [] 1.
Notation triLin := (fvLinearizeDomain 8 7 triangles (fun _ => 3%nat) (fun _ => true) false false triEnv).

Lemma triangles_are_a_grid : fvGrid 8 7 triangles (fun _ => 3%nat).
Proof.
  intros e i j He P J.
  assert (A : In i (triangles e)).
  { unfold primaryOf in P. rewrite firstn_all2 in P; [exact P|]. do 8 (destruct e as [|e]; [cbn; lia|]). lia. }
  split.
  - clear P J. do 8 (destruct e as [|e]; [cbn in A; lia|]). lia.
  - exists e. split; [exact He|]. split; [|exact A]. unfold primaryOf.
    rewrite firstn_all2; [exact J|]. do 8 (destruct e as [|e]; [cbn; lia|]). lia.
Qed.

Example tri_all : fst (fvSystem 7 (triLin None (fvNew (fun _ => 0) (fun _ => 0)))) = [4; 4; 3; 4; 4; 4; 1].
Proof. vm_compute. reflexivity. Qed.
Example tri_seven : fst (fvSystem 7 (thenDo (triLin None (fvNew (fun _ => 0) (fun _ => 0))) (triLin (Some (seq 0 7)))))
  = [3; 3; 3; 4; 4; 4; 0].
Proof. vm_compute. reflexivity. Qed.

Theorem C45_rows_of_other_elements_are_reset_refuted :
  exists (n numTotal : nat) dofs primaries interior (E : fvEnv Q) u s els a i,
    fvGrid n numTotal dofs primaries /\ fvDomain n (Some els) /\ (i < numTotal)%nat /\ ~ owned dofs primaries els i /\
    fvReaches n numTotal dofs primaries interior false false (fvNew u u) [FvDomain E None] s /\
    fvLinearizeDomain n numTotal dofs primaries interior false false E (Some els) s = Done a /\
    ~ fvResidual a i 0%nat == fvResidual s i 0%nat.
Proof.
  pose proof tri_all as X. pose proof tri_seven as Y.
  match type of X with fst (fvSystem _ ?o) = _ => destruct o as [s|s|] eqn:L; try discriminate X end.
  cbn [thenDo] in Y.
  match type of Y with fst (fvSystem _ ?o) = _ => destruct o as [a|a|] eqn:La; try discriminate Y end.
  eexists 8%nat, 7%nat, triangles, _, _, triEnv, (fun _ => 0), s, (seq 0 7), a, 6%nat.
  split; [exact triangles_are_a_grid|]. split; [repeat constructor|]. split; [lia|]. split.
  - intros (e & I & P). apply in_seq in I. do 7 (destruct e as [|e]; [cbn in P; intuition discriminate|]). lia.
  - split; [eapply fv_domain; [|left; exact L|apply fv_end]; repeat constructor|]. split; [exact La|].
    apply (f_equal (fun z => nth 6 z 0)) in X, Y.
    change (Qred (fvResidual s 6%nat 0%nat) = 1) in X. change (Qred (fvResidual a 6%nat 0%nat) = 0) in Y.
    intros K. apply Qred_complete in K. rewrite X, Y in K. discriminate K.
Qed.

Print Assumptions C45_equations_of_the_elements.
Print Assumptions C45_same_equations_as_the_whole_system.
Print Assumptions C45_equations_of_other_elements_exactly.
Print Assumptions C46_every_linearization_works.
Print Assumptions C46_erasing_gives_the_same_system.
Print Assumptions C46_blocks_of_the_matrix.
Print Assumptions C70_constrained_degrees_of_freedom.
Print Assumptions C70_constraints_of_the_first_iteration.
Print Assumptions C45_blocks_of_other_elements_refuted.
Print Assumptions C46_auxiliary_rows_refuted.
Print Assumptions C45_rows_of_other_elements_are_reset_refuted.
