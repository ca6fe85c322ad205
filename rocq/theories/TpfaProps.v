(** Properties of the linearizer of the two-point flux method: linearizing some of the cells
    (C45), erasing the matrix (C46), threads (C44), and the matrix as the derivative of the
    residual (C69).  Throughout, the grid is one whose cells are numbered in the order of its
    iterator, and there are no degrees of freedom of auxiliary modules, unless said
    otherwise. *)
From Coq Require Import List Bool Arith ZArith QArith Qabs Lia Lqa.
Import ListNotations.
From Verif Require Import StencilModel StencilSpec TpfaModel TpfaSpec TpfaProofs.
Open Scope Q_scope.

Lemma domain_ok n d : validDomain n d -> domainOk n d.
Proof. destruct d; cbn; auto. Qed.

Lemma uses_ok n us : validUses n us -> usesOk n us.
Proof.
  intros H. apply Forall_forall. intros [E d|] I; [|exact Logic.I]. apply domain_ok. eapply H; eauto.
Qed.

Lemma new_fresh : fresh newLin.
Proof. repeat split. Qed.

Section Grid.
Variables (intersections : nat -> list intersection) (mapper : nat -> nat) (n : nat)
          (auxNeighbors : nat -> list nat) (conditions : bool).
Let linearize := linearizeDomain intersections mapper n 0 auxNeighbors conditions.
Let reaching := reaches intersections mapper n 0 auxNeighbors conditions.
Let nbs := neighboursIn intersections.
Let bdy := boundaryIn intersections n conditions.

(** After any history of linearizations of all or of some cells, the next linearization gives
    every cell it was asked for its balance equation, and the rows of these cells hold the
    derivatives which belong to them. *)
Theorem C45_system_of_the_cells : forall us s E d a,
  tpfaGrid intersections mapper n -> validUses n us -> validDomain n d ->
  reaching newLin us (Ok s) -> linearize E d s = Ok a ->
  (forall i e, In i (cellsOf n d) ->
     residual a i e
     == balance E nbs bdy (startAmounts E (length (cellsOf n d) =? n)%nat (cached1 s)) i e) /\
  (forall i e p, In i (cellsOf n d) ->
     entryOf a i i e p == ownBlock E nbs i e p + extraBlock E bdy i e p) /\
  (forall i j e p, In i (cellsOf n d) -> In j (cellsOf n d) -> i <> j ->
     entryOf a i j e p == otherBlock E nbs i j e p) /\
  (forall i j e p, In i (cellsOf n d) -> ~ In j (cellsOf n d) -> entryOf a i j e p == 0).
Proof.
  intros us s E d a G U D R L.
  assert (S : fresh s \/ created intersections n auxNeighbors conditions s)
    by (eapply reached; eauto using uses_ok, new_fresh).
  destruct (linearize_result intersections mapper n auxNeighbors conditions G E d s a S (domain_ok n d D) L)
    as (_ & _ & A & B & C & _).
  split; [exact A|]. split; [exact B|]. split.
  - intros i j e p I J N. rewrite C by assumption. apply in_existsb in J.
    unfold cellsOf in J. unfold chosen. rewrite J. reflexivity.
  - intros i j e p I J. assert (N : i <> j) by (intros ->; contradiction). rewrite C by assumption.
    apply notin_existsb in J. unfold cellsOf in J. unfold chosen. rewrite J. reflexivity.
Qed.

(** The same system as that of all cells, for the rows and for the columns of the cells.  The
    amounts at the beginning of the time step must be the same: they differ only if the first
    iteration of a time step recycles the storage terms and the cache does not hold them yet. *)
Theorem C45_same_as_the_whole_system : forall us s E cells a b,
  tpfaGrid intersections mapper n -> validUses n us -> validDomain n (Some cells) ->
  reaching newLin us (Ok s) -> linearize E (Some cells) s = Ok a -> linearize E None s = Ok b ->
  (forall i e, In i cells -> storageCache E = true -> iteration E = 0%nat -> recycle E = true ->
     cached1 s i e == val (storage E i) e) ->
  (forall i e, In i cells -> residual a i e == residual b i e) /\
  (forall i j e p, In i cells -> In j cells -> entryOf a i j e p == entryOf b i j e p).
Proof.
  intros us s E cells a b G U D R La Lb St.
  assert (DN : validDomain n None).
  { split; cbn; [apply seq_NoDup|]. apply Forall_forall. intros i I. apply in_seq in I. lia. }
  destruct (C45_system_of_the_cells us s E _ a G U D R La) as (A1 & A2 & A3 & _).
  destruct (C45_system_of_the_cells us s E _ b G U DN R Lb) as (B1 & B2 & B3 & _).
  assert (IN : forall i, In i cells -> In i (cellsOf n None)).
  { intros i I. destruct D as (_ & F). rewrite Forall_forall in F. apply in_seq. specialize (F i I). lia. }
  split.
  - intros i e I. rewrite A1, B1 by auto. cbn [cellsOf]. rewrite seq_length, Nat.eqb_refl.
    assert (X : startAmounts E (length cells =? n)%nat (cached1 s) i e == startAmounts E true (cached1 s) i e).
    { specialize (St i e I). unfold startAmounts. destruct (storageCache E); cbn [negb]; [|reflexivity].
      destruct (iteration E) as [|k]; cbn [Nat.ltb Nat.leb]; [|reflexivity].
      destruct (recycle E); cbn [negb]; [|reflexivity].
      destruct (length cells =? n)%nat; [reflexivity|]. apply St; reflexivity. }
    unfold balance. rewrite X. reflexivity.
  - intros i j e p I J. destruct (Nat.eq_dec i j) as [->|N].
    + rewrite A2, B2 by auto. reflexivity.
    + rewrite A3, B3 by auto. reflexivity.
Qed.

(** Which amounts are those of the beginning of the time step: the first linearization of a time step, one of all cells,
    decides; all later ones of the step, of all cells or of some, use the same, whatever was stored before. *)
Theorem C45_amounts_of_the_time_step : forall us s E0 s0 later s1 E d a,
  tpfaGrid intersections mapper n -> validUses n us -> validUses n later -> validDomain n d ->
  reaching newLin us (Ok s) -> linearize E0 None s = Ok s0 -> iteration E0 = 0%nat -> storageCache E0 = true ->
  (forall E d, In (Linearize E d) later -> (0 < iteration E)%nat) ->
  reaching s0 later (Ok s1) -> (0 < iteration E)%nat -> storageCache E = true -> linearize E d s1 = Ok a ->
  forall i e, In i (cellsOf n d) ->
    residual a i e == balance E nbs bdy (fun i => if recycle E0 then val (storage E0 i) else storageOld E0 i) i e.
Proof.
  intros us s E0 s0 later s1 E d a G U UL D R L0 I0 C0 Later R1 IE CE LA i e I.
  assert (DN : validDomain n None).
  { split; cbn; [apply seq_NoDup|]. apply Forall_forall. intros k K. apply in_seq in K. lia. }
  assert (S : fresh s \/ created intersections n auxNeighbors conditions s)
    by exact (reached intersections mapper n auxNeighbors conditions G us newLin (Ok s) (uses_ok n us U) (or_introl new_fresh) R s eq_refl).
  destruct (linearize_result intersections mapper n auxNeighbors conditions G E0 None s s0 S (domain_ok n None DN) L0) as (Cr & _).
  assert (Li : (i < n)%nat) by (destruct D as (_ & F); rewrite Forall_forall in F; auto).
  assert (B : cached1 s0 i = if recycle E0 then val (storage E0 i) else storageOld E0 i).
  { destruct (linearize_caches intersections mapper n auxNeighbors conditions G E0 None s s0 S (domain_ok n None DN) L0 i) as (B & _).
    rewrite B. unfold chosen. rewrite (proj1 (in_existsb i (seq 0 n))) by (apply in_seq; lia).
    rewrite C0, seq_length, Nat.eqb_refl. cbn [andb]. unfold startAmounts. rewrite C0, I0. cbn. now destruct (recycle E0). }
  assert (K : forall us s0 s1, validUses n us -> (forall E d, In (Linearize E d) us -> (0 < iteration E)%nat) ->
    fresh s0 \/ created intersections n auxNeighbors conditions s0 -> reaching s0 us (Ok s1) -> cached1 s1 i = cached1 s0 i).
  { clear - G i. intros us. induction us as [|u us IH]; intros s0 s1 U La S R.
    - inversion R; subst. reflexivity.
    - inversion R; subst.
      + rewrite (IH (eraseMatrix s0) s1); auto; [intros E d I; apply (U E); now right|intros E d I; apply (La E d); now right|].
        destruct S as [(A & B & C)|(A & B & C & D)]; [left; repeat split; auto|right; do 3 (split; [assumption|]); cbn; congruence].
      + assert (DD : domainOk n d) by (apply domain_ok; apply (U E); now left).
        match goal with L : linearizeDomain _ _ _ _ _ _ _ _ _ = Ok _ |- _ =>
          destruct (linearize_result intersections mapper n auxNeighbors conditions G E d s0 s' S DD L) as (C & _);
          destruct (linearize_caches intersections mapper n auxNeighbors conditions G E d s0 s' S DD L i) as (B & _) end.
        rewrite (IH s' s1); auto; [|intros E' d' I; apply (U E'); now right|intros E' d' I; apply (La E' d'); now right].
        rewrite B. assert (IE := La E d (or_introl eq_refl)).
        destruct (storageCache E && _)%bool eqn:X; [|reflexivity]. unfold startAmounts. apply andb_prop in X. destruct X as [-> _].
        cbn [negb]. apply Nat.ltb_lt in IE. rewrite IE. reflexivity.
      + congruence. }
  assert (S1 : fresh s1 \/ created intersections n auxNeighbors conditions s1)
    by exact (reached intersections mapper n auxNeighbors conditions G later s0 (Ok s1) (uses_ok n later UL) (or_intror Cr) R1 s1 eq_refl).
  destruct (linearize_result intersections mapper n auxNeighbors conditions G E d s1 a S1 (domain_ok n d D) LA) as (_ & _ & A & _).
  rewrite (A i e I). unfold balance, startAmounts. rewrite CE. apply Nat.ltb_lt in IE. rewrite IE. cbn [negb].
  rewrite (K later s0 s1 UL Later (or_intror Cr) R1), B. reflexivity.
Qed.

(** What happens to the other rows: terms of wells and of the boundary and derivatives of the
    fluxes are added to what is there. *)
Theorem C45_other_rows_exactly : forall us s E cells a,
  tpfaGrid intersections mapper n -> validUses n us -> validDomain n (Some cells) ->
  reaching newLin us (Ok s) -> jacobian s <> None -> linearize E (Some cells) s = Ok a ->
  (forall i e, (i < n)%nat -> ~ In i cells -> residual a i e == residual s i e + extraResidual E bdy i e) /\
  (forall i e p, (i < n)%nat -> ~ In i cells -> entryOf a i i e p == entryOf s i i e p + extraBlock E bdy i e p) /\
  (forall i j e p, (i < n)%nat -> ~ In i cells -> In j cells ->
     entryOf a i j e p == entryOf s i j e p + otherBlock E nbs i j e p) /\
  (forall i j e p, (i < n)%nat -> ~ In i cells -> ~ In j cells -> i <> j ->
     entryOf a i j e p == entryOf s i j e p).
Proof.
  intros us s E cells a G U D R J L.
  assert (S : fresh s \/ created intersections n auxNeighbors conditions s)
    by (eapply reached; eauto using uses_ok, new_fresh).
  destruct (linearize_result intersections mapper n auxNeighbors conditions G E (Some cells) s a S
              (domain_ok n (Some cells) D) L) as (_ & _ & _ & _ & _ & A & B & C).
  split; [exact (A J)|]. split; [exact (B J)|]. split.
  - intros i j e p Hi N I. rewrite (C J) by (auto; intros ->; contradiction). apply in_existsb in I.
    unfold chosen. rewrite I. reflexivity.
  - intros i j e p Hi N I M. rewrite (C J) by auto. apply notin_existsb in I.
    unfold chosen. rewrite I. lra.
Qed.

(** As long as the matrix is not erased, every linearization succeeds. *)
Theorem C45_linearization_succeeds : forall us s E d,
  tpfaGrid intersections mapper n -> validUses n us -> validDomain n d -> ~ In Erase us ->
  reaching newLin us (Ok s) ->
  (recycle E || intQuantsCache E || storageCache E)%bool = true ->
  exists a, linearize E d s = Ok a.
Proof.
  intros us s E d G U D NE R F.
  assert (X : forall us s0, ~ In Erase us -> validUses n us ->
             fresh s0 \/ (created intersections n auxNeighbors conditions s0 /\ jacobian s0 <> None) ->
             reaching s0 us (Ok s) ->
             fresh s \/ (created intersections n auxNeighbors conditions s /\ jacobian s <> None)).
  { clear us NE U R. induction us as [|u us IH]; intros s0 NE U S R.
    - inversion R; subst. assumption.
    - inversion R; subst.
      + exfalso. apply NE. now left.
      + apply (IH s'); [intros I; apply NE; now right|intros E' d' I; apply (U E'); now right| |assumption].
        right. destruct (linearize_result intersections mapper n auxNeighbors conditions G E0 d0 s0 s') as (C & J & _); auto.
        * tauto.
        * apply domain_ok. apply (U E0). now left.
      + congruence. }
  apply linearize_ok; auto using domain_ok.
  apply (X us newLin); auto using new_fresh.
Qed.

(** The loop over the cells may be executed by threads in any interleaving: every entry of
    the residual and of the matrix is written by one cell only, so all values are the same. *)
Theorem C44_cells_can_be_linearized_in_any_interleaving : forall E onFull cells s l,
  NoDup cells -> interleaves (cellStmts E onFull s) cells l ->
  let a := fold_left exec (map snd l) s in
  let b := fold_left (cellBody E onFull) cells s in
  (forall i e, residual a i e = residual b i e) /\
  (forall i j e p, entryOf a i j e p = entryOf b i j e p) /\
  (forall i, cached0 a i = cached0 b i /\ cached1 a i = cached1 b i).
Proof.
  intros E onFull cells s l D I a b.
  destruct (interleaving E onFull cells s l D I) as (A & _ & B & C & _). auto.
Qed.

(** The matrix is the derivative of the residual: moving one variable of one cell changes the
    residual of every cell, to first order, by the entry of the matrix.  [run h] is the
    linearizer after the linearization with the variable moved by h. *)
Theorem C69_matrix_is_the_derivative_of_the_residual : forall us s P c e p run,
  tpfaGrid intersections mapper n -> validUses n us -> reaching newLin us (Ok s) ->
  (c < n)%nat -> variation nbs bdy P c e p ->
  (forall h i, startAmounts (P h) true (cached1 s) i e == startAmounts (P 0) true (cached1 s) i e) ->
  (forall h, linearize (P h) None s = Ok (run h)) ->
  forall i, (i < n)%nat -> derivative (fun h => residual (run h) i e) (entryOf (run 0) i c e p).
Proof.
  intros us s P c e p run G U R Hc V St L i Hi.
  assert (DN : validDomain n None).
  { split; cbn; [apply seq_NoDup|]. apply Forall_forall. intros k I. apply in_seq in I. lia. }
  assert (IN : forall k, (k < n)%nat -> In k (cellsOf n None)) by (intros; apply in_seq; lia).
  pose proof (fun h => C45_system_of_the_cells us s (P h) None (run h) G U DN R (L h)) as A.
  assert (B : forall h, residual (run h) i e == balance (P h) nbs bdy (startAmounts (P h) true (cached1 s)) i e).
  { intros h. destruct (A h) as (X & _). rewrite X by auto. cbn [cellsOf]. rewrite seq_length, Nat.eqb_refl. reflexivity. }
  destruct (A 0) as (_ & A2 & A3 & _).
  destruct (Nat.eq_dec i c) as [->|N].
  - eapply derivative_ext; [intros h; symmetry; apply B|symmetry; apply A2; auto|].
    apply (balance_derivative nbs bdy P (fun h => startAmounts (P h) true (cached1 s))); assumption.
  - eapply derivative_ext; [intros h; symmetry; apply B|symmetry; apply A3; auto|].
    apply (balance_derivative_far nbs bdy P (fun h => startAmounts (P h) true (cached1 s))); assumption.
Qed.

(** Once a linearization was done, erasing the matrix makes every later linearization
    dereference a null pointer: the matrix is not created again. *)
Theorem C46_matrix_is_created_again_refuted : forall us s E d,
  tpfaGrid intersections mapper n -> validUses n us -> reaching newLin us (Ok s) ->
  jacobian s <> None -> linearize E d (eraseMatrix s) = NoMatrix.
Proof.
  intros us s E d G U R J.
  assert (S : fresh s \/ created intersections n auxNeighbors conditions s)
    by (eapply reached; eauto using uses_ok, new_fresh).
  destruct S as [(_ & _ & F)|C]; [congruence|].
  unfold linearize, linearizeDomain. cbn [eraseMatrix withJacobian jacobian].
  rewrite init_erased; auto. destruct C as (C1 & C2 & C3 & C4).
  do 3 (split; [assumption|]). cbn. congruence.
Qed.

(** Erasing the matrix of a linearizer which was not used yet has no effect. *)
Theorem C46_erasing_first_partial : forall k,
  reaching newLin (repeat Erase k) (Ok newLin).
Proof. induction k; cbn [repeat]; [constructor|]. constructor. exact IHk. Qed.

End Grid.
Print Assumptions C45_system_of_the_cells.
Print Assumptions C45_same_as_the_whole_system.
Print Assumptions C45_amounts_of_the_time_step.
Print Assumptions C45_other_rows_exactly.
Print Assumptions C45_linearization_succeeds.
Print Assumptions C44_cells_can_be_linearized_in_any_interleaving.
Print Assumptions C69_matrix_is_the_derivative_of_the_residual.
Print Assumptions C46_matrix_is_created_again_refuted.
Print Assumptions C46_erasing_first_partial.

(** With degrees of freedom of auxiliary modules, the first linearization already reads a row
    of the neighbour table which does not exist. *)
Theorem C45_auxiliary_degrees_of_freedom_refuted :
  forall intersections mapper n aux auxNeighbors conditions E d,
  (0 < n)%nat -> (0 < aux)%nat ->
  linearizeDomain intersections mapper n aux auxNeighbors conditions E d newLin = BehindTable.
Proof.
  intros inters mapper n aux auxN cond E d Hn Ha.
  unfold linearizeDomain. cbn [newLin jacobian]. unfold initFirstIteration, createMatrix.
  cbn [newLin neighborInfo].
  set (rows := map (fun e => tl (dofsOf inters mapper e)) (seq 0 n)).
  assert (X : existsb (fun c : option bool => match c with None => true | _ => false end)
                (map (addressesOf inters mapper n auxN rows) (seq 0 (numTotalDof n aux))) = true).
  { apply existsb_exists. exists None. split; [|reflexivity]. apply in_map_iff. exists n. split.
    - unfold addressesOf. assert (Y : nth_error rows n = None).
      { apply nth_error_None. subst rows. rewrite map_length, seq_length. lia. }
      rewrite Y. reflexivity.
    - apply in_seq. unfold numTotalDof. lia. }
  rewrite X. reflexivity.
Qed.

Print Assumptions C45_auxiliary_degrees_of_freedom_refuted.

(* ----- examples ----- *)

(** Three cells in a row; the last one has a boundary face. *)
Definition rowGrid (c : nat) : list intersection :=
  match c with
  | 0%nat => [mkIntersection (Some 1%nat) 1 1]
  | 1%nat => [mkIntersection (Some 0%nat) 1 0; mkIntersection (Some 2%nat) 1 1]
  | 2%nat => [mkIntersection (Some 1%nat) 1 0; mkIntersection None 1 1]
  | _ => []
  end.

Example row_is_a_grid : tpfaGrid rowGrid (fun c => c) 3.
Proof.
  split; [lia|]. split; [auto|]. intros c d H I.
  destruct c as [|[|[|c]]]; [| | |lia]; cbn in I.
  - destruct I as [<-|[]]. cbn. auto with arith.
  - destruct I as [<-|[<-|[]]]; cbn; auto with arith.
  - destruct I as [<-|[]]. cbn. auto 10 with arith.
Qed.

(** One equation: u is the pressure of the cell with number c, linear fluxes, a well in the
    cell 1 and a boundary condition. *)
Definition pressure (h : Q) (c : nat) : Q := if (c =? 1)%nat then 5 + h else inject_Z (Z.of_nat c).
Definition linearEnv (h : Q) : env :=
  let u := pressure h in
  mkEnv (fun i _ j => mkAd (fun _ => 2 * (u i - u j)) (fun _ _ => 2))
        (fun i => mkAd (fun _ => 3 * u i) (fun _ _ => 3)) (fun _ _ => 1)
        (fun i => mkAd (fun _ => u i) (fun _ _ => 1))
        (fun i _ => Some (mkAd (fun _ => 4 * u i) (fun _ _ => 4)))
        [(1%nat, mkAd (fun _ => 7 * u 1%nat) (fun _ _ => 7))]
        (fun _ => 10) 2 true false true 0%nat true.

Definition systemOf (o : outcome) (rows : list nat) : list Q * list (list Q) :=
  match o with
  | Ok a => (map (fun i => Qred (residual a i 0%nat)) rows,
             map (fun i => map (fun j => Qred (entryOf a i j 0%nat 0%nat)) rows) rows)
  | _ => ([], [])
  end.

Definition linearizeRow := linearizeDomain rowGrid (fun c => c) 3 0 (fun _ => []) true.

(** Non-vacuity of the theorems: the system of all cells, and the one of two cells. *)
Example row_system : systemOf (linearizeRow (linearEnv 0) None newLin) [0; 1; 2]%nat
  = ([-15; 71; 7]%Q, [[7; -2; 0]; [-2; 16; -2]; [0; -2; 11]]%Q).
Proof. vm_compute. reflexivity. Qed.

Example row_variation : variation (neighboursIn rowGrid) (boundaryIn rowGrid 3 true) linearEnv 1 0 0.
Proof.
  assert (Lin : forall (a b : Q) (f : Q -> Q), (forall h, f h == a + b * h) -> derivative f b).
  { intros a b f H eps Pe. exists 1. split; [lra|]. intros h _. rewrite !H.
    setoid_replace (a + b * h - (a + b * 0) - b * h) with 0 by lra. cbn.
    apply Qmult_le_0_compat; [lra|apply Qabs_nonneg]. }
  assert (Far : forall h j, j <> 1%nat -> pressure h j = pressure 0 j).
  { intros h j N. unfold pressure. apply Nat.eqb_neq in N. now rewrite N. }
  constructor.
  - intros k j I. cbn in I. destruct I as [I|[I|[]]]; injection I as <- <-.
    + apply (Lin (2 * (5 - 0))). intros h. cbn -[Qplus Qmult Qminus]. change (inject_Z 0) with 0. lra.
    + apply (Lin (2 * (5 - 2))). intros h. cbn -[Qplus Qmult Qminus]. change (inject_Z 2) with 2. lra.
  - apply (Lin (3 * 5)). intros h. cbn -[Qplus Qmult]. lra.
  - apply (Lin 5). intros h. cbn -[Qplus Qmult]. lra.
  - apply (derivative_ext (fun h => 7 * (5 + h)) _ 7); [intros h; unfold extraResidual; cbn -[Qplus Qmult]; lra|reflexivity|].
    apply (Lin 35). intros h. lra.
  - intros h i k j _ Ni Nj. cbn. rewrite !(Far h) by assumption. reflexivity.
  - intros h i N. cbn. rewrite (Far h) by assumption. reflexivity.
  - intros h i N. cbn. rewrite (Far h) by assumption. reflexivity.
  - intros h i N. unfold extraResidual. cbn -[Nat.eqb]. 
    destruct (Nat.eqb_spec 1 i); [congruence|]. reflexivity.
  - reflexivity.
  - reflexivity.
  - intros h j N. destruct j as [|[|[|j]]]; [|congruence| |].
    + cbn -[Qplus Qmult Qminus]. lra.
    + cbn -[Qplus Qmult Qminus]. lra.
    + cbn. reflexivity.
Qed.

(** Linearizing the first two cells again: their rows are the same as before, with zeros in the
    column of the other cell; in the other row, everything which does not belong to the loop
    over the cells is there twice. *)
Definition andThen (o : outcome) (f : lin -> outcome) : outcome :=
  match o with Ok s => f s | o => o end.

Example row_system_of_two_cells :
  systemOf (andThen (linearizeRow (linearEnv 0) None newLin) (linearizeRow (linearEnv 0) (Some [0; 1]%nat)))
           [0; 1; 2]%nat
  = ([-15; 71; 15]%Q, [[7; -2; 0]; [-2; 16; 0]; [0; -4; 15]]%Q).
Proof. vm_compute. reflexivity. Qed.

(** The other rows do not stay as they are: the claim is false for the program. *)
Theorem C45_other_rows_unchanged_refuted :
  exists s a, linearizeRow (linearEnv 0) None newLin = Ok s /\
    linearizeRow (linearEnv 0) (Some [0; 1]%nat) s = Ok a /\
    ~ residual a 2%nat 0%nat == residual s 2%nat 0%nat /\ ~ entryOf a 2 1 0 0 == entryOf s 2 1 0 0.
Proof.
  pose proof row_system as R1. pose proof row_system_of_two_cells as R2.
  destruct (linearizeRow (linearEnv 0) None newLin) as [s| | | |]; try discriminate R1.
  unfold andThen in R2.
  destruct (linearizeRow (linearEnv 0) (Some [0; 1]%nat) s) as [a| | | |] eqn:A; try discriminate R2.
  exists s, a. split; [reflexivity|]. split; [assumption|]. unfold systemOf in R1, R2. cbn [map] in R1, R2.
  injection R1 as _ _ E1 _ _ _ _ _ _ _ E2 _.
  injection R2 as _ _ F1 _ _ _ _ _ _ _ F2 _.
  split; intros H; apply Qred_complete in H; congruence.
Qed.
Print Assumptions C45_other_rows_unchanged_refuted.

(** An execution of the loops by two threads, one of which is always one statement ahead. *)
Fixpoint alternate {A} (l m : list A) : list A :=
  match l, m with
  | x :: l, y :: m => x :: y :: alternate l m
  | [], m => m
  | l, [] => l
  end.

Lemma alternate_left {A} (f : A -> bool) (l m : list A) : (forall x, In x l -> f x = true) ->
  (forall x, In x m -> f x = false) -> filter f (alternate l m) = l.
Proof.
  revert m. induction l as [|x l IH]; intros m L M.
  - cbn. induction m as [|y m IHm]; [reflexivity|]. cbn. rewrite M by now left. apply IHm.
    intros z I. apply M. now right.
  - assert (Lx : f x = true) by (apply L; now left).
    assert (Ll : forall y, In y l -> f y = true) by (intros; apply L; now right).
    destruct m as [|y m]; cbn [alternate filter]; rewrite Lx.
    + f_equal. clear - Ll. induction l as [|y l IHl]; [reflexivity|]. cbn. rewrite Ll by now left.
      f_equal. apply IHl. intros; apply Ll; now right.
    + rewrite M by now left. f_equal. apply IH; auto. intros z I. apply M. now right.
Qed.

Lemma alternate_right {A} (f : A -> bool) (l m : list A) : (forall x, In x l -> f x = false) ->
  (forall x, In x m -> f x = true) -> filter f (alternate l m) = m.
Proof.
  revert m. induction l as [|x l IH]; intros m L M.
  - cbn. induction m as [|y m IHm]; [reflexivity|]. cbn. rewrite M by now left. f_equal. apply IHm.
    intros z I. apply M. now right.
  - assert (Lx : f x = false) by (apply L; now left).
    assert (Ll : forall y, In y l -> f y = false) by (intros; apply L; now right).
    destruct m as [|y m]; cbn [alternate filter]; rewrite Lx.
    + clear - Ll. induction l as [|y l IHl]; [reflexivity|]. cbn. rewrite Ll by now left.
      apply IHl. intros; apply Ll; now right.
    + rewrite M by now left. f_equal. apply IH; auto. intros z I. apply M. now right.
Qed.

Example two_threads : forall body c d, c <> d ->
  interleaves body [c; d] (alternate (map (pair c) (body c)) (map (pair d) (body d))).
Proof.
  intros body c d N k. cbn [existsb].
  assert (X : forall (a : nat) (l : list stmt) x, In x (map (pair a) l) -> fst x = a).
  { intros a l x I. apply in_map_iff in I. destruct I as (t & <- & _). reflexivity. }
  destruct (Nat.eqb_spec k c) as [->|Nc]; cbn [orb].
  - rewrite alternate_left.
    + rewrite map_map. apply map_id.
    + intros x I. rewrite (X c _ _ I). apply Nat.eqb_refl.
    + intros x I. rewrite (X d _ _ I). apply Nat.eqb_neq. auto.
  - destruct (Nat.eqb_spec k d) as [->|Nd]; cbn [orb].
    + rewrite alternate_right.
      * rewrite map_map. apply map_id.
      * intros x I. rewrite (X c _ _ I). apply Nat.eqb_neq. auto.
      * intros x I. rewrite (X d _ _ I). apply Nat.eqb_refl.
    + transitivity (map snd (@nil (nat * stmt))); [f_equal|reflexivity].
      assert (Y : forall l m : list (nat * stmt), (forall x, In x l -> fst x = c) -> (forall x, In x m -> fst x = d) ->
                  filter (fun x => (fst x =? k)%nat) (alternate l m) = []).
      { induction l as [|x l IH]; intros m L M.
        - cbn. induction m as [|y m IHm]; [reflexivity|]. cbn. rewrite M by now left.
          apply Nat.eqb_neq in Nd. rewrite Nat.eqb_sym, Nd. apply IHm. intros z I. apply M. now right.
        - assert (Lx : (fst x =? k)%nat = false) by (rewrite L by (now left); apply Nat.eqb_neq; auto).
          assert (Ll : forall y, In y l -> fst y = c) by (intros; apply L; now right).
          destruct m as [|y m]; cbn [alternate filter]; rewrite Lx.
          + clear - Ll Nc. induction l as [|y l IHl]; [reflexivity|]. cbn. rewrite Ll by now left.
            apply Nat.eqb_neq in Nc. rewrite Nat.eqb_sym, Nc. apply Nat.eqb_neq in Nc. apply IHl. intros; apply Ll; now right.
          + rewrite M by now left. apply Nat.eqb_neq in Nd. rewrite Nat.eqb_sym, Nd. apply Nat.eqb_neq in Nd.
            apply IH; auto. intros z I. apply M. now right. }
      apply Y; intros x; apply X.
Qed.
