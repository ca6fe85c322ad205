(** * C87: the parallel stabilised BiCG solver does what the sequential one does *)

From Coq Require Import Arith List Bool Lia QArith Qabs.
From Verif Require Import Num MpiModel MpiSpec MpiProofs MpiLemmas MpiExchange ExchangeModel
  GlobalIndexModel GlobalIndexSpec GlobalIndexProofs ForeignModel ForeignSpec ForeignProofs ForeignReach
  DomesticModel DomesticSpec DomesticProofs VectorModel VectorSpec VectorProofs VectorSums
  PipelineModel PipelineSpec PipelineProofs PipelineRun VectorProps
  OvMatrixModel OvMatrixSpec OvMatrixProofs OvMatrixValues OvMatrixSums OvMatrixRun OvMatrixProps
  GatherSpec ParSolverModel ParSolverSpec ParSolverProofs.
From Verif Require FluxSpec ResidualProofs BiCGModel BiCGSpec BiCGProps.
Import ListNotations.
Local Open Scope nat_scope.

(** From the matrix graphs, the border lists, the black lists, the native matrices and the
    native right hand sides v of all processes the linear system is solved in parallel.  Every
    schedule ends, and all processes end in the same way:
    - the preconditioner cannot be set up on one of them and all throw, or
    - the preconditioner of one of them throws and all throw, or
    - they do what the sequential solver does for the sum of the native matrices, the sum of
      the native right hand sides and the preconditioner K: it breaks down and all throw, or it
      returns and all return with its verdict, its number of iterations, and in each native
      vector the entries of its solution.
    K gives each row the value which the lowest process with this row computes from the part
    of the vectors which it knows. *)
Theorem C87_processes_together_do_the_sequential_iteration_partial :
  forall N pt d0 os name, decomposition N pt d0 os name -> 1 <= os ->
  forall pb, blackListsOf N pt name pb ->
  forall maxDistance maxRank, os <= maxDistance -> N <= maxRank ->
  columnsOnce N pt name -> allUsable N pt d0 os name pb ->
  (d0 = 0 -> forall p n c, p < N -> isRow pt p n -> In c (columns (pt p) n) -> isRow pt p c) ->
  forall native, onGraph N pt native ->
  forall n, (forall x, x < n <-> exists p, p < N /\ hasRow pt name p x) ->
  (N = 1 \/ forall p, p < N -> border (pt p) <> []) ->
  forall ready prec, (forall p st m, p < N -> sameForEqual (prec p st m)) ->
  forall eps maxIter c0 v,
  exists r row m K,
    ends N (fun p => buildAndSolve p N (pt p) (pb p) maxDistance maxRank (native p) (ready p) (prec p) eps maxIter c0 (v p)) r
    /\ (forall p, p < N -> rowsOf N pt d0 os name p (ovDomestic (so_overlap (r p))) (row p)
          /\ so_values (r p) = Some (m p)
          /\ (forall i j, In j (nth i (mxColumns (so_structure (r p))) []) ->
                (m p i j == globalEntry N pt name native (row p i) (row p j))%Q)
          /\ forall i k Y D z, i < domSize (ovDomestic (so_overlap (r p))) ->
               hasRow pt name p (row p i) -> (forall q, q < p -> ~ hasRow pt name q (row p i)) ->
               prec p (so_structure (r p)) (m p) k
                 (restriction (row p) (domSize (ovDomestic (so_overlap (r p)))) Y)
                 (restriction (row p) (domSize (ovDomestic (so_overlap (r p)))) D) = Some z ->
               K k Y D (row p i) = z i)
    /\ ((exists p, p < N /\ ready p (so_structure (r p)) (m p) = false)
          /\ (forall p, p < N -> so_outcome (r p) = PNotReady)
        \/ (forall p, p < N -> ready p (so_structure (r p)) (m p) = true)
          /\ ((exists p k y d, p < N /\ prec p (so_structure (r p)) (m p) k y d = None)
                /\ (forall p, p < N -> so_outcome (r p) = PFailed)
              \/ match BiCGModel.apply _ (BiCGModel.combinedCriterion n) (globalProduct N pt name native) (globalDot n) K
                         (rowSum N pt name v) eps maxIter c0 with
                 | BiCGModel.Returned ok x _ it => forall p, p < N -> exists w c,
                     so_outcome (r p) = PReturned ok w c it /\ length w = numNative (pt p)
                     /\ forall i, isRow pt p i -> (nth i w 0 == x (name p i))%Q
                 | BiCGModel.Breakdown => forall p, p < N -> so_outcome (r p) = PBreakdown
                 end)).
Proof.
  intros N pt d0 os name DE OS pb PB maxDistance maxRank HD HR ONCE ALL OWN native GR n NR BORDER ready prec SAME eps maxIter c0 v.
  destruct (Nat.eq_dec N 0) as [E0|HN].
  { exists (fun p => mkSolved (PipelineRun.object pt d0 os pb maxDistance maxRank p) (mkStructure true [] (fun _ => noBuffers) (fun _ => noBuffers)) None PUndefined),
      (fun _ _ => 0), (fun _ _ _ => 0%Q), (fun _ _ _ _ => 0%Q). subst N. split.
    - apply ends_intro. apply ar_nil.
    - split; [intros; lia|]. right. split; [intros; lia|]. right. match goal with |- match ?A with _ => _ end => destruct A end; intros; lia. }
  destruct (whole_system N pt d0 os name DE maxDistance maxRank HD HR) as (ddof & SY).
  destruct (solved_run N pt d0 os name DE pb PB maxDistance maxRank HD HR ddof SY native GR ONCE ALL OS OWN n NR BORDER
     ready prec SAME eps maxIter c0 v ltac:(lia)) as (m & out & MV & R & C).
  eexists. exists ddof, m. eexists. split; [apply ends_intro; unfold done; rewrite !start_cfg; exact R|]. cbv beta.
  cbn [so_overlap so_structure so_values so_outcome ovDomestic PipelineRun.object].
  split.
  - intros p Hp. pose proof (rows_of N pt d0 os name DE maxDistance maxRank HD HR ddof SY p Hp) as RO.
    split; [exact RO|]. split; [reflexivity|]. split.
    + intros i j Hij.
      destruct (structure_rows N pt d0 os name DE pb PB maxDistance maxRank HD HR ddof SY native GR ONCE p Hp) as (S1 & S2 & S3).
      apply S3 in Hij. destruct Hij as (Hi & Hj & _). rewrite (MV p Hp i j Hi Hj).
      eapply (entry_global N pt d0 os name); eauto.
    + intros i k Y D z Hi Hrow Hlow E. destruct Hrow as (l & Hl & El).
      destruct (proj1 (row_local pt p l) Hl) as (j & Ej).
      destruct (ro_local _ _ _ _ _ _ _ _ RO l j Ej) as [Hj Er].
      assert (i = j) by (apply (ro_inj _ _ _ _ _ _ _ _ RO); congruence). subst j.
      pose proof (toLocal_lt _ _ _ Ej) as Hlt.
      destruct (local_dof N pt d0 os name maxDistance maxRank HD HR ddof SY OS OWN p i Hp Hlt) as [_ Ed]. rewrite Ed.
      apply (global_prec N pt d0 os name DE maxDistance maxRank HD HR ddof OS OWN (precs pt d0 os pb maxDistance maxRank prec m)); auto.
      rewrite <- Ed. split.
      * apply (has_row pt d0 os name). exists l. auto.
      * intros q Hq K. apply (Hlow q Hq). apply (has_row pt d0 os name). exact K.
  - destruct C as [[C1 C2]|[C1 [[C2 C3]|C2]]].
    + left. split; [exact C1|]. intros p Hp. rewrite (C2 p Hp). reflexivity.
    + right. split; [exact C1|]. left. split; [exact C2|]. intros p Hp. rewrite (C3 p Hp). reflexivity.
    + right. split; [exact C1|]. right. 
      match goal with |- match ?A with _ => _ end => destruct A as [ok x c it|] eqn:EA end.
      * intros p Hp. pose proof (C2 p Hp) as O. unfold theK in O. rewrite EA in O. destruct O as (w & c' & Eo & [Lw Hw] & _).
        rewrite Eo. cbn [native_]. do 2 eexists. split; [reflexivity|].
        split; [unfold assignTo; rewrite map_length, seq_length; reflexivity|].
        intros i Hi. unfold assignTo.
        rewrite (nth_map_seq (fun n => match nativeToLocal (PipelineProofs.fo pt d0 os p) n with Some l => nth l w 0%Q | None => 0%Q end))
          by (apply Hi).
        destruct (proj1 (row_local pt p i) Hi) as (l & El).
        change (nativeToLocal (PipelineProofs.fo pt d0 os p) i) with (toLocal (pt p) i). rewrite El.
        pose proof (rows_of N pt d0 os name DE maxDistance maxRank HD HR ddof SY p Hp) as RO.
        destruct (ro_local _ _ _ _ _ _ _ _ RO i l El) as [Hl1 Hl2]. rewrite (Hw l Hl1), Hl2. reflexivity.
      * intros p Hp. pose proof (C2 p Hp) as O. unfold theK in O. rewrite EA in O. rewrite O. reflexivity.
Qed.

Lemma product_linear : forall N pt name native, BiCGSpec.linear (globalProduct N pt name native).
Proof.
  intros N pt name native. unfold globalProduct, overRows. split.
  - intros u w S x. apply ResidualProofs.sumOver_ext. intros q _. apply ResidualProofs.sumOver_ext. intros i _.
    destruct (negb (blackListed (pt q) i) && (name q i =? x)); [|reflexivity].
    apply ResidualProofs.sumOver_ext. intros e _. rewrite (S (name q (fst e))). reflexivity.
  - intros u w x. rewrite <- ResidualProofs.sumOver_plus. apply ResidualProofs.sumOver_ext. intros q _.
    rewrite <- ResidualProofs.sumOver_plus. apply ResidualProofs.sumOver_ext. intros i _.
    destruct (negb (blackListed (pt q) i) && (name q i =? x)); [|reflexivity].
    rewrite <- ResidualProofs.sumOver_plus. apply ResidualProofs.sumOver_ext. intros e _. ring.
  - intros a u x. rewrite Qmult_comm, <- ResidualProofs.sumOver_scale. apply ResidualProofs.sumOver_ext. intros q _.
    rewrite <- ResidualProofs.sumOver_scale. apply ResidualProofs.sumOver_ext. intros i _.
    destruct (negb (blackListed (pt q) i) && (name q i =? x)); [|ring].
    rewrite <- ResidualProofs.sumOver_scale. apply ResidualProofs.sumOver_ext. intros e _. ring.
Qed.


(** If the solver reports success then the entries which the processes return are those of a
    global vector whose residual, with respect to the summed matrix and the summed right hand
    side, is small in the sense of the criterion. *)
Theorem C87_reported_success_bounds_the_global_residual_partial :
  forall N pt d0 os name, decomposition N pt d0 os name -> 1 <= os ->
  forall pb, blackListsOf N pt name pb ->
  forall maxDistance maxRank, os <= maxDistance -> N <= maxRank ->
  columnsOnce N pt name -> allUsable N pt d0 os name pb ->
  (d0 = 0 -> forall p n c, p < N -> isRow pt p n -> In c (columns (pt p) n) -> isRow pt p c) ->
  forall native, onGraph N pt native ->
  forall n, (forall x, x < n <-> exists p, p < N /\ hasRow pt name p x) ->
  (N = 1 \/ forall p, p < N -> border (pt p) <> []) ->
  forall ready prec, (forall p st m, p < N -> sameForEqual (prec p st m)) ->
  forall eps maxIter c0 rt at_ v,
  BiCGModel.cc_reduction c0 = Fin rt -> BiCGModel.cc_abs c0 = Fin at_ -> (0 <= rt)%Q -> (0 <= at_)%Q ->
  exists r,
    ends N (fun p => buildAndSolve p N (pt p) (pb p) maxDistance maxRank (native p) (ready p) (prec p) eps maxIter c0 (v p)) r
    /\ forall p w c it, p < N -> so_outcome (r p) = PReturned true w c it ->
       exists x, (forall q, q < N -> exists w' c', so_outcome (r q) = PReturned true w' c' it
                    /\ forall i, isRow pt q i -> (nth i w' 0 == x (name q i))%Q)
         /\ let residual := fun i => Qabs (rowSum N pt name v i - globalProduct N pt name native x i) in
            (forall i, i < n -> (residual i <= at_)%Q)
            \/ (forall i, i < n -> (residual i <= rt * (1 # 10 ^ 20))%Q)
            \/ exists j, j < n /\ forall i, i < n -> (residual i <= rt * Qabs (rowSum N pt name v j))%Q.
Proof.
  intros N pt d0 os name DE OS pb PB maxDistance maxRank HD HR ONCE ALL OWN native GR n NR BORDER ready prec SAME eps maxIter c0 rt at_ v
    Er Ea R0 A0.
  destruct (C87_processes_together_do_the_sequential_iteration_partial N pt d0 os name DE OS pb PB maxDistance maxRank HD HR ONCE ALL OWN native GR
    n NR BORDER ready prec SAME eps maxIter c0 v) as (r & row & m & K & E & _ & C).
  exists r. split; [exact E|]. intros p w c it Hp Ho.
  destruct C as [[_ C]|[_ [[_ C]|C]]]; [rewrite (C p Hp) in Ho; discriminate|rewrite (C p Hp) in Ho; discriminate|].
  match type of C with match ?A with _ => _ end => destruct A as [ok x c' it'|] eqn:EA end;
    [|rewrite (C p Hp) in Ho; discriminate].
  destruct (C p Hp) as (w1 & c1 & Eo & _). rewrite Eo in Ho. injection Ho as -> _ _ ->.
  exists x. split.
  - intros q Hq. destruct (C q Hq) as (w2 & c2 & H1 & _ & H2). exists w2, c2. auto.
  - exact (BiCGProps.C38_combined_bound n _ _ K _ eps maxIter c0 rt at_ x c' it (product_linear N pt name native) Er Ea R0 A0 EA).
Qed.

(* ----- executions of concrete systems ----- *)

(** A schedule: a collective operation if possible, else the first process which can go on. *)
Definition oneStep {M R} (s : state M R) : option (state M R) :=
  match step s None with
  | Some t => Some t
  | None => fold_left (fun a p => match a with Some t => Some t | None => step s (Some p) end) (seq 0 (size s)) None
  end.

Fixpoint drive {M R} (k : nat) (s : state M R) : state M R :=
  match k with
  | 0 => s
  | S k => match oneStep s with Some t => drive k t | None => s end
  end.

Lemma oneStep_step : forall M R (s t : state M R), oneStep s = Some t -> exists l, step s l = Some t.
Proof.
  intros M R s t. unfold oneStep. destruct (step s None) as [u|] eqn:E; [intros H; injection H as <-; eauto|].
  assert (G : forall l a, (forall u, a = Some u -> exists l, step s l = Some u) ->
    fold_left (fun a p => match a with Some t => Some t | None => step s (Some p) end) l a = Some t -> exists l, step s l = Some t).
  { induction l as [|p l IH]; cbn [fold_left]; intros a Ha H; [exact (Ha t H)|]. apply (IH _) in H; [exact H|].
    destruct a as [u|]; [exact Ha|]. intros u Hu. eauto. }
  apply G. discriminate.
Qed.

Lemma drive_run : forall M R k (s : state M R), exists ls, run s ls (drive k s).
Proof.
  induction k as [|k IH]; intros s; cbn [drive]; [exists []; constructor|].
  destruct (oneStep s) as [t|] eqn:E; [|exists []; constructor].
  destruct (oneStep_step _ _ _ _ E) as (l & Hl). destruct (IH t) as (ls & H). exists (l :: ls). econstructor; eauto.
Qed.

Lemma oneStep_none : forall M R (s : state M R), oneStep s = None -> forall l, step s l = None.
Proof.
  intros M R s. unfold oneStep. destruct (step s None) as [u|] eqn:E; [discriminate|]. intros H [p|]; [|exact E].
  destruct (Nat.lt_ge_cases p (size s)) as [Hp|Hp].
  - assert (G : forall l a, fold_left (fun a p => match a with Some t => Some t | None => step s (Some p) end) l a = None ->
      a = None /\ forall p, In p l -> step s (Some p) = None).
    { induction l as [|q l IH]; cbn [fold_left]; intros a Ha; [split; [exact Ha|intros ? []]|].
      apply IH in Ha. destruct Ha as [Ha Hl]. destruct a as [u|]; [discriminate|]. split; [reflexivity|].
      intros p' [->|Hp']; auto. }
    apply (G _ _ H). apply in_seq. lia.
  - unfold step. replace (nth_error (procs s) p) with (@None (proc M R)); [reflexivity|].
    symmetry. apply nth_error_None. exact Hp.
Qed.

(** Divides by the diagonal. *)
Definition jacobi (st : structure) (m : @values Q) (_ : nat) (_ d : list Q) : option (nat -> Q) :=
  Some (fun i => (nth i d 0 / m i i)%Q).

Lemma jacobi_same : forall st m, sameForEqual (jacobi st m).
Proof.
  intros st m k y y' d d' _ H. unfold jacobi. intros i.
  assert (E : (nth i d 0 == nth i d' 0)%Q).
  { revert i. induction H as [|a b l l' Hab _ IH]; intros [|i]; cbn [nth]; try reflexivity; [exact Hab|apply IH]. }
  rewrite E. reflexivity.
Qed.

(** Four elements on two processes with ghosts: 4 on the diagonal and -1 for the neighbours. *)
Definition laplace (p n : nat) : list (nat * Q) :=
  map (fun c => (c, if n =? c then 4%Q else (-1)%Q)) (columns (ghosted 1 p) n).
Definition tolerance : BiCGModel.combined := BiCGModel.mkCombined (Fin (1 # 100)) (Fin 0) (Fin 1000000) (Fin 0) (Fin 0) false.
Definition rightHandSide (p : nat) : list Q := match p with 0 => [1; 2; 0]%Q | _ => [3; 4; 0]%Q end.

Definition outcomes {M} (s : state M solved) : list (option outcome) :=
  map (fun p => match p with Ret r => Some (so_outcome r) | _ => None end) (procs s).

Definition summary (o : option outcome) : option (bool * list Q * nat) :=
  match o with Some (PReturned ok x _ it) => Some (ok, map Qred x, it) | _ => None end.

Lemma ghost_graph : onGraph 2 (ghosted 1) laplace.
Proof. intros p n _. unfold laplace. rewrite map_map. apply map_id. Qed.

Lemma ghost_names : forall x, x < 4 <-> exists p, p < 2 /\ hasRow (ghosted 1) ghostName p x.
Proof.
  intros x. split.
  - intros H. destruct (Nat.lt_ge_cases x 2) as [K|K].
    + exists 0. split; [lia|]. exists x. split; [apply ghost_row; exact K|reflexivity].
    + exists 1. split; [lia|]. exists (x - 2). split; [apply ghost_row; lia|].
      assert (E : x - 2 = 0 \/ x - 2 = 1) by lia. cbn [ghostName]. destruct E as [E|E]; rewrite E; lia.
  - intros (p & Hp & i & Hi & <-). apply ghost_row in Hi. destruct p as [|[|p]]; cbn [ghostName]; [lia| |lia].
    destruct i as [|[|i]]; lia.
Qed.

(** The hypotheses are met, and the system is solved up to a quarter of the right hand side;
    the same with one full iteration and a tolerance which it does not reach. *)
Example ghost_solves :
  exists r, ends 2 (fun p => buildAndSolve p 2 (ghosted 1 p) (ghostLists p) 1 2 (laplace p) (fun _ _ => true) jacobi 0 5
                       (BiCGModel.mkCombined (Fin (1 # 4)) (Fin 0) (Fin 1000000) (Fin 0) (Fin 0) false) (rightHandSide p)) r
    /\ map (fun p => summary (Some (so_outcome (r p)))) [0; 1] =
       [Some (true, [3 # 8; 3 # 4; 0]%Q, 0); Some (true, [9 # 8; 3 # 2; 0]%Q, 0)]
    /\ exists x, (forall q, q < 2 -> exists w c, so_outcome (r q) = PReturned true w c 0
                    /\ forall i, i < 2 -> (nth i w 0 == x (ghostName q i))%Q)
         /\ exists j, j < 4 /\ forall i, i < 4 ->
              (Qabs (rowSum 2 (ghosted 1) ghostName rightHandSide i - globalProduct 2 (ghosted 1) ghostName laplace x i)
                 <= (1 # 4) * Qabs (rowSum 2 (ghosted 1) ghostName rightHandSide j))%Q.
Proof.
  set (c0 := BiCGModel.mkCombined (Fin (1 # 4)) (Fin 0) (Fin 1000000) (Fin 0) (Fin 0) false).
  destruct (C87_reported_success_bounds_the_global_residual_partial 2 (ghosted 1) 1 1 ghostName (ghost_decomposition 1 ltac:(lia)) ltac:(lia)
    ghostLists (ghost_black 1) 1 2 ltac:(lia) ltac:(lia) ghost_once ghost_usable ltac:(discriminate) laplace ghost_graph
    4 ghost_names) with (ready := fun (_ : nat) (_ : structure) (_ : @values Q) => true) (prec := fun _ : nat => jacobi)
    (eps := 0%Q) (maxIter := 5) (c0 := c0) (rt := (1 # 4)%Q) (at_ := 0%Q) (v := rightHandSide) as (r & E & H).
  - right. intros [|p] _; discriminate.
  - intros. apply jacobi_same.
  - reflexivity.
  - reflexivity.
  - discriminate.
  - discriminate.
  - exists r. split; [exact E|].
    assert (S : map (fun p => summary (Some (so_outcome (r p)))) [0; 1] =
       [Some (true, [3 # 8; 3 # 4; 0]%Q, 0); Some (true, [9 # 8; 3 # 2; 0]%Q, 0)]).
    { set (prog := fun p => buildAndSolve p 2 (ghosted 1 p) (ghostLists p) 1 2 (laplace p) (fun _ _ => true) jacobi 0 5 c0 (rightHandSide p)) in *.
      destruct (drive_run _ _ 3000 (start 2 prog)) as (ls & R).
      pose proof (ends_result _ _ _ E ls _ R) as D.
      assert (F : forall l, step (drive 3000 (start 2 prog)) l = None).
      { apply oneStep_none. vm_compute. reflexivity. }
      specialize (D F). apply (f_equal (fun s => map summary (outcomes s))) in D.
      change (map summary (outcomes (done 2 r))) with (map (fun p => summary (Some (so_outcome (r p)))) [0; 1]) in D.
      rewrite <- D. vm_compute. reflexivity. }
    split; [exact S|]. cbn [map summary] in S. injection S as S0 S1.
    destruct (so_outcome (r 0)) as [ok w c it| | | |] eqn:E0; try discriminate S0. injection S0 as -> _ ->.
    destruct (H 0 w c 0 ltac:(lia) E0) as (x & Hx & B). exists x. split.
    + intros q Hq. destruct (Hx q Hq) as (w' & c' & H1 & H2). exists w', c'. split; [exact H1|].
      intros i Hi. apply H2. apply ghost_row. exact Hi.
    + assert (Z : exists j, j < 4 /\ (0 < Qabs (rowSum 2 (ghosted 1) ghostName rightHandSide j))%Q) by (exists 0; split; [lia|vm_compute; reflexivity]).
      destruct B as [B|[B|B]]; [| |exact B]; exists 3; (split; [lia|]); intros i Hi; (eapply Qle_trans; [apply (B i Hi)|]);
        vm_compute; discriminate.
Qed.

Example ghost_iterates :
  let s := drive 3000 (start 2 (fun p => buildAndSolve p 2 (ghosted 1 p) (ghostLists p) 1 2 (laplace p) (fun _ _ => true) jacobi 0 1
                         tolerance (rightHandSide p))) in
  map summary (outcomes s) = [Some (false, [1355 # 3144; 1355 # 1572; 0]%Q, 1); Some (false, [1355 # 1048; 1025 # 786; 0]%Q, 1)].
Proof. vm_compute. reflexivity. Qed.

(* ----- what does not hold ----- *)

(** The same two processes and a third one with two elements which have no neighbours on the others. *)
Definition apart (p : nat) : partition :=
  match p with 2 => mkPartition 2 (fun _ => [0; 1]) [] (fun _ => false) 1 | _ => ghosted 1 p end.
Definition apartName (p i : nat) : nat := match p with 2 => 4 + i | _ => ghostName p i end.
Definition apartLists (p : nat) : peerBlackLists := match p with 2 => [] | _ => ghostLists p end.
Definition apartMatrix (p n : nat) : list (nat * Q) :=
  map (fun c => (c, if n =? c then 4%Q else (-1)%Q)) (columns (apart p) n).

Lemma apart_row : forall p i, p < 3 -> (isRow apart p i <-> i < 2).
Proof.
  intros p i Hp. destruct p as [|[|[|p]]]; [apply (ghost_row 1 0)|apply (ghost_row 1 1)| |lia].
  unfold isRow. cbn. intuition.
Qed.

Lemma apart_lists : forall p i q j, p < 3 -> (lists apart p i q j <-> p = 0 /\ i = 1 /\ q = 1 /\ j = 0 \/ p = 1 /\ i = 0 /\ q = 0 /\ j = 1).
Proof.
  intros p i q j Hp. destruct p as [|[|[|p]]]; [| | |lia].
  - rewrite (ghost_lists 1 0 i q j). lia.
  - rewrite (ghost_lists 1 1 i q j). lia.
  - split; [intros (e & [] & _)|lia].
Qed.

Lemma apart_decomposition : decomposition 3 apart 1 1 apartName.
Proof.
  split; try lia.
  - split.
    + intros p e Hp. destruct p as [|[|[|p]]]; [| | |lia]; cbn; intuition (subst; reflexivity).
    + intros p i q j Hp H. apply apart_lists in H; [|exact Hp]. lia.
    + intros p i q j Hp H. apply apart_lists in H; [|exact Hp].
      destruct H as [(-> & -> & -> & ->)|(-> & -> & -> & ->)].
      * exists 1, 0. apply apart_lists; lia.
      * exists 0, 1. apply apart_lists; lia.
    + intros p Hp. destruct p as [|[|[|p]]]; reflexivity.
  - split; try lia.
    + intros p i j Hp Hi Hj. apply apart_row in Hi; [|exact Hp]. apply apart_row in Hj; [|exact Hp]. unfold apartName, ghostName.
      destruct p as [|[|[|p]]]; [auto| |lia|lia]. destruct i as [|[|i]], j as [|[|j]]; lia.
    + intros _ p i q j Hp Hq Hpq Hi Hj. apply apart_row in Hi; [|exact Hp]. apply apart_row in Hj; [|exact Hq]. unfold apartName, ghostName.
      destruct p as [|[|[|p]]], q as [|[|[|q]]]; try lia; destruct i as [|[|i]], j as [|[|j]]; lia.
    + intros p i q j Hp H. apply apart_lists in H; [|exact Hp]. apply apart_row; [exact Hp|lia].
    + intros p Hp. destruct p as [|[|[|p]]]; [| | |lia]; cbn; repeat constructor; cbn [In]; intuition congruence.
Qed.

Lemma apart_black : blackListsOf 3 apart apartName apartLists.
Proof.
  split.
  - split.
    + intros p q Hp. destruct p as [|[|[|p]]]; cbn; lia.
    + intros p Hp. destruct p as [|[|[|p]]]; cbn; repeat constructor; auto.
    + intros p q Hp. destruct p as [|[|[|p]]]; cbn; [| |intros []|lia]; intros [<-|[]]; cbn; auto.
  - intros p q n i Hp. destruct p as [|[|[|p]]]; [| |intros []|lia]; destruct q as [|[|q]]; cbn; intuition (try congruence);
      match goal with H : (_, _) = (_, _) |- _ => injection H as <- <- end;
      first [apply (ghost_row 1 0); lia|apply (ghost_row 1 1); lia|reflexivity].
Qed.

Lemma apart_once : columnsOnce 3 apart apartName.
Proof.
  intros p n Hp. destruct p as [|[|[|p]]]; [apply (ghost_once 0); lia|apply (ghost_once 1); lia| |lia].
  cbn. repeat constructor; cbn [In]; lia.
Qed.

Lemma apart_usable : allUsable 3 apart 1 1 apartName apartLists.
Proof.
  intros p n c Hp Hn Hc. apply apart_row in Hn; [|exact Hp].
  assert (c < 3 /\ (p = 2 -> c < 2)).
  { destruct p as [|[|[|p]]]; cbn [apart ghosted columns] in Hc; destruct n as [|[|n]]; try lia; cbn in Hc; lia. }
  destruct (Nat.eq_dec c 2) as [->|]; [|left; apply apart_row; lia].
  right. destruct p as [|[|[|p]]]; [| |lia|lia].
  - split; [exists 1, 0; cbn; auto|]. right. exists 1, 0, 0. split; [lia|]. split; [|reflexivity].
    apply reaches_border with (j := 1); [lia|apply apart_row; lia|]. apply apart_lists; lia.
  - split; [exists 0, 1; cbn; auto|]. right. exists 0, 1, 0. split; [lia|]. split; [|reflexivity].
    apply reaches_border with (j := 0); [lia|apply apart_row; lia|]. apply apart_lists; lia.
Qed.

(** Full statement: every decomposition can be solved.  If one process has no neighbours then
    the processes with neighbours wait for ever at the first application of the
    preconditioner, although it fails nowhere. *)
Theorem C87_every_decomposition_is_solved_refuted :
  exists N pt name pb native v,
    decomposition N pt 1 1 name /\ blackListsOf N pt name pb /\ columnsOnce N pt name /\ allUsable N pt 1 1 name pb
    /\ onGraph N pt native
    /\ hangs N (fun p => buildAndSolve p N (pt p) (pb p) 1 N (native p) (fun _ _ => true) jacobi 0 5 tolerance (v p)) 0
    /\ forall r, ~ ends N (fun p => buildAndSolve p N (pt p) (pb p) 1 N (native p) (fun _ _ => true) jacobi 0 5 tolerance (v p)) r.
Proof.
  exists 3, apart, apartName, apartLists, apartMatrix, (fun p => match p with 2 => [1; 1]%Q | _ => rightHandSide p end).
  split; [exact apart_decomposition|]. split; [exact apart_black|]. split; [exact apart_once|]. split; [exact apart_usable|].
  split; [intros p n _; unfold apartMatrix; rewrite map_map; apply map_id|].
  match goal with |- hangs 3 ?f 0 /\ _ => set (prog := f) end.
  destruct (drive_run _ _ 3000 (start 3 prog)) as (ls & R).
  assert (F : forall l, step (drive 3000 (start 3 prog)) l = None).
  { apply oneStep_none. vm_compute. reflexivity. }
  assert (O : hd None (outcomes (drive 3000 (start 3 prog))) = None) by (vm_compute; reflexivity).
  assert (L : 0 < length (procs (drive 3000 (start 3 prog)))) by (vm_compute; lia).
  split.
  - exists ls, (drive 3000 (start 3 prog)). split; [exact R|]. split; [exact F|].
    unfold outcomes in O. destruct (procs (drive 3000 (start 3 prog))) as [|pr l]; [cbn in L; lia|].
    exists pr. split; [reflexivity|]. intros r ->. discriminate O.
  - intros r E. pose proof (ends_result _ _ _ E ls _ R F) as D. rewrite D in O. discriminate O.
Qed.

Print Assumptions C87_processes_together_do_the_sequential_iteration_partial.
Print Assumptions C87_reported_success_bounds_the_global_residual_partial.
Print Assumptions C87_every_decomposition_is_solved_refuted.
