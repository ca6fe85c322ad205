(** * C62: border lists from the grid *)

From Coq Require Import Arith List Bool Lia QArith Sorted.
From Verif Require Import MpiModel MpiSpec MpiExchange GlobalIndexModel GlobalIndexSpec ForeignModel ForeignSpec ForeignProofs
  DomesticModel VectorModel PipelineModel PipelineSpec CommModel CommSpec CommProofs BorderProofs VectorProps CommProps.
From Verif Require FluxSpec.
Import ListNotations.
Local Open Scope nat_scope.

(** Vertices: for every grid and every order of the messages, the border list of a process
    has exactly one entry for each vertex of its interior or border and each other process
    which has it in its interior or border too, with the right index of the other process;
    the black list has exactly the other vertices. *)
Theorem C62_vertex_border_lists :
  forall N g, indexed N g -> forall plan order, overInterface N g interiorBorder interiorBorder plan order ->
  forall q, q < N -> exists b, vertexBorderList plan order q = Some b
    /\ (forall e, In e b <-> exists p i j, e = mkBorder j i p 0 /\ p <> q /\ sameEntity N g p i q j
          /\ interiorBorder (kind (g p) i) = true /\ interiorBorder (kind (g q) j) = true)
    /\ NoDup (map (fun e => (localIdx e, peerRank e)) b)
    /\ forall i, vertexBlackListed (g q) i = negb (interiorBorder (kind (g q) i)).
Proof.
  intros N g IX plan order OV q Hq. exists (listOf plan order 0 q). split; [apply vertex_list|].
  split; [intros e; apply (list_in N g interiorBorder interiorBorder plan order OV); exact Hq|].
  split; [apply (list_once N g IX interiorBorder interiorBorder plan order OV); exact Hq|].
  intros i. unfold vertexBlackListed, interiorBorder. destruct (kind (g q) i); reflexivity.
Qed.

Lemma alone : forall N g q, q < N -> elementGrid N g -> noLoneElement N g -> aligned N g q.
Proof.
  intros N g q Hq EG NL p i j Hn S K. assert (Hj : j < numEnt (g q)) by apply S.
  apply (interior_iff _ (eg_kinds _ _ EG q j Hq Hj)) in K.
  destruct (NL p i q j S Hn K) as (k & Hk & Kk). unfold hasInteriorNeighbor. apply existsb_exists.
  exists k. split; [exact Hk|]. rewrite Kk. reflexivity.
Qed.

(** Elements: the same holds if every interior element with copies elsewhere has a neighbor
    in the interior: the entries are the interior elements of which other processes have
    copies, and the peer lists of the black list tell which copies these are.  Without the
    condition it is false (below). *)
Theorem C62_element_border_lists_partial :
  forall N g, elementGrid N g -> noLoneElement N g ->
  forall plan order plan2 order2, overInterface N g anyEntity interiorBorder plan order ->
  overInterface N g anyEntity interiorBorder plan2 order2 ->
  forall q, q < N -> exists b pb, elementBorderList g plan order plan2 order2 q = ElementLists b pb
    /\ (forall e, In e b <-> exists p i j, e = mkBorder j i p 1 /\ p <> q /\ sameEntity N g p i q j
          /\ kind (g q) j = InteriorEntity)
    /\ NoDup (map (fun e => (localIdx e, peerRank e)) b)
    /\ (forall p, In p (map fst pb) <-> exists e, In e b /\ peerRank e = p)
    /\ (forall p n i, In (n, i) (bget p pb) <-> In (mkBorder i n p 1) b)
    /\ forall i, elementBlackListed (g q) i = true <-> kind (g q) i <> InteriorEntity.
Proof.
  intros N g EG NL plan order plan2 order2 OV OV2 q Hq.
  destruct (element_lists N g plan plan2 order order2 OV OV2 q Hq (alone N g q Hq EG NL)) as (pb & E & S & P & B).
  assert (I : forall e, In e (listOf plan order 1 q) <-> exists p i j, e = mkBorder j i p 1 /\ p <> q
      /\ sameEntity N g p i q j /\ kind (g q) j = InteriorEntity).
  { intros e. rewrite (list_in N g anyEntity interiorBorder plan order OV 1 q e Hq). split.
    - intros (p & i & j & E' & Hn & S' & _ & K). exists p, i, j. do 3 (split; [auto|]).
      apply interior_iff; [|exact K]. apply (eg_kinds _ _ EG); [auto|apply S'].
    - intros (p & i & j & E' & Hn & S' & K). exists p, i, j. do 4 (split; [auto|]). rewrite K. reflexivity. }
  exists (listOf plan order 1 q), pb. split; [exact E|]. split; [exact I|].
  split; [apply (list_once N g (eg_indexed _ _ EG) anyEntity interiorBorder plan order OV); exact Hq|].
  split; [|split].
  - intros p. rewrite P. split.
    + intros (Hn & i & j & S' & K). exists (mkBorder j i p 1). split; [|reflexivity]. apply I. exists p, i, j.
      do 3 (split; [auto|]). apply interior_iff; [|exact K]. apply (eg_kinds _ _ EG); [auto|apply S'].
    + intros (e & He & Ep). apply I in He. destruct He as (p' & i & j & -> & Hn & S' & K). cbn in Ep. subst p'.
      split; [auto|]. exists i, j. rewrite K. auto.
  - intros p n i. rewrite B, I. split.
    + intros (Hn & S' & K). exists p, n, i. do 3 (split; [auto|]).
      apply interior_iff; [|exact K]. apply (eg_kinds _ _ EG); [auto|apply S'].
    + intros (p' & n' & i' & E' & Hn & S' & K). injection E' as <- <- <-. split; [auto|]. rewrite K. auto.
  - intros i. unfold elementBlackListed. destruct (kind (g q) i); intuition congruence.
Qed.

(** From these lists the overlap can be built: they are a decomposition in the sense of the
    theorems about overlaps and vectors, in which the rows are the elements. *)
Theorem C62_element_lists_are_a_decomposition :
  forall N g, elementGrid N g -> noLoneElement N g ->
  forall plan order plan2 order2, overInterface N g anyEntity interiorBorder plan order ->
  overInterface N g anyEntity interiorBorder plan2 order2 ->
  forall os cols, 1 <= os ->
  exists b pb, (forall q, q < N -> elementBorderList g plan order plan2 order2 q = ElementLists (b q) (pb q))
    /\ decomposition N (partOf g cols os elementBlackListed b) 1 os (fun p => ident (g p))
    /\ blackListsOf N (partOf g cols os elementBlackListed b) (fun p => ident (g p)) pb.
Proof.
  intros N g EG NL plan order plan2 order2 OV OV2 os cols Ho.
  destruct (PipelineRun.finite_choice peerBlackLists [] (fun q pb =>
     elementBorderList g plan order plan2 order2 q = ElementLists (listOf plan order 1 q) pb
     /\ StronglySorted lt (map fst pb)
     /\ (forall p, In p (map fst pb) <-> p <> q /\ exists i j, sameEntity N g p i q j /\ interiorBorder (kind (g q) j) = true)
     /\ (forall p n i, In (n, i) (bget p pb) <-> p <> q /\ sameEntity N g p n q i /\ interiorBorder (kind (g q) i) = true)) N) as (pb & H).
  { intros q Hq. apply (element_lists N g plan plan2 order order2 OV OV2 q Hq (alone N g q Hq EG NL)). }
  exists (listOf plan order 1), pb. split; [intros q Hq; apply (H q Hq)|]. split.
  - apply (element_decomposition N g cols os _ Ho EG).
    + intros q Hq e. rewrite (list_in N g anyEntity interiorBorder plan order OV 1 q e Hq). split.
      * intros (p & i & j & K). exists p, i, j. tauto.
      * intros (p & i & j & K). exists p, i, j. unfold anyEntity at 1. tauto.
    + intros q Hq. apply (list_once N g (eg_indexed _ _ EG) anyEntity interiorBorder plan order OV 1 q Hq).
  - apply (element_black N g cols os _ pb EG); intros q Hq; destruct (H q Hq) as (_ & H1 & H2 & H3); assumption.
Qed.

Theorem C62_vertex_lists_are_a_decomposition :
  forall N g, indexed N g -> forall plan order, overInterface N g interiorBorder interiorBorder plan order ->
  forall os cols,
  (* the vertices which are not in the interior or the border have the highest indices *)
  (forall p i j, p < N -> j < numEnt (g p) -> interiorBorder (kind (g p) j) = true -> i < j ->
     interiorBorder (kind (g p) i) = true) ->
  (* the matrix is symmetric in its structure *)
  (forall p i j, p < N -> In j (cols p i) -> In i (cols p j)) ->
  exists b, (forall q, q < N -> vertexBorderList plan order q = Some (b q))
    /\ decomposition N (partOf g cols os vertexBlackListed b) 0 os (fun p => ident (g p)).
Proof.
  intros N g IX plan order OV os cols FI UN. exists (listOf plan order 0).
  split; [intros q Hq; apply vertex_list|].
  apply (vertex_decomposition N g cols os _ IX FI).
  - intros p i j Hp _ _. apply UN. exact Hp.
  - intros q Hq e. apply (list_in N g interiorBorder interiorBorder plan order OV 0 q e Hq).
  - intros q Hq. apply (list_once N g IX interiorBorder interiorBorder plan order OV 0 q Hq).
Qed.

(** The scalar product, from the grid to the number: the border lists and black lists are
    those which the processes find over the grid. *)
Theorem C37_scalar_product_over_a_distributed_grid :
  forall N g, elementGrid N g -> noLoneElement N g ->
  forall plan order plan2 order2, overInterface N g anyEntity interiorBorder plan order ->
  overInterface N g anyEntity interiorBorder plan2 order2 ->
  forall os cols maxDistance maxRank, 1 <= os -> os <= maxDistance -> N <= maxRank ->
  forall (v w : nat -> list Q) (X Y : nat -> Q) elements,
  (forall p n, p < N -> n < numEnt (g p) -> kind (g p) n = InteriorEntity ->
     (nth n (v p) 0 == X (ident (g p) n))%Q /\ (nth n (w p) 0 == Y (ident (g p) n))%Q) ->
  NoDup elements ->
  (forall x, In x elements <-> exists p i, p < N /\ i < numEnt (g p) /\ kind (g p) i = InteriorEntity /\ ident (g p) i = x) ->
  exists b pb r, (forall q, q < N -> elementBorderList g plan order plan2 order2 q = ElementLists (b q) (pb q))
    /\ ends N (fun p => buildAndDot 0%Q p N (mkPartition (numEnt (g p)) (cols p) (b p) (elementBlackListed (g p)) os)
                          (pb p) maxDistance maxRank Qplus Qmult (v p) (w p)) r
    /\ forall p, p < N -> exists s, r p = Some s /\ (s == FluxSpec.sumOver (fun x => X x * Y x) elements)%Q.
Proof.
  intros N g EG NL plan order plan2 order2 OV OV2 os cols maxDistance maxRank Ho HD HR v w X Y elements HV ND HE.
  destruct (C62_element_lists_are_a_decomposition N g EG NL plan order plan2 order2 OV OV2 os cols Ho) as (b & pb & HL & DE & BL).
  destruct (C37_scalar_product_of_assembled_vectors N _ 1 os _ DE pb BL maxDistance maxRank HD HR v w X Y elements) as (r & E & V).
  - intros p n Hp Hr _. apply element_row in Hr. apply HV; tauto.
  - exact ND.
  - intros x. rewrite HE. unfold hasRow. split.
    + intros (p & i & Hp & Hi & K & Ex). exists p. split; [auto|]. exists i. split; [apply element_row; auto|exact Ex].
    + intros (p & Hp & i & Hr & Ex). apply element_row in Hr. exists p, i. tauto.
  - exists b, pb, r. split; [exact HL|]. split; [exact E|exact V].
Qed.

(* ----- a process with a lone element ----- *)

(** Four elements in a row; process 0 has the elements 0, 2 and 3, process 1 has element 1,
    and each has copies of the adjacent elements of the other. *)
Definition rowParts (p : nat) : part :=
  match p with
  | 0 => mkPart 4 (fun i => match i with 0 => 0 | 1 => 2 | 2 => 3 | _ => 1 end)
           (fun i => match i with 3 => GhostEntity | _ => InteriorEntity end)
           (fun i => match i with 0 => [3] | 1 => [3; 2] | 2 => [1] | _ => [0; 1] end)
  | _ => mkPart 3 (fun i => match i with 0 => 1 | 1 => 0 | _ => 2 end)
           (fun i => match i with 0 => InteriorEntity | _ => GhostEntity end)
           (fun i => match i with 0 => [1; 2] | _ => [0] end)
  end.

Definition rowPlan (p q : nat) : list (nat * nat) := match p with 0 => [(3, 0)] | _ => [(1, 0); (2, 1)] end.

Lemma row_grid : elementGrid 2 rowParts.
Proof.
  split.
  - intros p i j Hp. destruct p as [|p]; cbn [rowParts numEnt ident];
      destruct i as [|[|[|[|i]]]], j as [|[|[|[|j]]]]; lia.
  - intros p i Hp Hi. destruct p as [|p]; cbn [rowParts kind]; destruct i as [|[|[|[|i]]]]; discriminate.
  - intros p i q j (Hp & Hq & Hi & Hj & E) K1 K2.
    destruct p as [|[|p]], q as [|[|q]]; try lia; cbn [rowParts numEnt ident kind] in *;
      destruct i as [|[|[|[|i]]]], j as [|[|[|[|j]]]]; try lia; congruence.
  - intros p i q j (Hp & Hq & Hi & Hj & E) Hn K. destruct p as [|[|p]], q as [|[|q]]; try lia.
    + exists 3, 0. unfold sameEntity; cbn. repeat split; lia.
    + exists 1, 0. unfold sameEntity; cbn. repeat split; lia.
Qed.

Lemma row_plan : overInterface 2 rowParts anyEntity interiorBorder rowPlan others.
Proof.
  split.
  - intros p q Hp Hq Hn. split; [destruct p; repeat constructor; cbn [In]; intuition congruence|].
    intros i j. unfold sameEntity. destruct p as [|[|p]], q as [|[|q]]; try lia; cbn [rowPlan rowParts numEnt ident kind In]; split.
    + intros [E|[]]. injection E as <- <-. cbn. repeat split; lia.
    + intros ((_ & _ & Hi & Hj & E) & K1 & K2). destruct j as [|[|[|j]]]; cbn in K2; try congruence; try lia.
      destruct i as [|[|[|[|i]]]]; try lia. auto.
    + intros [E|[E|[]]]; injection E as <- <-; cbn; repeat split; lia.
    + intros ((_ & _ & Hi & Hj & E) & K1 & K2).
      destruct j as [|[|[|[|j]]]]; cbn in K2; try congruence; try lia; destruct i as [|[|[|[|i]]]]; try lia; auto.
  - intros q Hq. split; [repeat constructor; intros []|]. intros p. unfold others. cbn [In].
    destruct q as [|[|q]]; lia.
Qed.

(** The early return of scatter loses the alignment of the message: process 0 attributes
    the copy of its element 0 to its element 2, and process 1 finds no common element at
    all. *)
Theorem C62_lone_elements_refuted :
  exists N g plan order plan2 order2, elementGrid N g
    /\ overInterface N g anyEntity interiorBorder plan order /\ overInterface N g anyEntity interiorBorder plan2 order2
    /\ (exists b pb e, elementBorderList g plan order plan2 order2 0 = ElementLists b pb /\ In e b
          /\ ident (g (peerRank e)) (peerIdx e) <> ident (g 0) (localIdx e))
    /\ exists b pb i j, elementBorderList g plan order plan2 order2 1 = ElementLists b pb /\ b = []
          /\ sameEntity N g 0 i 1 j /\ kind (g 1) j = InteriorEntity.
Proof.
  exists 2, rowParts, rowPlan, others, rowPlan, others.
  split; [apply row_grid|]. split; [apply row_plan|]. split; [apply row_plan|]. split.
  - eexists. eexists. exists (mkBorder 1 1 1 1). split; [reflexivity|]. split; [left; reflexivity|]. cbn. discriminate.
  - eexists. eexists. exists 3, 0. split; [reflexivity|]. split; [reflexivity|]. unfold sameEntity. cbn. repeat split; lia.
Qed.

(* ----- an example which meets the condition ----- *)

(** Four elements in a row, two on each process. *)
Definition halves (p : nat) : part :=
  match p with
  | 0 => mkPart 3 (fun i => i) (fun i => match i with 2 => GhostEntity | _ => InteriorEntity end)
           (fun i => match i with 0 => [1] | 1 => [0; 2] | _ => [1] end)
  | _ => mkPart 3 (fun i => match i with 0 => 2 | 1 => 3 | _ => 1 end)
           (fun i => match i with 2 => GhostEntity | _ => InteriorEntity end)
           (fun i => match i with 0 => [2; 1] | 1 => [0] | _ => [0] end)
  end.

Lemma halves_grid : elementGrid 2 halves /\ noLoneElement 2 halves.
Proof.
  split; [split|].
  - intros p i j Hp. destruct p as [|p]; cbn [halves numEnt ident]; [lia|].
    destruct i as [|[|[|i]]], j as [|[|[|j]]]; lia.
  - intros p i Hp Hi. destruct p as [|p]; cbn [halves kind]; destruct i as [|[|[|i]]]; discriminate.
  - intros p i q j (Hp & Hq & Hi & Hj & E) K1 K2.
    destruct p as [|[|p]], q as [|[|q]]; try lia; cbn [halves numEnt ident kind] in *;
      destruct i as [|[|[|i]]], j as [|[|[|j]]]; try lia; congruence.
  - intros p i q j (Hp & Hq & Hi & Hj & E) Hn K. destruct p as [|[|p]], q as [|[|q]]; try lia.
    + exists 2, 0. unfold sameEntity; cbn. repeat split; lia.
    + exists 2, 1. unfold sameEntity; cbn. repeat split; lia.
  - intros p i q j (Hp & Hq & Hi & Hj & E) Hn K. destruct q as [|[|q]]; cbn [halves numEnt kind adjacent] in *; [| |lia];
      destruct j as [|[|[|j]]]; try lia; try discriminate.
    + exists 1. cbn. auto.
    + exists 0. cbn. auto.
    + exists 1. cbn. auto.
    + exists 0. cbn. auto.
Qed.

Example halves_lists : map (elementBorderList halves
    (fun p _ => match p with 0 => [(2, 0)] | _ => [(2, 1)] end) others
    (fun p _ => match p with 0 => [(2, 0)] | _ => [(2, 1)] end) others) [0; 1]
  = [ElementLists [mkBorder 1 2 1 1] [(1, [(2, 1)])]; ElementLists [mkBorder 0 2 0 1] [(0, [(2, 0)])]].
Proof. reflexivity. Qed.

Print Assumptions C62_vertex_border_lists.
Print Assumptions C62_element_border_lists_partial.
Print Assumptions C62_element_lists_are_a_decomposition.
Print Assumptions C62_vertex_lists_are_a_decomposition.
Print Assumptions C37_scalar_product_over_a_distributed_grid.
Print Assumptions C62_lone_elements_refuted.
