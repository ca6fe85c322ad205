(** * C36, C37, C68: distributed vectors *)

From Coq Require Import Arith List Bool Lia QArith Sorted.
From Verif Require Import MpiModel MpiSpec MpiProofs MpiLemmas MpiExchange ExchangeModel
  GlobalIndexModel GlobalIndexSpec GlobalIndexProofs ForeignModel ForeignSpec ForeignProofs ForeignReach ForeignProps
  DomesticModel DomesticSpec DomesticProofs VectorModel VectorSpec VectorProofs VectorSums
  PipelineModel PipelineSpec PipelineProofs PipelineRun.
From Verif Require FluxSpec ResidualProofs.
Import ListNotations.
Local Open Scope nat_scope.

(* ----- any overlap ----- *)

(** On every system of overlaps [sync] ends under every schedule, and then every copy of a
    degree of freedom has the value which its master had before. *)
Theorem C36_sync_gives_every_copy_the_value_of_its_master :
  forall N fo shared dof number total ddof dom, system N fo shared dof number total ddof dom ->
  forall buf, (forall p, p < N -> buffersOf fo shared dof (ddof p) (domSize (dom p)) p (buf p)) ->
  forall (V : Type) (zero : V) (x : nat -> list V), (forall p, p < N -> length (x p) = domSize (dom p)) ->
  exists y, ends N (fun p => sync (fo p) (dom p) zero (buf p) (x p)) y
    /\ forall p, p < N -> exists z, y p = Some z /\ length z = domSize (dom p)
       /\ forall i m j, i < domSize (dom p) -> isMaster fo dof m (ddof p i) ->
          j < numLocal (fo m) -> dof m j = ddof p i -> nth i z zero = nth j (x m) zero.
Proof.
  intros N fo shared dof number total ddof dom SY buf BF V zero x LX.
  exists (syncResult fo dom zero buf x). split.
  - apply ends_intro. unfold done. rewrite !start_cfg.
    eapply sync_run; eauto.
  - intros p Hp. eapply sync_result; eauto.
Qed.

(** [syncAdd] adds to every copy the values of all other processes which have the degree
    of freedom in their interior or on their border, in the order of the ranks; this holds
    for every addition, also for one which rounds. *)
Theorem C36_sync_add_adds_the_values_of_the_other_processes :
  forall N fo shared dof number total ddof dom, system N fo shared dof number total ddof dom ->
  forall buf, (forall p, p < N -> buffersOf fo shared dof (ddof p) (domSize (dom p)) p (buf p)) ->
  forall (V : Type) (zero : V) add (x : nat -> list V), (forall p, p < N -> length (x p) = domSize (dom p)) ->
  exists y, ends N (fun p => syncAdd (fo p) zero add (buf p) (x p)) y
    /\ forall p, p < N -> exists z, y p = Some z /\ length z = domSize (dom p)
       /\ forall i, i < domSize (dom p) -> exists c, copies N fo dof p (ddof p i) c
          /\ nth i z zero = fold_left add (map (fun ql => nth (snd ql) (x (fst ql)) zero) c) (nth i (x p) zero).
Proof.
  intros N fo shared dof number total ddof dom SY buf BF V zero add x LX.
  exists (syncAddResult fo zero add buf x). split.
  - apply ends_intro. unfold done. rewrite !start_cfg.
    eapply syncAdd_run; eauto.
  - intros p Hp. eapply syncAdd_result; eauto.
Qed.

(** The index buffers which these theorems need are what the constructor of a vector
    makes. *)
Theorem C36_a_new_vector_has_matching_buffers :
  forall N fo shared dof number total ddof dom, system N fo shared dof number total ddof dom ->
  exists buf, ends N (fun p => createBuffers (fo p) (shared p) (dom p)) buf
    /\ forall p, p < N -> buffersOf fo shared dof (ddof p) (domSize (dom p)) p (buf p).
Proof.
  intros N fo shared dof number total ddof dom SY. exists (gotBuffers fo shared dom). split.
  - apply ends_intro. unfold done. rewrite !start_cfg. eapply buffers_run; eauto.
  - intros p Hp. eapply buffers_correct; eauto.
Qed.

(** The scalar product of consistent vectors on every process: every global index counts
    once. *)
Theorem C37_scalar_product_counts_every_index_once :
  forall N fo shared dof number total ddof dom, system N fo shared dof number total ddof dom ->
  forall (x y : nat -> list Q) (X Y : nat -> Q),
  (forall p i, p < N -> i < numLocal (fo p) ->
     (nth i (x p) 0 == X (number (dof p i)))%Q /\ (nth i (y p) 0 == Y (number (dof p i)))%Q) ->
  exists s, ends N (fun p => dot (fo p) 0%Q Qplus Qmult p (x p) (y p)) s
    /\ forall p, p < N -> (s p == FluxSpec.sumOver (fun k => X k * Y k) (seq 0 total))%Q.
Proof.
  intros N fo shared dof number total ddof dom SY x y X Y H.
  eexists. split.
  - apply ends_intro. unfold done. rewrite !start_cfg. eapply dot_run; eauto.
  - intros p Hp. cbv beta. eapply dot_value; eauto.
Qed.

Lemma nth_map_seq : forall A (f : nat -> A) n k d, k < n -> nth k (map f (seq 0 n)) d = f k.
Proof.
  intros A f n k d H. rewrite nth_indep with (d' := f 0) by (rewrite map_length, seq_length; exact H).
  rewrite map_nth, seq_nth by exact H. reflexivity.
Qed.
Arguments nth_map_seq {A} f n k d _.

(* ----- from the matrix to the vector ----- *)

(** From the matrix graphs, the border lists and the black lists of all processes: the
    overlaps, the global numbering and the vector are built, and the values of the native
    vectors v are added up.  Every schedule ends.  Then every process has one entry for
    each of its own rows and each row within the overlap, and the entry holds the sum over
    all processes which have the row. *)
Theorem C36_assembled_vector_holds_the_sum_over_all_processes :
  forall N pt d0 os name, decomposition N pt d0 os name ->
  forall pb, blackListsOf N pt name pb ->
  forall maxDistance maxRank, os <= maxDistance -> N <= maxRank ->
  forall v : nat -> list Q,
  exists r, ends N (fun p => buildAndAdd 0%Q p N (pt p) (pb p) maxDistance maxRank Qplus (v p)) r
    /\ forall p, p < N -> exists row y,
         rowsOf N pt d0 os name p (ovDomestic (fst (r p))) row
         /\ snd (r p) = Some y /\ length y = domSize (ovDomestic (fst (r p)))
         /\ forall i, i < length y -> (nth i y 0 == rowSum N pt name v (row i))%Q.
Proof.
  intros N pt d0 os name DE pb PB maxDistance maxRank HD HR v.
  destruct (whole_system N pt d0 os name DE maxDistance maxRank HD HR) as (ddof & SY).
  eexists. split.
  - apply ends_intro. unfold done. rewrite !start_cfg. eapply add_run; eauto.
  - intros p Hp. cbv beta. cbn [fst snd]. exists (ddof p).
    edestruct (add_value N pt d0 os name maxDistance maxRank) as (y & E & L & H); eauto.
    exists y. split; [eapply rows_of; eauto|]. split; [exact E|]. split; [exact L|].
    intros i Hi. apply H. rewrite <- L. exact Hi.
Qed.

(** The same for [assign]: every copy, also after the vector was written back to the
    native one, is the value of the lowest rank which has the row; the entries of black
    listed rows become zero. *)
Theorem C36_assigned_vector_holds_the_values_of_the_masters :
  forall N pt d0 os name, decomposition N pt d0 os name ->
  forall pb, blackListsOf N pt name pb ->
  forall maxDistance maxRank, os <= maxDistance -> N <= maxRank ->
  forall (V : Type) (zero : V) (v : nat -> list V),
  exists r, ends N (fun p => buildAndAssign zero p N (pt p) (pb p) maxDistance maxRank (v p)) r
    /\ forall p, p < N -> exists row y,
         rowsOf N pt d0 os name p (ovDomestic (fst (r p))) row
         /\ snd (r p) = Some y /\ length y = domSize (ovDomestic (fst (r p)))
         /\ (forall i m n, i < length y -> isRow pt m n -> name m n = row i ->
              (forall q, q < m -> ~ hasRow pt name q (row i)) -> nth i y zero = nth n (v m) zero)
         /\ let w := assignTo (ovAsForeign p (pt p) (fst (r p))) zero (numNative (pt p)) y in
            length w = numNative (pt p)
            /\ (forall k m n, isRow pt p k -> isRow pt m n -> name m n = name p k ->
                 (forall q, q < m -> ~ hasRow pt name q (name p k)) -> nth k w zero = nth n (v m) zero)
            /\ (forall k, k < numNative (pt p) -> ~ isRow pt p k -> nth k w zero = zero).
Proof.
  intros N pt d0 os name DE pb PB maxDistance maxRank HD HR V zero v.
  destruct (whole_system N pt d0 os name DE maxDistance maxRank HD HR) as (ddof & SY).
  eexists. split.
  - apply ends_intro. unfold done. rewrite !start_cfg. eapply assign_all; eauto.
  - intros p Hp. cbv beta. cbn [fst snd]. exists (ddof p).
    destruct (assign_value N pt d0 os name maxDistance maxRank HD HR ddof SY zero (fun a _ => a) v p Hp) as (y & E & L & H).
    pose proof (rows_of N pt d0 os name DE maxDistance maxRank HD HR ddof SY p Hp) as RO.
    exists y. split; [exact RO|]. split; [exact E|]. split; [exact L|]. split.
    + intros i m n Hi. apply H. rewrite <- L. exact Hi.
    + cbn zeta. unfold assignTo. split; [rewrite map_length, seq_length; reflexivity|].
      assert (W : forall k, k < numNative (pt p) -> nth k (map (fun n => match nativeToLocal (ovAsForeign p (pt p) (object pt d0 os pb maxDistance maxRank p)) n with
                Some l => nth l y zero | None => zero end) (seq 0 (numNative (pt p)))) zero
              = match toLocal (pt p) k with Some l => nth l y zero | None => zero end).
      { intros k Hk. apply (nth_map_seq (fun n => match toLocal (pt p) n with Some l => nth l y zero | None => zero end)). exact Hk. }
      split.
      * intros k m n Hk Hr En Hl. rewrite W by (apply Hk).
        destruct (proj1 (row_local pt p k) Hk) as (l & El). rewrite El.
        destruct (ro_local _ _ _ _ _ _ _ _ RO k l El) as [Hl1 Hl2].
        apply H; auto; [congruence|]. rewrite Hl2. exact Hl.
      * intros k Hk Hn. rewrite W by auto. destruct (toLocal (pt p) k) as [l|] eqn:El; [|reflexivity].
        exfalso. apply Hn, (proj2 (row_local pt p k)). eauto.
Qed.

(** The scalar product of two native vectors, of whose entries only those on the lowest
    rank which has the row matter, is the scalar product over all rows of the global
    matrix. *)
Theorem C37_scalar_product_of_assembled_vectors :
  forall N pt d0 os name, decomposition N pt d0 os name ->
  forall pb, blackListsOf N pt name pb ->
  forall maxDistance maxRank, os <= maxDistance -> N <= maxRank ->
  forall (v w : nat -> list Q) (X Y : nat -> Q) rows,
  (forall p n, p < N -> isRow pt p n -> (forall q, q < p -> ~ hasRow pt name q (name p n)) ->
     (nth n (v p) 0 == X (name p n))%Q /\ (nth n (w p) 0 == Y (name p n))%Q) ->
  NoDup rows -> (forall x, In x rows <-> exists p, p < N /\ hasRow pt name p x) ->
  exists r, ends N (fun p => buildAndDot 0%Q p N (pt p) (pb p) maxDistance maxRank Qplus Qmult (v p) (w p)) r
    /\ forall p, p < N -> exists s, r p = Some s /\ (s == FluxSpec.sumOver (fun x => X x * Y x) rows)%Q.
Proof.
  intros N pt d0 os name DE pb PB maxDistance maxRank HD HR v w X Y rows H ND Hrows.
  destruct (whole_system N pt d0 os name DE maxDistance maxRank HD HR) as (ddof & SY).
  eexists. split.
  - apply ends_intro. unfold done. rewrite !start_cfg. eapply dot_all; eauto.
  - intros p Hp. eexists. split; [reflexivity|]. eapply dot_result; eauto.
Qed.

(** After the construction, the black list translates exactly the announced indices whose
    row is in the overlap. *)
Theorem C68_black_list_translation :
  forall N pt d0 os name, decomposition N pt d0 os name ->
  forall pb, blackListsOf N pt name pb ->
  forall maxDistance maxRank, os <= maxDistance -> N <= maxRank ->
  exists r, ends N (fun p => @buildOverlap unit p N (pt p) (pb p) maxDistance maxRank) r
    /\ forall p, p < N -> exists row,
         rowsOf N pt d0 os name p (ovDomestic (r p)) row
         /\ blackOk (ovBlack (r p)) = true
         /\ forall n i, nativeToDomesticOf n (blackIdx (ovBlack (r p))) = Some i <->
              (exists q j, q < N /\ In (n, j) (bget p (pb q)))
              /\ i < domSize (ovDomestic (r p)) /\ row i = name p n.
Proof.
  intros N pt d0 os name DE pb PB maxDistance maxRank HD HR.
  destruct (whole_system N pt d0 os name DE maxDistance maxRank HD HR) as (ddof & SY).
  eexists. split.
  - apply ends_intro. unfold done. rewrite !start_cfg. eapply build_all; eauto.
  - intros p Hp. exists (ddof p).
    split; [eapply rows_of; eauto|]. eapply black_of; eauto.
Qed.

(* ----- examples ----- *)

(** The chain of three processes (ForeignProps.v): seven rows, 2 and 4 on two processes. *)
Definition chainName (p i : nat) : nat := 2 * p + i.

Lemma chain_decomposition : forall os, decomposition 3 (chain 0 os) 0 os chainName.
Proof.
  intros os. split.
  - apply chain_borders.
  - intros _. apply chain_common.
  - intros _. apply chain_undirected.
  - split.
    + intros p i j Hp _ _. unfold chainName. lia.
    + intros _ p i q j Hp Hq Hpq Hi Hj. apply chain_row in Hi; [|auto]. apply chain_row in Hj; [|auto].
      rewrite chain_lists. unfold chainName.
      destruct p as [|[|[|p]]]; destruct q as [|[|[|q]]]; lia.
    + lia.
    + intros p i q j Hp H. eapply (co_row _ _ (chain_same 0 os)); eauto.
    + intros p Hp. destruct p as [|[|p]]; cbn [chain border map localIdx peerRank]; repeat constructor; cbn [In]; intuition congruence.
  - lia.
Qed.

(** Two processes of a chain of four elements, each with a black-listed copy of the other's
    element next to the boundary. *)
Definition ghosted (os p : nat) : partition :=
  match p with
  | 0 => mkPartition 3 (chainColumns 3) [mkBorder 1 0 1 1] (fun i => i =? 2) os
  | _ => mkPartition 3 (fun i => match i with 0 => [0; 1; 2] | 1 => [0; 1] | _ => [0; 2] end)
           [mkBorder 0 1 0 1] (fun i => i =? 2) os
  end.

Definition ghostName (p i : nat) : nat :=
  match p with 0 => i | _ => match i with 2 => 1 | _ => 2 + i end end.

Definition ghostLists (p : nat) : peerBlackLists :=
  match p with 0 => [(1, [(2, 1)])] | _ => [(0, [(2, 0)])] end.

Lemma ghost_lists : forall os p i q j, lists (ghosted os) p i q j <->
  match p with
  | 0 => i = 1 /\ q = 1 /\ j = 0
  | _ => i = 0 /\ q = 0 /\ j = 1
  end.
Proof.
  intros os p i q j. unfold lists. destruct p as [|p]; cbn [ghosted border]; split.
  - intros (e & [<-|[]] & E1 & E2 & E3). cbn in *. auto.
  - intros (-> & -> & ->). eexists. split; [left; reflexivity|auto].
  - intros (e & [<-|[]] & E1 & E2 & E3). cbn in *. auto.
  - intros (-> & -> & ->). eexists. split; [left; reflexivity|auto].
Qed.

Lemma ghost_row : forall os p i, isRow (ghosted os) p i <-> i < 2.
Proof.
  intros os p i. unfold isRow. destruct p as [|p]; cbn [ghosted numNative blackListed]; rewrite Nat.eqb_neq; lia.
Qed.

Lemma ghost_decomposition : forall os, 1 <= os -> decomposition 2 (ghosted os) 1 os ghostName.
Proof.
  intros os Hs. split; try lia.
  - split.
    + intros p e Hp. destruct p as [|p]; cbn [ghosted border In]; intuition (subst; reflexivity).
    + intros p i q j Hp H. apply ghost_lists in H. destruct p as [|[|p]]; lia.
    + intros p i q j Hp H. apply ghost_lists in H.
      destruct p as [|[|p]]; [| |lia]; destruct H as (-> & -> & ->).
      * exists 1, 0. apply ghost_lists. auto.
      * exists 0, 1. apply ghost_lists. auto.
    + intros p Hp. destruct p as [|p]; reflexivity.
  - split; try lia.
    + intros p i j Hp Hi Hj. apply ghost_row in Hi. apply ghost_row in Hj. unfold ghostName.
      destruct p as [|p]; [auto|]. destruct i as [|[|i]], j as [|[|j]]; lia.
    + intros _ p i q j Hp Hq Hpq Hi Hj. apply ghost_row in Hi. apply ghost_row in Hj. unfold ghostName.
      destruct p as [|[|p]], q as [|[|q]]; try lia; destruct i as [|[|i]], j as [|[|j]]; lia.
    + intros p i q j Hp H. apply ghost_lists in H. apply ghost_row. destruct p; lia.
    + intros p Hp. destruct p as [|p]; cbn [ghosted border map localIdx peerRank]; repeat constructor; cbn [In]; intuition congruence.
Qed.

Lemma ghost_black : forall os, blackListsOf 2 (ghosted os) ghostName ghostLists.
Proof.
  intros os. split.
  - split.
    + intros p q Hp. destruct p as [|[|p]]; cbn; lia.
    + intros p Hp. destruct p as [|p]; cbn; repeat constructor; auto.
    + intros p q Hp. destruct p as [|[|p]]; cbn; [| |lia]; intros [<-|[]]; cbn; auto.
  - intros p q n i Hp. destruct p as [|[|p]]; [| |lia]; destruct q as [|[|q]]; cbn; intuition (try congruence);
      match goal with H : (_, _) = (_, _) |- _ => injection H as <- <- end; try (apply ghost_row; lia); reflexivity.
Qed.

Lemma no_black : forall N pt name, blackListsOf N pt name (fun _ => []).
Proof.
  intros N pt name. split.
  - split; cbn; intuition; constructor.
  - cbn. intuition.
Qed.

(** What rank 0 adds up on the chain with an overlap of one entry, row by row: the values
    of all processes for the rows 2 and 4. *)
Definition chainValues (p : nat) : list Q :=
  match p with 0 => [1; 2; 3]%Q | 1 => [10; 20; 30]%Q | _ => [100; 200; 300]%Q end.

Example chain_sums :
  map (rowSum 3 (chain 0 1) chainName chainValues) [0; 1; 2; 3; 4; 5; 6]
  = [1; 2; 13; 20; 130; 200; 300]%Q.
Proof. vm_compute. reflexivity. Qed.

Example chain_adds :
  exists r, ends 3 (fun p => buildAndAdd 0%Q p 3 (chain 0 1 p) [] 1 3 Qplus (chainValues p)) r
    /\ forall p, p < 3 -> exists row y,
         rowsOf 3 (chain 0 1) 0 1 chainName p (ovDomestic (fst (r p))) row
         /\ snd (r p) = Some y /\ length y = domSize (ovDomestic (fst (r p)))
         /\ forall i, i < length y -> (nth i y 0 == rowSum 3 (chain 0 1) chainName chainValues (row i))%Q.
Proof.
  apply (C36_assembled_vector_holds_the_sum_over_all_processes 3 (chain 0 1) 0 1 chainName (chain_decomposition 1)
    (fun _ => []) (no_black _ _ _)); lia.
Qed.

(** The scalar product of (1, 1, ...) with itself on the chain counts the seven rows. *)
Example chain_dot :
  exists r, ends 3 (fun p => buildAndDot 0%Q p 3 (chain 0 1 p) [] 1 3 Qplus Qmult [1; 1; 1]%Q [1; 1; 1]%Q) r
    /\ forall p, p < 3 -> exists s, r p = Some s /\ (s == 7)%Q.
Proof.
  destruct (C37_scalar_product_of_assembled_vectors 3 (chain 0 1) 0 1 chainName (chain_decomposition 1)
    (fun _ => []) (no_black _ _ _) 1 3 ltac:(lia) ltac:(lia) (fun _ => [1; 1; 1]%Q) (fun _ => [1; 1; 1]%Q)
    (fun _ => 1%Q) (fun _ => 1%Q) (seq 0 7)) as (r & H & K).
  - intros p n Hp Hr _. apply chain_row in Hr; [|auto].
    assert (n < 3) by (destruct p as [|[|p]]; lia). destruct n as [|[|[|n]]]; cbn [nth]; [split; reflexivity..|lia].
  - apply seq_NoDup.
  - intros x. rewrite in_seq. split.
    + intros Hx. exists (if x <? 3 then 0 else if x <? 5 then 1 else 2).
      destruct (Nat.ltb_spec x 3); [|destruct (Nat.ltb_spec x 5)]; (split; [lia|]); unfold hasRow, chainName.
      * exists x. split; [apply chain_row; lia|lia].
      * exists (x - 2). split; [apply chain_row; lia|lia].
      * exists (x - 4). split; [apply chain_row; lia|lia].
    + intros (p & Hp & i & Hr & E). apply chain_row in Hr; [|auto]. unfold chainName in E.
      destruct p as [|[|[|p]]]; lia.
  - exists r. split; [exact H|]. intros p Hp. destruct (K p Hp) as (s & Es & Ev). exists s. split; [exact Es|].
    rewrite Ev. vm_compute. reflexivity.
Qed.

(** On the two processes with ghosts, the black-listed index 2 of each process becomes the
    index of the other's element in its overlap. *)
Example ghost_translation :
  exists r, ends 2 (fun p => @buildOverlap unit p 2 (ghosted 1 p) (ghostLists p) 1 2) r
    /\ forall p, p < 2 -> exists i, nativeToDomesticOf 2 (blackIdx (ovBlack (r p))) = Some i.
Proof.
  destruct (C68_black_list_translation 2 (ghosted 1) 1 1 ghostName (ghost_decomposition 1 ltac:(lia))
    ghostLists (ghost_black 1) 1 2 ltac:(lia) ltac:(lia)) as (r & H & K).
  exists r. split; [exact H|]. intros p Hp. destruct (K p Hp) as (row & RO & _ & T).
  assert (I : inOverlap 2 (ghosted 1) 1 1 ghostName p (ghostName p 2)).
  { right. destruct p as [|[|p]]; [| |lia].
    - exists 1, 0, 0. split; [lia|]. split; [|reflexivity].
      apply reaches_border with (j := 1); [lia|apply ghost_row; lia|]. apply ghost_lists. auto.
    - exists 0, 1, 0. split; [lia|]. split; [|reflexivity].
      apply reaches_border with (j := 0); [lia|apply ghost_row; lia|]. apply ghost_lists. auto. }
  apply (ro_all _ _ _ _ _ _ _ _ RO) in I. destruct I as (i & Hi & E). exists i. apply T. split; [|auto].
  destruct p as [|[|p]]; [| |lia].
  - exists 1, 0. cbn. auto.
  - exists 0, 1. cbn. auto.
Qed.

(** [syncAdd] does not make the copies equal if the copies outside the interior and the
    border are not zero: their values are not sent to the others.  On the chain with an
    overlap of one entry, row 3 is on rank 1 and in the overlap of rank 0; if all copies are
    1 before, then rank 0 has 2 for it afterwards and rank 1 still 1. *)
Theorem C36_sync_add_equal_copies_refuted :
  exists N fo shared dof number total ddof dom buf (x y : nat -> list Q),
    system N fo shared dof number total ddof dom
    /\ (forall p, p < N -> buffersOf fo shared dof (ddof p) (domSize (dom p)) p (buf p))
    /\ (forall p, p < N -> length (x p) = domSize (dom p))
    /\ ends N (fun p => syncAdd (fo p) 0%Q Qplus (buf p) (x p)) (fun p => Some (y p))
    /\ exists p q i j, p < N /\ q < N /\ i < domSize (dom p) /\ j < domSize (dom q)
       /\ ddof p i = ddof q j /\ ~ (nth i (y p) 0 == nth j (y q) 0)%Q.
Proof.
  pose proof (chain_decomposition 1) as DE.
  destruct (whole_system 3 (chain 0 1) 0 1 chainName DE 1 3 ltac:(lia) ltac:(lia)) as (ddof & SY).
  destruct (C36_a_new_vector_has_matching_buffers _ _ _ _ _ _ _ _ SY) as (buf & _ & BF).
  set (dom := PipelineRun.dom (chain 0 1) 0 1 1 3) in *.
  set (x := fun p => repeat 1%Q (domSize (dom p))).
  assert (LX : forall p, p < 3 -> length (x p) = domSize (dom p)) by (intros; apply repeat_length).
  destruct (C36_sync_add_adds_the_values_of_the_other_processes _ _ _ _ _ _ _ _ SY buf BF Q 0%Q Qplus x LX)
    as (y & EN & Y).
  exists 3, (PipelineProofs.fo (chain 0 1) 0 1), (PipelineProofs.shared (chain 0 1) 0 1),
    (PipelineProofs.dof (chain 0 1) chainName), (theNumber 3 (chain 0 1) 0 1 chainName),
    (offset (PipelineProofs.fo (chain 0 1) 0 1) 3), ddof, dom, buf, x,
    (fun p => match y p with Some z => z | None => [] end).
  split; [exact SY|]. split; [exact BF|]. split; [exact LX|]. split.
  { assert (ED : done 3 (fun p => Some (match y p with Some z => z | None => [] end)) = @done (bmsg Q) _ 3 y).
    { unfold done. rewrite !start_cfg. apply cfg_ext; [|auto].
      intros p Hp. destruct (Y p Hp) as (z & -> & _). reflexivity. }
    destruct EN as [E1 E2 E3]. split; [exact E1| |]; rewrite ED; [exact E2|exact E3]. }
  assert (RO : forall p, p < 3 -> rowsOf 3 (chain 0 1) 0 1 chainName p (dom p) (ddof p)).
  { intros p Hp. apply (rows_of 3 (chain 0 1) 0 1 chainName DE 1 3 ltac:(lia) ltac:(lia) ddof SY p Hp). }
  assert (R0 : inOverlap 3 (chain 0 1) 0 1 chainName 0 3).
  { right. exists 1, 1, 1. split; [lia|]. split; [|reflexivity].
    eapply reaches_entry with (i := 0).
    - apply reaches_border with (j := 2); [lia|apply chain_row; lia|]. apply chain_lists. auto.
    - cbn. auto.
    - apply chain_row; lia. }
  assert (R1 : inOverlap 3 (chain 0 1) 0 1 chainName 1 3).
  { left. exists 1. split; [apply chain_row; lia|reflexivity]. }
  apply (ro_all _ _ _ _ _ _ _ _ (RO 0 ltac:(lia))) in R0. destruct R0 as (i & Hi & Ei).
  apply (ro_all _ _ _ _ _ _ _ _ (RO 1 ltac:(lia))) in R1. destruct R1 as (j & Hj & Ej).
  exists 0, 1, i, j. do 4 (split; [auto|]). split; [congruence|].
  destruct (Y 0 ltac:(lia)) as (z0 & -> & _ & Z0). destruct (Y 1 ltac:(lia)) as (z1 & -> & _ & Z1).
  destruct (Z0 i Hi) as (c0 & C0 & ->). destruct (Z1 j Hj) as (c1 & C1 & ->).
  rewrite Ei in C0. rewrite Ej in C1.
  assert (D : forall q l, q < 3 -> l < numLocal (PipelineProofs.fo (chain 0 1) 0 1 q) ->
     (PipelineProofs.dof (chain 0 1) chainName q l = 3 <-> q = 1 /\ l = 1)).
  { intros q l Hq. destruct q as [|[|[|q]]]; [| | |lia]; vm_compute PipelineProofs.fo; cbn [numLocal];
    change (numLocal _) with 3; intros Hl; (destruct l as [|[|[|l]]]; [| | |lia]); vm_compute; split; intuition congruence. }
  assert (E1 : c1 = []).
  { destruct c1 as [|[q l] c1]; [reflexivity|exfalso].
    destruct (proj1 (proj2 C1 q l) (or_introl eq_refl)) as (Hq & Hn & Hl & Ed). apply D in Ed; tauto. }
  assert (E0 : c0 = [(1, 1)]).
  { destruct C0 as [S0 C0].
    assert (K : In (1, 1) c0). { apply C0. split; [lia|]. split; [lia|]. split; [vm_compute; lia|]. vm_compute. reflexivity. }
    assert (A : forall e, In e c0 -> e = (1, 1)).
    { intros [q l] He. apply C0 in He. destruct He as (Hq & Hn & Hl & Ed). apply D in Ed; [|auto|auto].
      destruct Ed as [-> ->]. reflexivity. }
    destruct c0 as [|e0 c0]; [destruct K|]. rewrite (A e0 (or_introl eq_refl)) in *. f_equal.
    destruct c0 as [|e1 c0]; [reflexivity|exfalso]. rewrite (A e1 (or_intror (or_introl eq_refl))) in S0.
    cbn in S0. inversion S0 as [|? ? _ F]. inversion F. lia. }
  rewrite E0, E1. cbn [map fold_left fst snd].
  assert (X : forall p k, k < domSize (dom p) -> nth k (x p) 0%Q = 1%Q).
  { intros p k Hk. unfold x. generalize dependent (domSize (dom p)). intros n; revert k.
    induction n; intros k Hk; [lia|]. destruct k; cbn; auto. apply IHn. lia. }
  assert (H11 : 1 < domSize (dom 1)).
  { destruct (ro_local _ _ _ _ _ _ _ _ (RO 1 ltac:(lia)) 1 1 eq_refl). auto. }
  rewrite (X 0 i Hi), (X 1 j Hj), (X 1 1 H11). discriminate.
Qed.

Print Assumptions C36_sync_gives_every_copy_the_value_of_its_master.
Print Assumptions C36_sync_add_adds_the_values_of_the_other_processes.
Print Assumptions C36_a_new_vector_has_matching_buffers.
Print Assumptions C37_scalar_product_counts_every_index_once.
Print Assumptions C36_assembled_vector_holds_the_sum_over_all_processes.
Print Assumptions C36_assigned_vector_holds_the_values_of_the_masters.
Print Assumptions C37_scalar_product_of_assembled_vectors.
Print Assumptions C68_black_list_translation.
Print Assumptions C36_sync_add_equal_copies_refuted.
