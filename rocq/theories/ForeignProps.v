(** * C35: the overlap consists of the rows within the requested distance *)

From Coq Require Import Arith List Bool Lia Sorted.
From Verif Require Import MpiModel MpiSpec MpiProofs MpiLemmas MpiExchange ExchangeModel
  GlobalIndexModel GlobalIndexProofs ForeignModel ForeignSpec ForeignProofs ForeignReach.
Import ListNotations.

(** Whatever the schedule, the construction ends on all processes, and a row of rank p is
    in the overlap of rank q if and only if it can be reached over at most as many matrix
    entries as requested; the recorded distance is the smallest one. *)
Theorem C35_overlap_is_exactly_the_reachable_rows : forall N pt d0 os,
  borders N pt d0 os -> (d0 = 0 -> common N pt) -> d0 <= os ->
  exists res, ends N (fun p => buildForeignOverlap (pt p)) res
    /\ forall p, p < N -> defined (res p) = true
       /\ forall i l q d, toLocal (pt p) i = Some l ->
          (mget q (nth l (byIndex (res p)) []) = Some d <->
           exists k, d = d0 + k /\ d <= os /\ distance N pt d0 p q k i).
Proof.
  intros N pt d0 os HB HC Hs. exists (foreignResult pt d0 os). split; [apply build_run; auto|].
  intros p Hp. destruct (result_spec N pt d0 os HB HC p Hp) as (H1 & H2 & H3 & H4 & H5).
  split; [exact H1|]. intros i l q d Hl. rewrite (H4 i l q d Hl). split.
  - intros (k & E & Hk & D). exists k. split; [auto|]. split; [lia|auto].
  - intros (k & E & Hk & D). exists k. split; [auto|]. split; [lia|auto].
Qed.

(** The list of the rows which rank p shares with rank q: each row once, in ascending
    order. *)
Theorem C35_overlap_with_a_peer : forall N pt d0 os,
  borders N pt d0 os -> (d0 = 0 -> common N pt) -> d0 <= os ->
  exists res, ends N (fun p => buildForeignOverlap (pt p)) res
    /\ forall p q, p < N ->
       StronglySorted lt (map fst (overlapWith (pt p) (res p) q))
       /\ forall l d, In (l, d) (overlapWith (pt p) (res p) q) <->
          exists i k, toLocal (pt p) i = Some l /\ d = d0 + k /\ d <= os /\ distance N pt d0 p q k i.
Proof.
  intros N pt d0 os HB HC Hs. exists (foreignResult pt d0 os). split; [apply build_run; auto|].
  intros p q Hp. apply (overlapWith_spec N pt d0 os HB HC Hs p q Hp).
Qed.

(** The peers are the neighbors and the ranks in whose overlap there is a row. *)
Theorem C35_peers : forall N pt d0 os,
  borders N pt d0 os -> (d0 = 0 -> common N pt) -> d0 <= os ->
  exists res, ends N (fun p => buildForeignOverlap (pt p)) res
    /\ forall p, p < N -> StronglySorted lt (peerRanks (res p))
       /\ forall q, In q (peerRanks (res p)) <->
          (exists i j, lists pt p i q j) \/ (exists i k, d0 + k <= os /\ distance N pt d0 p q k i).
Proof.
  intros N pt d0 os HB HC Hs. exists (foreignResult pt d0 os). split; [apply build_run; auto|].
  intros p Hp. destruct (result_spec N pt d0 os HB HC p Hp) as (H1 & H2 & H3 & H4 & H5 & H6).
  split; [exact H5|]. intros q. rewrite H6, neighbors_lists. split; (intros [H|H]; [auto|right]).
  - destruct H as (k & i & Hk & D). exists i, k. split; [lia|auto].
  - destruct H as (i & k & Hk & D). exists k, i. split; [lia|auto].
Qed.

(** On an undirected matrix graph two processes are peers of each other, or neither is. *)
Theorem C35_peers_are_mutual : forall N pt os,
  borders N pt 0 os -> common N pt -> undirected N pt ->
  exists res, ends N (fun p => buildForeignOverlap (pt p)) res
    /\ forall p q, p < N -> In q (peerRanks (res p)) ->
       q < N /\ q <> p /\ In p (peerRanks (res q)).
Proof.
  intros N pt os HB HC HU. exists (foreignResult pt 0 os). split; [apply build_run; auto; lia|].
  assert (S : symmetric N (fun p => peerRanks (foreignResult pt 0 os p))).
  { apply (peers_symmetric N pt 0 os HB (fun _ => HC)); [lia|reflexivity|exact HU]. }
  intros p q Hp Hq. destruct (sy_range _ _ S p q Hp Hq). repeat split; auto.
  apply (sy_sym _ _ S p q Hp Hq).
Qed.

(* ----- examples ----- *)

(** Three processes on a chain of seven rows 0, ..., 6: rank 0 has 0, 1, 2, rank 1 has
    2, 3, 4 and rank 2 has 4, 5, 6.  The indices of rank 1 are [off] behind, the first ones
    being black-listed. *)
Definition chainColumns (n i : nat) : list nat :=
  (if i =? 0 then [] else [i - 1]) ++ [i] ++ (if S i <? n then [S i] else []).

Definition chain (off os p : nat) : partition :=
  match p with
  | 0 => mkPartition 3 (chainColumns 3) [mkBorder 2 off 1 0] (fun _ => false) os
  | 1 => mkPartition (off + 3) (chainColumns (off + 3))
           [mkBorder off 2 0 0; mkBorder (off + 2) 0 2 0] (fun i => i <? off) os
  | _ => mkPartition 3 (chainColumns 3) [mkBorder 0 (off + 2) 1 0] (fun _ => false) os
  end.

Lemma chain_lists : forall off os p i q j, lists (chain off os) p i q j <->
  match p with
  | 0 => i = 2 /\ q = 1 /\ j = off
  | 1 => (i = off /\ q = 0 /\ j = 2) \/ (i = off + 2 /\ q = 2 /\ j = 0)
  | _ => i = 0 /\ q = 1 /\ j = off + 2
  end.
Proof.
  intros off os p i q j. unfold lists. destruct p as [|[|p]]; cbn [chain border]; split.
  - intros (e & [<-|[]] & E1 & E2 & E3). cbn in *. auto.
  - intros (-> & -> & ->). eexists. split; [left; reflexivity|auto].
  - intros (e & [<-|[<-|[]]] & E1 & E2 & E3); cbn in *; auto.
  - intros [(-> & -> & ->)|(-> & -> & ->)]; eexists.
    + split; [left; reflexivity|auto].
    + split; [right; left; reflexivity|auto].
  - intros (e & [<-|[]] & E1 & E2 & E3). cbn in *. auto.
  - intros (-> & -> & ->). eexists. split; [left; reflexivity|auto].
Qed.

Lemma chain_borders : forall off os, borders 3 (chain off os) 0 os.
Proof.
  intros off os. split.
  - intros p e Hp. destruct p as [|[|p]]; cbn [chain border In]; intuition (subst; reflexivity).
  - intros p i q j Hp H. apply chain_lists in H. destruct p as [|[|[|p]]]; lia.
  - intros p i q j Hp H. apply chain_lists in H.
    destruct p as [|[|[|p]]]; [| | |lia].
    + destruct H as (-> & -> & ->). exists 2, off. apply chain_lists. auto.
    + destruct H as [(-> & -> & ->)|(-> & -> & ->)].
      * exists off, 2. apply chain_lists. auto.
      * exists (off + 2), 0. apply chain_lists. auto.
    + destruct H as (-> & -> & ->). exists 0, (off + 2). apply chain_lists. auto.
  - intros p Hp. destruct p as [|[|p]]; reflexivity.
Qed.

Lemma chain_row : forall off os p i, p < 3 -> (isRow (chain off os) p i <->
  match p with 1 => off <= i < off + 3 | _ => i < 3 end).
Proof.
  intros off os p i Hp. unfold isRow. destruct p as [|[|[|p]]]; cbn [chain numNative blackListed]; [| | |lia];
    try tauto.
  rewrite Nat.ltb_ge. lia.
Qed.

Lemma chain_same : forall off os, sameRows 3 (chain off os).
Proof.
  intros off os. split.
  - intros p i q j Hp H. apply chain_lists in H. apply chain_row; [auto|].
    destruct p as [|[|[|p]]]; lia.
  - intros p i q j Hp H. apply chain_lists in H. apply chain_lists.
    destruct p as [|[|[|p]]]; destruct q as [|[|[|q]]]; lia.
  - intros p i q j j' Hp H K. apply chain_lists in H. apply chain_lists in K.
    destruct p as [|[|[|p]]]; lia.
  - intros p i q j r l Hp H K Hr. apply chain_lists in H. apply chain_lists in K. apply chain_lists.
    destruct p as [|[|[|p]]]; destruct q as [|[|[|q]]]; lia.
Qed.

Lemma chain_common : forall os, common 3 (chain 0 os).
Proof.
  intros os. split; [apply chain_same|].
  intros p i j Hp H Hij. apply chain_row in H; [|auto]. apply chain_row; [auto|].
  destruct p as [|[|p]]; lia.
Qed.

Lemma chain_undirected : forall off os, undirected 3 (chain off os).
Proof.
  intros off os p i j Hp Hi Hj. apply chain_row in Hi; [|auto]. apply chain_row in Hj; [|auto].
  assert (G : forall n i j, i < n -> j < n -> In j (chainColumns n i) -> In i (chainColumns n j)).
  { clear. intros n i j Hi Hj. unfold chainColumns. rewrite !in_app_iff.
    destruct (Nat.eqb_spec i 0), (Nat.eqb_spec j 0), (Nat.ltb_spec (S i) n), (Nat.ltb_spec (S j) n);
      cbn [In]; lia. }
  destruct p as [|[|[|p]]]; cbn [chain columns]; [| | |lia]; apply G; lia.
Qed.

(** With an overlap of two entries, the first row of rank 2 is in the overlap of rank 0,
    which rank 2 has no common row with. *)
Lemma chain_reaches : forall off os, reaches 3 (chain off os) 0 2 0 2 0.
Proof.
  intros off os.
  assert (R0 : reaches 3 (chain off os) 0 1 0 0 off).
  { apply (reaches_border _ _ _ 1 0 off 2); [lia|apply chain_row; lia|apply chain_lists; auto]. }
  assert (R1 : reaches 3 (chain off os) 0 1 0 1 (S off)).
  { apply (reaches_entry _ _ _ 1 0 0 off); [auto| |apply chain_row; lia].
    cbn [chain columns]. unfold chainColumns. rewrite !in_app_iff.
    destruct (Nat.ltb_spec (S off) (off + 3)); [|lia]. right. right. left. reflexivity. }
  assert (R2 : reaches 3 (chain off os) 0 1 0 2 (off + 2)).
  { apply (reaches_entry _ _ _ 1 0 1 (S off)); [auto| |apply chain_row; lia].
    cbn [chain columns]. unfold chainColumns. rewrite !in_app_iff.
    destruct (Nat.ltb_spec (S (S off)) (off + 3)); [|lia]. right. right. left. lia. }
  apply (reaches_common _ _ _ 1 0 2 (off + 2) 2 0); [auto|auto| |lia].
  apply chain_lists. auto.
Qed.

Example exChain :
  exists res, ends 3 (fun p => buildForeignOverlap (chain 0 2 p)) res
    /\ forall p, p < 3 -> defined (res p) = true
       /\ forall i l q d, toLocal (chain 0 2 p) i = Some l ->
          (mget q (nth l (byIndex (res p)) []) = Some d <->
           exists k, d = 0 + k /\ d <= 2 /\ distance 3 (chain 0 2) 0 p q k i).
Proof.
  apply C35_overlap_is_exactly_the_reachable_rows; [apply chain_borders|intros; apply chain_common|lia].
Qed.

Example exChainOverlaps :
  map (fun p => map (overlapWith (chain 0 2 p) (foreignResult (chain 0 2) 0 2 p)) [0; 1; 2]) [0; 1; 2]
  = [[[]; [(0, 2); (1, 1); (2, 0)]; [(2, 2)]];
     [[(0, 0); (1, 1); (2, 2)]; []; [(0, 2); (1, 1); (2, 0)]];
     [[(0, 2)]; [(0, 0); (1, 1); (2, 2)]; []]].
Proof. vm_compute. reflexivity. Qed.

(** If black-listed rows precede other ones, local and native indices are confused (lines
    479-496 and 566-590): rows which are reachable are not in the overlap. *)
Theorem C35_overlap_with_mixed_black_list_refuted :
  exists N pt os res p q k i l,
    borders N pt 0 os /\ sameRows N pt /\ undirected N pt
    /\ ends N (fun p => buildForeignOverlap (pt p)) res
    /\ p < N /\ toLocal (pt p) i = Some l /\ k <= os /\ reaches N pt 0 p q k i
    /\ mget q (nth l (byIndex (res p)) []) = None.
Proof.
  exists 3, (chain 1 2), 2, (foreignResult (chain 1 2) 0 2), 2, 0, 2, 0, 0.
  split; [apply chain_borders|]. split; [apply chain_same|]. split; [apply chain_undirected|].
  split; [apply (build_run 3 (chain 1 2) 0 2 (chain_borders 1 2)); lia|].
  split; [lia|]. split; [reflexivity|]. split; [lia|]. split; [apply chain_reaches|].
  vm_compute. reflexivity.
Qed.

(** Two processes with two elements each, which list the elements of each other next to
    the boundary, with distance 1. *)
Definition pair_ (os p : nat) : partition :=
  match p with
  | 0 => mkPartition 2 (fun _ => [0; 1]) [mkBorder 1 0 1 1] (fun _ => false) os
  | _ => mkPartition 2 (fun _ => [0; 1]) [mkBorder 0 1 0 1] (fun _ => false) os
  end.

Lemma pair_lists : forall os p i q j, lists (pair_ os) p i q j <->
  match p with
  | 0 => i = 1 /\ q = 1 /\ j = 0
  | _ => i = 0 /\ q = 0 /\ j = 1
  end.
Proof.
  intros os p i q j. unfold lists. destruct p as [|p]; cbn [pair_ border]; split.
  - intros (e & [<-|[]] & E1 & E2 & E3). cbn in *. auto.
  - intros (-> & -> & ->). eexists. split; [left; reflexivity|auto].
  - intros (e & [<-|[]] & E1 & E2 & E3). cbn in *. auto.
  - intros (-> & -> & ->). eexists. split; [left; reflexivity|auto].
Qed.

Lemma pair_borders : forall os, borders 2 (pair_ os) 1 os.
Proof.
  intros os. split.
  - intros p e Hp. destruct p as [|p]; cbn [pair_ border In]; intuition (subst; reflexivity).
  - intros p i q j Hp H. apply pair_lists in H. destruct p as [|[|p]]; lia.
  - intros p i q j Hp H. apply pair_lists in H.
    destruct p as [|[|p]]; [| |lia]; destruct H as (-> & -> & ->).
    + exists 1, 0. apply pair_lists. auto.
    + exists 0, 1. apply pair_lists. auto.
  - intros p Hp. destruct p as [|p]; reflexivity.
Qed.

Example exPair :
  exists res, ends 2 (fun p => buildForeignOverlap (pair_ 1 p)) res
    /\ forall p, p < 2 -> defined (res p) = true
       /\ forall i l q d, toLocal (pair_ 1 p) i = Some l ->
          (mget q (nth l (byIndex (res p)) []) = Some d <->
           exists k, d = 1 + k /\ d <= 1 /\ distance 2 (pair_ 1) 1 p q k i).
Proof.
  apply C35_overlap_is_exactly_the_reachable_rows; [apply pair_borders|lia|lia].
Qed.

(** Without the premise that the requested size is at least the distance of the border
    list: no row is within the distance 0, but the rows of the border list are in the
    overlap, with distance 0. *)
Theorem C35_overlap_of_size_zero_refuted :
  exists N pt d0 os res p q l,
    borders N pt d0 os /\ os < d0 /\ ends N (fun p => buildForeignOverlap (pt p)) res
    /\ p < N /\ mget q (nth l (byIndex (res p)) []) = Some 0
    /\ forall e, In e (border (pt p)) -> borderDistance e = 1.
Proof.
  exists 2, (pair_ 0), 1, 0, (levelsDone (pair_ 0) 0 0 (fun p => initialState (pair_ 0 p))), 0, 1, 1.
  split; [apply pair_borders|]. split; [lia|]. split.
  - apply ends_intro. unfold done. rewrite !start_cfg.
    rewrite (cfg_ext _ 2 (fun p => buildForeignOverlap (pair_ 0 p))
       (fun p => extend (pair_ 0 p) 0 0 (initialState (pair_ 0 p))) noMsg noMsg); auto.
    + apply (extend_run 2 (pair_ 0) 1 0 (pair_borders 0)).
    + intros p Hp. destruct p as [|p]; reflexivity.
  - split; [lia|]. split; [vm_compute; reflexivity|].
    cbn. intros e [<-|[]]. reflexivity.
Qed.

Print Assumptions C35_overlap_is_exactly_the_reachable_rows.
Print Assumptions C35_overlap_with_a_peer.
Print Assumptions C35_peers.
Print Assumptions C35_peers_are_mutual.
Print Assumptions C35_overlap_with_mixed_black_list_refuted.
Print Assumptions C35_overlap_of_size_zero_refuted.
