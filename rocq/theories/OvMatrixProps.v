(** * C80, C81: distributed matrices and the parallel operator *)

From Coq Require Import Arith List Bool Lia QArith Sorted.
From Verif Require Import MpiModel MpiSpec MpiProofs MpiLemmas MpiExchange ExchangeModel
  GlobalIndexModel GlobalIndexSpec GlobalIndexProofs ForeignModel ForeignSpec ForeignProofs ForeignReach ForeignProps
  DomesticModel DomesticSpec DomesticProofs VectorModel VectorSpec VectorProofs VectorSums
  PipelineModel PipelineSpec PipelineProofs PipelineRun VectorProps
  OvMatrixModel OvMatrixSpec OvMatrixProofs OvMatrixValues OvMatrixSums OvMatrixRun.
From Verif Require FluxSpec ResidualProofs.
Import ListNotations.
Local Open Scope nat_scope.

(** From the matrix graphs, the border lists and the black lists of all processes: the
    overlaps and the matrix are built and the values of the native matrices are set.  Every
    schedule ends.  Then the matrix of each process has an entry for exactly the pairs of
    its rows and columns for which some process has one, and the value is the sum of its
    own value (zero if it has none) and those of the other processes in the order of the
    ranks; this holds for every addition, also for one which rounds. *)
Theorem C80_assembled_matrix_has_the_entries_of_all_processes :
  forall N pt d0 os name, decomposition N pt d0 os name ->
  forall pb, blackListsOf N pt name pb ->
  forall maxDistance maxRank, os <= maxDistance -> N <= maxRank ->
  columnsOnce N pt name ->
  forall (V : Type) (zero : V) add native, onGraph N pt native ->
  exists r, ends N (fun p => buildAndAssemble zero add p N (pt p) (pb p) maxDistance maxRank (native p)) r
    /\ forall p, p < N -> exists row o st m, r p = (o, st, Some m)
         /\ rowsOf N pt d0 os name p (ovDomestic o) row
         /\ mxOk st = true /\ length (mxColumns st) = domSize (ovDomestic o)
         /\ (forall i j, In j (nth i (mxColumns st) []) <->
              i < domSize (ovDomestic o) /\ j < domSize (ovDomestic o)
              /\ exists q v, q < N /\ rowEntry N pt d0 os name pb native q (row i) (row j) v)
         /\ forall i j, In j (nth i (mxColumns st) []) ->
              exists s c, (rowEntry N pt d0 os name pb native p (row i) (row j) s
                           \/ s = zero /\ forall v, ~ rowEntry N pt d0 os name pb native p (row i) (row j) v)
                /\ otherRowEntries N pt d0 os name pb native p (row i) (row j) c
                /\ m i j = fold_left add (map snd c) s.
Proof.
  intros N pt d0 os name DE pb PB maxDistance maxRank HD HR ONCE V zero add native GR.
  destruct (whole_system N pt d0 os name DE maxDistance maxRank HD HR) as (ddof & SY).
  destruct (assembled N pt d0 os name DE pb PB maxDistance maxRank HD HR ddof SY native GR ONCE zero add) as (m & A & R).
  eexists. split.
  - apply ends_intro. unfold done. rewrite !start_cfg. exact R.
  - intros p Hp. cbv beta.
    destruct (assembled_values N pt d0 os name DE pb PB maxDistance maxRank HD HR ddof SY native GR ONCE zero add m A p Hp) as (m' & E & H).
    rewrite E.
    destruct (structure_rows N pt d0 os name DE pb PB maxDistance maxRank HD HR ddof SY native GR ONCE p Hp) as (S1 & S2 & S3).
    exists (ddof p). do 3 eexists. split; [reflexivity|]. cbn [ovDomestic object].
    split; [apply (rows_of N pt d0 os name DE maxDistance maxRank HD HR ddof SY p Hp)|].
    split; [exact S1|]. split; [exact S2|]. split; [exact S3|].
    intros i j Hij. apply S3 in Hij. destruct Hij as (Hi & Hj & _). apply (H i j Hi Hj).
Qed.

(** With exact addition and if no column of a row has to be left out: the copy of an entry on
    every process which has its row and its column in the overlap is the entry of the global
    matrix. *)
Theorem C80_assembled_matrix_holds_the_sums_over_all_processes :
  forall N pt d0 os name, decomposition N pt d0 os name ->
  forall pb, blackListsOf N pt name pb ->
  forall maxDistance maxRank, os <= maxDistance -> N <= maxRank ->
  columnsOnce N pt name -> allUsable N pt d0 os name pb ->
  forall native, onGraph N pt native ->
  exists r, ends N (fun p => buildAndAssemble 0%Q Qplus p N (pt p) (pb p) maxDistance maxRank (native p)) r
    /\ forall p, p < N -> exists row o st m, r p = (o, st, Some m)
         /\ rowsOf N pt d0 os name p (ovDomestic o) row
         /\ (forall i j, In j (nth i (mxColumns st) []) <->
              i < domSize (ovDomestic o) /\ j < domSize (ovDomestic o)
              /\ exists q n c, q < N /\ isRow pt q n /\ In c (columns (pt q) n) /\ name q n = row i /\ name q c = row j)
         /\ forall i j, In j (nth i (mxColumns st) []) -> (m i j == globalEntry N pt name native (row i) (row j))%Q.
Proof.
  intros N pt d0 os name DE pb PB maxDistance maxRank HD HR ONCE ALL native GR.
  destruct (whole_system N pt d0 os name DE maxDistance maxRank HD HR) as (ddof & SY).
  destruct (assembled N pt d0 os name DE pb PB maxDistance maxRank HD HR ddof SY native GR ONCE 0%Q Qplus) as (m & A & R).
  eexists. split.
  - apply ends_intro. unfold done. rewrite !start_cfg. exact R.
  - intros p Hp. cbv beta.
    destruct (assembled_sum N pt d0 os name DE pb PB maxDistance maxRank HD HR ddof SY native GR ONCE ALL m A p Hp) as (m' & E & H).
    rewrite E.
    destruct (structure_rows N pt d0 os name DE pb PB maxDistance maxRank HD HR ddof SY native GR ONCE p Hp) as (S1 & S2 & S3).
    exists (ddof p). do 3 eexists. split; [reflexivity|]. cbn [ovDomestic object].
    split; [apply (rows_of N pt d0 os name DE maxDistance maxRank HD HR ddof SY p Hp)|]. split.
    + intros i j. rewrite S3. split; intros (Hi & Hj & K); (do 2 (split; [auto|])).
      * destruct K as (q & v & Hq & n & c & Hn & En & Hin & _ & Ec). exists q, n, c.
        do 2 (split; [auto|]). split; [|auto]. rewrite <- (GR q n Hq). apply (in_map fst) in Hin. exact Hin.
      * destruct K as (q & n & c & Hq & Hn & Hc & En & Ec).
        pose proof Hc as Hc'. rewrite <- (GR q n Hq) in Hc'. apply in_map_iff in Hc'. destruct Hc' as ([c' v] & <- & Hin).
        exists q, v. split; [auto|]. exists n, c'. do 3 (split; [auto|]). split; [|auto]. apply (ALL q n c' Hq Hn Hc).
    + intros i j Hij. apply S3 in Hij. destruct Hij as (Hi & Hj & _). apply (H i j Hi Hj).
Qed.

(** [assignCopy]: the value of an entry is the one of the highest other process which has it,
    and the own one only if no other has it. *)
Lemma fold_last : forall V (l : list (nat * V)) s, fold_left (fun _ v => v) (map snd l) s = snd (last l (0, s)).
Proof.
  intros V l s. rewrite <- (rev_involutive l). destruct (rev l) as [|[q v] l'] eqn:E; [reflexivity|].
  cbn [rev]. rewrite last_last, map_app, fold_left_app. reflexivity.
Qed.

Theorem C80_copied_matrix_takes_the_entry_of_the_highest_other_process :
  forall N pt d0 os name, decomposition N pt d0 os name ->
  forall pb, blackListsOf N pt name pb ->
  forall maxDistance maxRank, os <= maxDistance -> N <= maxRank ->
  columnsOnce N pt name ->
  forall (V : Type) (zero : V) native, onGraph N pt native ->
  exists r, ends N (fun p => buildAndCopy zero p N (pt p) (pb p) maxDistance maxRank (native p)) r
    /\ forall p, p < N -> exists row o st m, r p = (o, st, Some m)
         /\ rowsOf N pt d0 os name p (ovDomestic o) row
         /\ (forall i j, In j (nth i (mxColumns st) []) <->
              i < domSize (ovDomestic o) /\ j < domSize (ovDomestic o)
              /\ exists q v, q < N /\ rowEntry N pt d0 os name pb native q (row i) (row j) v)
         /\ forall i j, In j (nth i (mxColumns st) []) ->
              (exists q, q < N /\ q <> p /\ rowEntry N pt d0 os name pb native q (row i) (row j) (m i j)
                 /\ forall q' v, q' < N -> q' <> p -> rowEntry N pt d0 os name pb native q' (row i) (row j) v -> q' <= q)
              \/ (forall q v, q < N -> q <> p -> ~ rowEntry N pt d0 os name pb native q (row i) (row j) v)
                 /\ rowEntry N pt d0 os name pb native p (row i) (row j) (m i j).
Proof.
  intros N pt d0 os name DE pb PB maxDistance maxRank HD HR ONCE V zero native GR.
  destruct (C80_assembled_matrix_has_the_entries_of_all_processes N pt d0 os name DE pb PB maxDistance maxRank HD HR ONCE
     V zero (fun _ v => v) native GR) as (r & E & H).
  exists r. split; [exact E|]. intros p Hp. destruct (H p Hp) as (row & o & st & m & Er & RO & _ & _ & S3 & M).
  exists row, o, st, m. split; [exact Er|]. split; [exact RO|]. split; [exact S3|]. intros i j Hij.
  destruct (M i j Hij) as (s & c & Hs & [C1 C2] & Em). rewrite fold_last in Em.
  apply S3 in Hij. destruct Hij as (_ & _ & q0 & v0 & Hq0 & H0).
  destruct (rev c) as [|[q v] c'] eqn:Ec; apply (f_equal (@rev _)) in Ec; rewrite rev_involutive in Ec; cbn [rev] in Ec; subst c.
  - right. cbn [last snd] in Em. subst s.
    assert (K : forall q v, q < N -> q <> p -> ~ rowEntry N pt d0 os name pb native q (row i) (row j) v).
    { intros q v Hq Hne Hr. apply (proj2 (C2 q v)); auto. }
    split; [exact K|]. destruct Hs as [Hs|[-> Hs]]; [exact Hs|]. exfalso.
    destruct (Nat.eq_dec q0 p) as [->|Hne]; [apply (Hs v0 H0)|apply (K q0 v0); auto].
  - left. rewrite last_last in Em. cbn [snd] in Em. subst v. exists q.
    destruct (proj1 (C2 q (m i j))) as (K1 & K2 & K3); [apply in_or_app; right; left; auto|].
    do 3 (split; [auto|]). intros q' v' Hq' Hne' Hr'.
    assert (K : In (q', v') (rev c' ++ [(q, m i j)])) by (apply C2; auto).
    apply in_app_or in K. destruct K as [K|[K|[]]]; [|injection K as Kq _; lia].
    rewrite map_app in C1. cbn [map fst] in C1. clear -C1 K.
    induction (rev c') as [|[a b] l IH]; [destruct K|]. cbn [map fst app] in C1. inversion C1 as [|? ? N1 N2]; subst.
    destruct K as [K|K]; [|apply IH; auto]. injection K as Ka _. subst a. rewrite Forall_app in N2.
    destruct N2 as [_ N2]. inversion N2. lia.
Qed.

(* ----- the operator ----- *)

(** One application of the operator to a vector: every copy of row x of the result is the
    sum, over all processes which have the row and over the columns of their rows which the
    lowest rank m that has the row knows, of the entries times the values of the vector. *)
Theorem C81_operator_multiplies_what_the_master_of_the_row_knows :
  forall N pt d0 os name, decomposition N pt d0 os name ->
  forall pb, blackListsOf N pt name pb ->
  forall maxDistance maxRank, os <= maxDistance -> N <= maxRank ->
  columnsOnce N pt name -> allUsable N pt d0 os name pb ->
  forall native, onGraph N pt native ->
  forall (v : nat -> list Q) (X : nat -> Q),
  (forall p n, p < N -> isRow pt p n -> (forall q, q < p -> ~ hasRow pt name q (name p n)) ->
     (nth n (v p) 0 == X (name p n))%Q) ->
  forall seen, (forall p x, p < N -> (seen p x = true <-> inOverlap N pt d0 os name p x)) ->
  exists r, ends N (fun p => buildAndMultiply 0%Q Qplus Qmult p N (pt p) (pb p) maxDistance maxRank (native p) (v p)) r
    /\ forall p, p < N -> exists row y, rowsOf N pt d0 os name p (ovDomestic (fst (r p))) row
         /\ snd (r p) = Some y /\ length y = domSize (ovDomestic (fst (r p)))
         /\ forall i m, i < length y -> hasRow pt name m (row i) -> (forall q, q < m -> ~ hasRow pt name q (row i)) ->
              (nth i y 0 == seenProduct N pt name native (seen m) X (row i))%Q.
Proof.
  intros N pt d0 os name DE pb PB maxDistance maxRank HD HR ONCE ALL native GR v X VX seen SEEN.
  destruct (whole_system N pt d0 os name DE maxDistance maxRank HD HR) as (ddof & SY).
  destruct (multiplied N pt d0 os name DE pb PB maxDistance maxRank HD HR ddof SY native GR ONCE ALL v X VX seen SEEN) as (y & R & H).
  eexists. split.
  - apply ends_intro. unfold done. rewrite !start_cfg. exact R.
  - intros p Hp. cbv beta. cbn [fst snd ovDomestic object].
    pose proof (rows_of N pt d0 os name DE maxDistance maxRank HD HR ddof SY p Hp) as RO.
    destruct (H p Hp) as [L K]. exists (ddof p), (y p). split; [exact RO|]. split; [reflexivity|]. split; [exact L|].
    intros i m Hi Hm Hlow. rewrite L in Hi. destruct (ro_master _ _ _ _ _ _ _ _ RO i Hi) as [M1 M2].
    rewrite (K i Hi).
    replace m with (domMasterRank (PipelineRun.dom pt d0 os maxDistance maxRank p) i); [reflexivity|].
    destruct (Nat.lt_trichotomy m (domMasterRank (PipelineRun.dom pt d0 os maxDistance maxRank p) i)) as [K1|[->|K1]]; [|reflexivity|].
    + exfalso. apply (M2 m K1 Hm).
    + exfalso. apply (Hlow _ K1 M1).
Qed.

Lemma seen_exists : forall N pt d0 os name, decomposition N pt d0 os name ->
  forall maxDistance maxRank, os <= maxDistance -> N <= maxRank ->
  exists seen, forall p x, p < N -> (seen p x = true <-> inOverlap N pt d0 os name p x).
Proof.
  intros N pt d0 os name DE maxDistance maxRank HD HR.
  destruct (whole_system N pt d0 os name DE maxDistance maxRank HD HR) as (ddof & SY).
  exists (fun p x => existsb (fun i => ddof p i =? x) (seq 0 (domSize (PipelineRun.dom pt d0 os maxDistance maxRank p)))).
  intros p x Hp. pose proof (rows_of N pt d0 os name DE maxDistance maxRank HD HR ddof SY p Hp) as RO.
  rewrite (ro_all _ _ _ _ _ _ _ _ RO), existsb_exists. split.
  - intros (i & Hi & E). apply in_seq in Hi. apply Nat.eqb_eq in E. exists i. split; [lia|auto].
  - intros (i & Hi & E). exists i. split; [apply in_seq; lia|apply Nat.eqb_eq; auto].
Qed.

(** With an overlap of at least one entry, and if for common rows (vertices) every column of a
    row is itself a row: the operator is the product with the global matrix.  This also holds
    for the native vector to which the result is written back. *)
Theorem C81_operator_is_the_product_with_the_global_matrix :
  forall N pt d0 os name, decomposition N pt d0 os name -> 1 <= os ->
  forall pb, blackListsOf N pt name pb ->
  forall maxDistance maxRank, os <= maxDistance -> N <= maxRank ->
  columnsOnce N pt name -> allUsable N pt d0 os name pb ->
  (d0 = 0 -> forall p n c, p < N -> isRow pt p n -> In c (columns (pt p) n) -> isRow pt p c) ->
  forall native, onGraph N pt native ->
  forall (v : nat -> list Q) (X : nat -> Q),
  (forall p n, p < N -> isRow pt p n -> (forall q, q < p -> ~ hasRow pt name q (name p n)) ->
     (nth n (v p) 0 == X (name p n))%Q) ->
  exists r, ends N (fun p => buildAndMultiply 0%Q Qplus Qmult p N (pt p) (pb p) maxDistance maxRank (native p) (v p)) r
    /\ forall p, p < N -> exists row y, rowsOf N pt d0 os name p (ovDomestic (fst (r p))) row
         /\ snd (r p) = Some y /\ length y = domSize (ovDomestic (fst (r p)))
         /\ (forall i, i < length y -> (nth i y 0 == globalProduct N pt name native X (row i))%Q)
         /\ let w := assignTo (ovAsForeign p (pt p) (fst (r p))) 0%Q (numNative (pt p)) y in
            forall k, isRow pt p k -> (nth k w 0 == globalProduct N pt name native X (name p k))%Q.
Proof.
  intros N pt d0 os name DE OS pb PB maxDistance maxRank HD HR ONCE ALL OWN native GR v X VX.
  destruct (seen_exists N pt d0 os name DE maxDistance maxRank HD HR) as (seen & SEEN).
  destruct (C81_operator_multiplies_what_the_master_of_the_row_knows N pt d0 os name DE pb PB maxDistance maxRank HD HR
    ONCE ALL native GR v X VX seen SEEN) as (r & E & H).
  exists r. split; [exact E|]. intros p Hp. destruct (H p Hp) as (row & y & RO & Ey & L & K).
  exists row, y. split; [exact RO|]. split; [exact Ey|]. split; [exact L|].
  assert (G : forall i, i < length y -> (nth i y 0 == globalProduct N pt name native X (row i))%Q).
  { intros i Hi. rewrite L in Hi. destruct (ro_master _ _ _ _ _ _ _ _ RO i Hi) as [M1 M2]. rewrite <- L in Hi.
    rewrite (K i _ Hi M1 M2). set (m := domMasterRank (ovDomestic (fst (r p))) i) in *.
    assert (Hm : m < N).
    { destruct (Nat.lt_ge_cases m N) as [|Hge]; [auto|]. exfalso. rewrite L in Hi.
      assert (I : inOverlap N pt d0 os name p (row i)) by (apply (ro_all _ _ _ _ _ _ _ _ RO); eauto).
      destruct I as [I|(q & k & n & _ & Hr & En)]; [apply (M2 p); [lia|auto]|].
      destruct (reaches_ok N pt d0 os (de_borders _ _ _ _ _ DE) (de_common _ _ _ _ _ DE) _ _ _ _ Hr) as (Hq & Hk' & _).
      apply (M2 q); [lia|]. exists k. auto. }
    unfold seenProduct, globalProduct, overRows.
    apply ResidualProofs.sumOver_ext. intros q Hq. apply in_seq in Hq.
    apply ResidualProofs.sumOver_ext. intros n Hn. apply in_seq in Hn.
    destruct (blackListed (pt q) n) eqn:Eb; cbn [negb andb]; [reflexivity|].
    destruct (Nat.eqb_spec (name q n) (row i)) as [En|]; [|reflexivity].
    apply ResidualProofs.sumOver_ext. intros [c e] He. cbn [fst snd].
    rewrite (proj2 (SEEN m (name q c) Hm)); [reflexivity|].
    apply (columns_known N pt d0 os name DE pb maxDistance maxRank HD HR ALL OS OWN m q n c); try lia.
    - rewrite En. exact M1.
    - split; [lia|auto].
    - rewrite <- (GR q n ltac:(lia)). apply (in_map fst) in He. exact He. }
  split; [exact G|]. cbn zeta. intros k Hk. unfold assignTo.
  rewrite (nth_map_seq (fun n => match nativeToLocal (ovAsForeign p (pt p) (fst (r p))) n with Some l => nth l y 0%Q | None => 0%Q end))
    by (apply Hk).
  destruct (proj1 (row_local pt p k) Hk) as (l & El).
  change (nativeToLocal (ovAsForeign p (pt p) (fst (r p))) k) with (toLocal (pt p) k). rewrite El.
  destruct (ro_local _ _ _ _ _ _ _ _ RO k l El) as [Hl1 Hl2]. rewrite <- L in Hl1. rewrite (G l Hl1), Hl2. reflexivity.
Qed.

(** [applyscaleadd]: y + alpha A x. *)
Theorem C81_scaled_product_is_added :
  forall N pt d0 os name, decomposition N pt d0 os name -> 1 <= os ->
  forall pb, blackListsOf N pt name pb ->
  forall maxDistance maxRank, os <= maxDistance -> N <= maxRank ->
  columnsOnce N pt name -> allUsable N pt d0 os name pb ->
  (d0 = 0 -> forall p n c, p < N -> isRow pt p n -> In c (columns (pt p) n) -> isRow pt p c) ->
  forall native, onGraph N pt native ->
  forall (v w : nat -> list Q) (X Y : nat -> Q) alpha,
  (forall p n, p < N -> isRow pt p n -> (forall q, q < p -> ~ hasRow pt name q (name p n)) ->
     (nth n (v p) 0 == X (name p n))%Q /\ (nth n (w p) 0 == Y (name p n))%Q) ->
  exists r, ends N (fun p => buildAndUpdate 0%Q Qplus Qmult p N (pt p) (pb p) maxDistance maxRank (native p) alpha (v p) (w p)) r
    /\ forall p, p < N -> exists row y, rowsOf N pt d0 os name p (ovDomestic (fst (r p))) row
         /\ snd (r p) = Some y /\ length y = domSize (ovDomestic (fst (r p)))
         /\ forall i, i < length y -> (nth i y 0 == Y (row i) + alpha * globalProduct N pt name native X (row i))%Q.
Proof.
  intros N pt d0 os name DE OS pb PB maxDistance maxRank HD HR ONCE ALL OWN native GR v w X Y alpha VW.
  destruct (seen_exists N pt d0 os name DE maxDistance maxRank HD HR) as (seen & SEEN).
  destruct (whole_system N pt d0 os name DE maxDistance maxRank HD HR) as (ddof & SY).
  destruct (updated N pt d0 os name DE pb PB maxDistance maxRank HD HR ddof SY native GR ONCE ALL v X
    (fun p n Hp Hn Hl => proj1 (VW p n Hp Hn Hl)) seen SEEN w Y (fun p n Hp Hn Hl => proj2 (VW p n Hp Hn Hl)) alpha) as (y & R & H).
  eexists. split.
  - apply ends_intro. unfold done. rewrite !start_cfg. exact R.
  - intros p Hp. cbv beta. cbn [fst snd ovDomestic object].
    pose proof (rows_of N pt d0 os name DE maxDistance maxRank HD HR ddof SY p Hp) as RO.
    destruct (H p Hp) as [L K]. exists (ddof p), (y p). split; [exact RO|]. split; [reflexivity|]. split; [exact L|].
    intros i Hi. rewrite L in Hi. rewrite (K i Hi). destruct (ro_master _ _ _ _ _ _ _ _ RO i Hi) as [M1 M2].
    assert (Hm : domMasterRank (PipelineRun.dom pt d0 os maxDistance maxRank p) i < N)
      by (apply (master_local _ _ _ _ _ _ _ _ SY p i Hp Hi)).
    set (m := domMasterRank (PipelineRun.dom pt d0 os maxDistance maxRank p) i) in *.
    apply Qplus_comp; [reflexivity|]. apply Qmult_comp; [reflexivity|].
    unfold seenProduct, globalProduct, overRows.
    apply ResidualProofs.sumOver_ext. intros q Hq. apply in_seq in Hq.
    apply ResidualProofs.sumOver_ext. intros n Hn. apply in_seq in Hn.
    destruct (blackListed (pt q) n) eqn:Eb; cbn [negb andb]; [reflexivity|].
    destruct (Nat.eqb_spec (name q n) (ddof p i)) as [En|]; [|reflexivity].
    apply ResidualProofs.sumOver_ext. intros [c e] He. cbn [fst snd].
    rewrite (proj2 (SEEN m (name q c) Hm)); [reflexivity|].
    apply (columns_known N pt d0 os name DE pb maxDistance maxRank HD HR ALL OS OWN m q n c); try lia.
    + rewrite En. exact M1.
    + split; [lia|auto].
    + rewrite <- (GR q n ltac:(lia)). apply (in_map fst) in He. exact He.
Qed.

(* ----- examples ----- *)

(** On the chain, every process has the matrix with p + 1 in all entries. *)
Definition chainMatrix (os p n : nat) : list (nat * Q) :=
  map (fun c => (c, inject_Z (Z.of_nat (S p)))) (columns (chain 0 os p) n).

Lemma chain_graph : forall os, onGraph 3 (chain 0 os) (chainMatrix os).
Proof. intros os p n _. unfold chainMatrix. rewrite map_map. apply map_id. Qed.

Lemma chain_once : forall os, columnsOnce 3 (chain 0 os) chainName.
Proof.
  intros os p n Hp.
  assert (E : columns (chain 0 os p) n = chainColumns 3 n) by (destruct p as [|[|p]]; reflexivity). rewrite E.
  assert (ND : NoDup (chainColumns 3 n)).
  { unfold chainColumns. destruct n as [|[|[|n]]]; cbn [Nat.eqb Nat.ltb Nat.leb Nat.sub app];
      repeat constructor; cbn [In]; lia. }
  clear E. induction ND as [|a l H1 H2 IH]; [constructor|]. cbn [map]. constructor; [|exact IH].
  intros K. apply in_map_iff in K. destruct K as (b & Eb & Hb). unfold chainName in Eb. replace b with a in Hb by lia. auto.
Qed.

Lemma chain_own : forall os p n c, p < 3 -> isRow (chain 0 os) p n -> In c (columns (chain 0 os p) n) -> isRow (chain 0 os) p c.
Proof.
  intros os p n c Hp Hn Hc. apply chain_row in Hn; [|auto]. apply chain_row; [auto|].
  assert (E : columns (chain 0 os p) n = chainColumns 3 n) by (destruct p as [|[|p]]; reflexivity). rewrite E in Hc.
  assert (Hn' : n < 3) by (destruct p as [|[|p]]; lia).
  assert (c < 3). { destruct n as [|[|[|n]]]; [| | |lia]; cbn in Hc; lia. }
  destruct p as [|[|p]]; lia.
Qed.

Lemma chain_usable : forall os, allUsable 3 (chain 0 os) 0 os chainName (fun _ => []).
Proof. intros os p n c Hp Hn Hc. left. apply (chain_own os p n c); auto. Qed.

Example chain_entries :
  map (fun xy => globalEntry 3 (chain 0 1) chainName (chainMatrix 1) (fst xy) (snd xy))
    [(1, 1); (1, 2); (2, 2); (2, 3); (4, 4); (4, 5); (1, 3)]
  = [1; 1; 1 + 2; 2; 2 + 3; 3; 0]%Q.
Proof. vm_compute. reflexivity. Qed.

Example chain_assembles :
  exists r, ends 3 (fun p => buildAndAssemble 0%Q Qplus p 3 (chain 0 1 p) [] 1 3 (chainMatrix 1 p)) r
    /\ forall p, p < 3 -> exists row o st m, r p = (o, st, Some m)
         /\ rowsOf 3 (chain 0 1) 0 1 chainName p (ovDomestic o) row
         /\ forall i j, In j (nth i (mxColumns st) []) ->
              (m i j == globalEntry 3 (chain 0 1) chainName (chainMatrix 1) (row i) (row j))%Q.
Proof.
  destruct (C80_assembled_matrix_holds_the_sums_over_all_processes 3 (chain 0 1) 0 1 chainName (chain_decomposition 1)
    (fun _ => []) (no_black _ _ _) 1 3 ltac:(lia) ltac:(lia) (chain_once 1) (chain_usable 1) (chainMatrix 1) (chain_graph 1)) as (r & E & H).
  exists r. split; [exact E|]. intros p Hp. destruct (H p Hp) as (row & o & st & m & H1 & H2 & _ & H4).
  exists row, o, st, m. auto.
Qed.

(** The operator on the chain, applied to the vector of the row numbers. *)
Example chain_products :
  map (globalProduct 3 (chain 0 1) chainName (chainMatrix 1) (fun x => inject_Z (Z.of_nat x))) [0; 1; 2; 3; 4; 5; 6]
  = [1; 3; 13; 18; 41; 45; 33]%Q.
Proof. vm_compute. reflexivity. Qed.

Definition chainRows (p : nat) : list Q := map (fun i => inject_Z (Z.of_nat (chainName p i))) [0; 1; 2].

Lemma chain_rows : forall os p n, p < 3 -> isRow (chain 0 os) p n -> nth n (chainRows p) 0%Q = inject_Z (Z.of_nat (chainName p n)).
Proof.
  intros os p n Hp Hr. apply chain_row in Hr; [|auto].
  assert (Hn : n < 3) by (destruct p as [|[|p]]; lia).
  destruct n as [|[|[|n]]]; [reflexivity..|lia].
Qed.

Example chain_multiplies :
  exists r, ends 3 (fun p => buildAndMultiply 0%Q Qplus Qmult p 3 (chain 0 1 p) [] 1 3 (chainMatrix 1 p) (chainRows p)) r
    /\ forall p, p < 3 -> exists row y, rowsOf 3 (chain 0 1) 0 1 chainName p (ovDomestic (fst (r p))) row
         /\ snd (r p) = Some y
         /\ forall i, i < length y -> (nth i y 0 ==
              globalProduct 3 (chain 0 1) chainName (chainMatrix 1) (fun x => inject_Z (Z.of_nat x)) (row i))%Q.
Proof.
  destruct (C81_operator_is_the_product_with_the_global_matrix 3 (chain 0 1) 0 1 chainName (chain_decomposition 1) ltac:(lia)
    (fun _ => []) (no_black _ _ _) 1 3 ltac:(lia) ltac:(lia) (chain_once 1) (chain_usable 1)
    (fun _ => chain_own 1) (chainMatrix 1) (chain_graph 1) chainRows (fun x => inject_Z (Z.of_nat x))) as (r & E & H).
  - intros p n Hp Hr _. rewrite (chain_rows 1 p n Hp Hr). reflexivity.
  - exists r. split; [exact E|]. intros p Hp. destruct (H p Hp) as (row & y & H1 & H2 & _ & H3 & _). exists row, y. auto.
Qed.

(** The elements with ghosts: the black-listed columns are used. *)
Lemma ghost_once : columnsOnce 2 (ghosted 1) ghostName.
Proof.
  intros p n Hp. destruct p as [|p]; cbn [ghosted columns].
  - unfold chainColumns. destruct n as [|[|[|n]]]; cbn [Nat.eqb Nat.ltb Nat.leb Nat.sub app map ghostName];
      repeat constructor; cbn [In]; lia.
  - destruct n as [|[|n]]; cbn [map ghostName]; repeat constructor; cbn [In]; lia.
Qed.

Lemma ghost_usable : allUsable 2 (ghosted 1) 1 1 ghostName ghostLists.
Proof.
  intros p n c Hp Hn Hc. apply ghost_row in Hn.
  assert (c < 3). { destruct p as [|p]; cbn [ghosted columns] in Hc; destruct n as [|[|n]]; try lia; cbn in Hc; lia. }
  destruct (Nat.eq_dec c 2) as [->|]; [|left; apply ghost_row; lia].
  right. destruct p as [|[|p]]; [| |lia].
  - split; [exists 1, 0; cbn; auto|]. right. exists 1, 0, 0. split; [lia|]. split; [|reflexivity].
    apply reaches_border with (j := 1); [lia|apply ghost_row; lia|]. apply ghost_lists. auto.
  - split; [exists 0, 1; cbn; auto|]. right. exists 0, 1, 0. split; [lia|]. split; [|reflexivity].
    apply reaches_border with (j := 0); [lia|apply ghost_row; lia|]. apply ghost_lists. auto.
Qed.

(** The matrix 1 + (global row) on four elements. *)
Definition ghostMatrix (p n : nat) : list (nat * Q) :=
  map (fun c => (c, inject_Z (Z.of_nat (S (ghostName p n))))) (columns (ghosted 1 p) n).

Example ghost_multiplies :
  exists r, ends 2 (fun p => buildAndMultiply 0%Q Qplus Qmult p 2 (ghosted 1 p) (ghostLists p) 1 2 (ghostMatrix p) [1; 1; 1]%Q) r
    /\ forall p, p < 2 -> exists row y, rowsOf 2 (ghosted 1) 1 1 ghostName p (ovDomestic (fst (r p))) row
         /\ snd (r p) = Some y
         /\ forall i, i < length y -> (nth i y 0 == nth (row i) [2; 6; 9; 8] 0)%Q.
Proof.
  destruct (C81_operator_is_the_product_with_the_global_matrix 2 (ghosted 1) 1 1 ghostName (ghost_decomposition 1 ltac:(lia)) ltac:(lia)
    ghostLists (ghost_black 1) 1 2 ltac:(lia) ltac:(lia) ghost_once ghost_usable ltac:(discriminate)
    ghostMatrix) with (v := fun _ : nat => [1; 1; 1]%Q) (X := fun _ : nat => 1%Q) as (r & E & H).
  - intros p n _. unfold ghostMatrix. rewrite map_map. apply map_id.
  - intros p n Hp Hr _. apply ghost_row in Hr. destruct n as [|[|n]]; [reflexivity..|lia].
  - exists r. split; [exact E|]. intros p Hp. destruct (H p Hp) as (row & y & H1 & H2 & L & H3 & _). exists row, y.
    split; [auto|]. split; [auto|]. intros i Hi. rewrite (H3 i Hi). rewrite L in Hi.
    destruct (ro_master _ _ _ _ _ _ _ _ H1 i Hi) as [(n & Hr & En) _]. apply ghost_row in Hr. rewrite <- En.
    generalize (domMasterRank (ovDomestic (fst (r p))) i). intros q.
    destruct q as [|q]; (destruct n as [|[|n]]; [| |lia]); vm_compute; reflexivity.
Qed.

(* ----- what does not hold ----- *)

(** Without an overlap, the operator of common rows (vertices) is not the global matrix: on
    the chain, rank 0 is the master of row 2 and does not know row 3. *)
Theorem C81_operator_without_overlap_refuted :
  exists N pt d0 os name pb maxDistance maxRank native (v : nat -> list Q) (X : nat -> Q),
    decomposition N pt d0 os name /\ blackListsOf N pt name pb /\ os <= maxDistance /\ N <= maxRank
    /\ columnsOnce N pt name /\ allUsable N pt d0 os name pb
    /\ (forall p n c, p < N -> isRow pt p n -> In c (columns (pt p) n) -> isRow pt p c)
    /\ onGraph N pt native
    /\ (forall p n, p < N -> isRow pt p n -> nth n (v p) 0%Q = X (name p n))
    /\ exists r, ends N (fun p => buildAndMultiply 0%Q Qplus Qmult p N (pt p) (pb p) maxDistance maxRank (native p) (v p)) r
       /\ exists p row y i, p < N /\ rowsOf N pt d0 os name p (ovDomestic (fst (r p))) row
          /\ snd (r p) = Some y /\ i < length y
          /\ ~ (nth i y 0 == globalProduct N pt name native X (row i))%Q.
Proof.
  exists 3, (chain 0 0), 0, 0, chainName, (fun _ => []), 0, 3, (chainMatrix 0), chainRows, (fun x => inject_Z (Z.of_nat x)).
  split; [apply chain_decomposition|]. split; [apply no_black|]. split; [lia|]. split; [lia|].
  split; [apply chain_once|]. split; [apply chain_usable|]. split; [apply chain_own|]. split; [apply chain_graph|].
  split; [apply (chain_rows 0)|].
  assert (Own : forall p x, p < 3 -> (inOverlap 3 (chain 0 0) 0 0 chainName p x <-> 2 * p <= x <= 2 * p + 2)).
  { intros p x Hp.
    assert (HR : hasRow (chain 0 0) chainName p x <-> 2 * p <= x <= 2 * p + 2).
    { unfold hasRow, chainName. split.
      - intros (i & Hi & <-). apply chain_row in Hi; [|auto]. destruct p as [|[|p]]; lia.
      - intros H. exists (x - 2 * p). split; [apply chain_row; [auto|]|lia]. destruct p as [|[|p]]; lia. }
    rewrite <- HR. split; [|left; auto]. intros [H|(q & i & k & Hk & Hr & Ex)]; [auto|].
    assert (k = 0) by lia. subst k.
    destruct (reaches_zero 3 (chain 0 0) 0 0 chainName (chain_decomposition 0) q p 0 i Hr eq_refl) as (j & Hl).
    destruct (reaches_ok 3 (chain 0 0) 0 0 (de_borders _ _ _ _ _ (chain_decomposition 0)) (de_common _ _ _ _ _ (chain_decomposition 0)) _ _ _ _ Hr) as (Hq & _).
    apply chain_lists in Hl. apply HR. rewrite <- Ex. unfold chainName. destruct q as [|[|[|q]]]; [| | |lia]; destruct p as [|[|[|p]]]; lia. }
  destruct (C81_operator_multiplies_what_the_master_of_the_row_knows 3 (chain 0 0) 0 0 chainName (chain_decomposition 0)
    (fun _ => []) (no_black _ _ _) 0 3 ltac:(lia) ltac:(lia) (chain_once 0) (chain_usable 0) (chainMatrix 0) (chain_graph 0)
    chainRows (fun x => inject_Z (Z.of_nat x))) with (seen := fun p x => (2 * p <=? x) && (x <=? 2 * p + 2)) as (r & E & H).
  - intros p n Hp Hr _. rewrite (chain_rows 0 p n Hp Hr). reflexivity.
  - intros p x Hp. rewrite Own by auto. rewrite andb_true_iff, !Nat.leb_le. tauto.
  - exists r. split; [exact E|]. destruct (H 0 ltac:(lia)) as (row & y & RO & Ey & L & K).
    assert (I : inOverlap 3 (chain 0 0) 0 0 chainName 0 2) by (apply Own; lia).
    apply (ro_all _ _ _ _ _ _ _ _ RO) in I. destruct I as (i & Hi & Ei). rewrite <- L in Hi.
    exists 0, row, y, i. split; [lia|]. split; [exact RO|]. split; [exact Ey|]. split; [exact Hi|].
    rewrite (K i 0 Hi); [|rewrite Ei; exists 2; split; [apply chain_row; lia|reflexivity]|intros q Hq; lia].
    rewrite Ei. clear. vm_compute. discriminate.
Qed.

(** [assignCopy] does not make the copies equal: the two processes which have row 2 swap
    their values. *)
Theorem C80_copied_matrix_equal_copies_refuted :
  exists N pt d0 os name pb maxDistance maxRank native,
    decomposition N pt d0 os name /\ blackListsOf N pt name pb /\ os <= maxDistance /\ N <= maxRank
    /\ columnsOnce N pt name /\ onGraph N pt native
    /\ exists r, ends N (fun p => buildAndCopy 0%Q p N (pt p) (pb p) maxDistance maxRank (native p)) r
       /\ exists o0 st0 m0 row0 i0 o1 st1 m1 row1 i1,
          r 0 = (o0, st0, Some m0) /\ rowsOf N pt d0 os name 0 (ovDomestic o0) row0
          /\ r 1 = (o1, st1, Some m1) /\ rowsOf N pt d0 os name 1 (ovDomestic o1) row1
          /\ In i0 (nth i0 (mxColumns st0) []) /\ In i1 (nth i1 (mxColumns st1) [])
          /\ row0 i0 = row1 i1 /\ ~ (m0 i0 i0 == m1 i1 i1)%Q.
Proof.
  exists 3, (chain 0 1), 0, 1, chainName, (fun _ => []), 1, 3, (chainMatrix 1).
  split; [apply chain_decomposition|]. split; [apply no_black|]. split; [lia|]. split; [lia|].
  split; [apply chain_once|]. split; [apply chain_graph|].
  destruct (C80_copied_matrix_takes_the_entry_of_the_highest_other_process 3 (chain 0 1) 0 1 chainName (chain_decomposition 1)
    (fun _ => []) (no_black _ _ _) 1 3 ltac:(lia) ltac:(lia) (chain_once 1) Q 0%Q (chainMatrix 1) (chain_graph 1)) as (r & E & H).
  exists r. split; [exact E|].
  destruct (H 0 ltac:(lia)) as (row0 & o0 & st0 & m0 & E0 & RO0 & S0 & M0).
  destruct (H 1 ltac:(lia)) as (row1 & o1 & st1 & m1 & E1 & RO1 & S1 & M1).
  assert (I0 : inOverlap 3 (chain 0 1) 0 1 chainName 0 2) by (left; exists 2; split; [apply chain_row; lia|reflexivity]).
  assert (I1 : inOverlap 3 (chain 0 1) 0 1 chainName 1 2) by (left; exists 0; split; [apply chain_row; lia|reflexivity]).
  apply (ro_all _ _ _ _ _ _ _ _ RO0) in I0. destruct I0 as (i0 & Hi0 & Ei0).
  apply (ro_all _ _ _ _ _ _ _ _ RO1) in I1. destruct I1 as (i1 & Hi1 & Ei1).
  assert (R0 : rowEntry 3 (chain 0 1) 0 1 chainName (fun _ => []) (chainMatrix 1) 0 2 2 1%Q).
  { exists 2, 2. split; [apply chain_row; lia|]. split; [reflexivity|]. split; [cbn; auto|]. split; [left; apply chain_row; lia|reflexivity]. }
  assert (R1 : rowEntry 3 (chain 0 1) 0 1 chainName (fun _ => []) (chainMatrix 1) 1 2 2 2%Q).
  { exists 0, 0. split; [apply chain_row; lia|]. split; [reflexivity|]. split; [cbn; auto|]. split; [left; apply chain_row; lia|reflexivity]. }
  assert (U : forall q w, q < 3 -> rowEntry 3 (chain 0 1) 0 1 chainName (fun _ => []) (chainMatrix 1) q 2 2 w ->
     q < 2 /\ w = inject_Z (Z.of_nat (S q))).
  { intros q w Hq (n & c & Hn & En & Hin & _ & _). apply chain_row in Hn; [|auto]. unfold chainName in En. split.
    - destruct q as [|[|q]]; lia.
    - unfold chainMatrix in Hin. apply in_map_iff in Hin. destruct Hin as (c' & Ec & _). injection Ec as _ <-. reflexivity. }
  assert (J0 : In i0 (nth i0 (mxColumns st0) [])).
  { apply S0. do 2 (split; [auto|]). exists 0, 1%Q. split; [lia|]. rewrite Ei0. exact R0. }
  assert (J1 : In i1 (nth i1 (mxColumns st1) [])).
  { apply S1. do 2 (split; [auto|]). exists 1, 2%Q. split; [lia|]. rewrite Ei1. exact R1. }
  exists o0, st0, m0, row0, i0, o1, st1, m1, row1, i1.
  do 6 (split; [auto|]). split; [congruence|].
  assert (V0 : m0 i0 i0 = 2%Q).
  { destruct (M0 i0 i0 J0) as [(q & Hq & Hne & Hr & _)|[K _]].
    - rewrite Ei0 in Hr. apply U in Hr; [|auto]. destruct Hr as [K1 ->]. replace q with 1 by lia. reflexivity.
    - exfalso. apply (K 1 2%Q); [lia|lia|]. rewrite Ei0. exact R1. }
  assert (V1 : m1 i1 i1 = 1%Q).
  { destruct (M1 i1 i1 J1) as [(q & Hq & Hne & Hr & _)|[K _]].
    - rewrite Ei1 in Hr. apply U in Hr; [|auto]. destruct Hr as [K1 ->]. replace q with 0 by lia. reflexivity.
    - exfalso. apply (K 0 1%Q); [lia|lia|]. rewrite Ei1. exact R0. }
  rewrite V0, V1. discriminate.
Qed.

(** The true case: if no row is on two processes (elements), every copy is the entry of the
    process which has the row. *)
Theorem C80_copied_matrix_of_distinct_rows :
  forall N pt d0 os name, decomposition N pt d0 os name -> 0 < d0 ->
  forall pb, blackListsOf N pt name pb ->
  forall maxDistance maxRank, os <= maxDistance -> N <= maxRank ->
  columnsOnce N pt name ->
  forall (V : Type) (zero : V) native, onGraph N pt native ->
  exists r, ends N (fun p => buildAndCopy zero p N (pt p) (pb p) maxDistance maxRank (native p)) r
    /\ forall p, p < N -> exists row o st m, r p = (o, st, Some m)
         /\ rowsOf N pt d0 os name p (ovDomestic o) row
         /\ forall i j q n c v, In j (nth i (mxColumns st) []) -> q < N -> isRow pt q n -> name q n = row i ->
              In (c, v) (native q n) -> usableColumn N pt d0 os name pb q c -> name q c = row j -> m i j = v.
Proof.
  intros N pt d0 os name DE Hd pb PB maxDistance maxRank HD HR ONCE V zero native GR.
  destruct (C80_copied_matrix_takes_the_entry_of_the_highest_other_process N pt d0 os name DE pb PB maxDistance maxRank HD HR
    ONCE V zero native GR) as (r & E & H).
  exists r. split; [exact E|]. intros p Hp. destruct (H p Hp) as (row & o & st & m & Er & RO & _ & M).
  exists row, o, st, m. split; [exact Er|]. split; [exact RO|].
  intros i j q n c v Hij Hq Hn En Hin Hu Ec.
  assert (U : forall q' w, q' < N -> rowEntry N pt d0 os name pb native q' (row i) (row j) w -> w = v).
  { intros q' w Hq' (n' & c' & Hn' & En' & Hin' & _ & Ec').
    destruct (Nat.eq_dec q' q) as [->|Hne].
    - assert (n' = n) by (apply (na_inj _ _ _ _ (de_named _ _ _ _ _ DE) q n' n Hq Hn' Hn); congruence). subst n'.
      pose proof (ONCE q n Hq) as ND. rewrite <- (GR q n Hq) in ND. rewrite map_map in ND. clear -ND Hin Hin' Ec Ec'.
      induction (native q n) as [|[a u] es IH]; [destruct Hin|]. cbn [map fst] in ND. inversion ND as [|? ? N1 N2]; subst.
      destruct Hin as [H1|H1], Hin' as [H2|H2].
      + congruence.
      + exfalso. injection H1 as -> ->. apply N1. apply in_map_iff. exists (c', w). split; [cbn; congruence|auto].
      + exfalso. injection H2 as -> ->. apply N1. apply in_map_iff. exists (c, v). split; [cbn; congruence|auto].
      + apply IH; auto.
    - exfalso. apply (na_distinct _ _ _ _ (de_named _ _ _ _ _ DE) Hd q' n' q n); auto. congruence. }
  destruct (M i j Hij) as [(q' & Hq' & _ & Hr & _)|[_ Hr]].
  - apply (U q'); auto.
  - apply (U p); auto.
Qed.

Example ghost_copies :
  exists r, ends 2 (fun p => buildAndCopy 0%Q p 2 (ghosted 1 p) (ghostLists p) 1 2 (ghostMatrix p)) r
    /\ forall p, p < 2 -> exists o st m, r p = (o, st, Some m).
Proof.
  destruct (C80_copied_matrix_of_distinct_rows 2 (ghosted 1) 1 1 ghostName (ghost_decomposition 1 ltac:(lia)) ltac:(lia)
    ghostLists (ghost_black 1) 1 2 ltac:(lia) ltac:(lia) ghost_once Q 0%Q ghostMatrix) as (r & E & H).
  - intros p n _. unfold ghostMatrix. rewrite map_map. apply map_id.
  - exists r. split; [exact E|]. intros p Hp. destruct (H p Hp) as (row & o & st & m & Er & _). eauto.
Qed.

Print Assumptions C80_assembled_matrix_has_the_entries_of_all_processes.
Print Assumptions C80_assembled_matrix_holds_the_sums_over_all_processes.
Print Assumptions C80_copied_matrix_takes_the_entry_of_the_highest_other_process.
Print Assumptions C80_copied_matrix_equal_copies_refuted.
Print Assumptions C80_copied_matrix_of_distinct_rows.
Print Assumptions C81_operator_multiplies_what_the_master_of_the_row_knows.
Print Assumptions C81_operator_is_the_product_with_the_global_matrix.
Print Assumptions C81_scaled_product_is_added.
Print Assumptions C81_operator_without_overlap_refuted.
