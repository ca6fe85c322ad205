From Coq Require Import Arith List Bool Lia Sorted Permutation QArith.
From Verif Require Import MpiModel MpiSpec MpiProofs MpiLemmas MpiExchange ExchangeModel
  GlobalIndexModel GlobalIndexSpec GlobalIndexProofs ForeignModel ForeignProofs
  DomesticModel DomesticSpec DomesticProofs VectorModel VectorSpec VectorProofs VectorSums PipelineModel
  OvMatrixModel OvMatrixSpec OvMatrixProofs OvMatrixValues.
From Verif Require FluxSpec ResidualProofs.
Import ListNotations.
Import FluxSpec.
Local Open Scope nat_scope.

(* ----- lists and sums ----- *)

Lemma sum_swap : forall A B (f : A -> B -> Q) l m,
  (sumOver (fun a => sumOver (f a) m) l == sumOver (fun b => sumOver (fun a => f a b) l) m)%Q.
Proof.
  intros A B f l m. induction l as [|a l IH].
  - symmetry. change (fun b => sumOver (fun a => f a b) []) with (fun _ : B => 0%Q). apply ResidualProofs.sumOver_zero.
  - rewrite ResidualProofs.sumOver_cons, IH, <- ResidualProofs.sumOver_plus. reflexivity.
Qed.

(** The terms outside of a sub-list vanish. *)
Lemma sum_sub : forall (f : nat -> Q) L S, NoDup L -> NoDup S -> incl L S ->
  (forall a, In a S -> ~ In a L -> (f a == 0)%Q) -> (sumOver f S == sumOver f L)%Q.
Proof.
  intros f L S NL NS I Z.
  set (b := fun a => existsb (Nat.eqb a) L).
  assert (B : forall a, b a = true <-> In a L).
  { intros a. unfold b. rewrite existsb_exists. split.
    - intros (x & H & E). apply Nat.eqb_eq in E. subst. auto.
    - intros H. exists a. split; [auto|apply Nat.eqb_refl]. }
  rewrite <- (ResidualProofs.sumOver_perm f (filter b S) L).
  - rewrite <- sum_filter. apply ResidualProofs.sumOver_ext. intros a Ha. destruct (b a) eqn:E; [reflexivity|].
    apply Z; [auto|]. rewrite <- B, E. discriminate.
  - apply NoDup_Permutation; [apply NoDup_filter; auto|auto|]. intros a. rewrite filter_In, B. split; [tauto|auto].
Qed.

Lemma sum_one : forall (f : nat -> Q) a S, NoDup S -> In a S ->
  (forall b, In b S -> b <> a -> (f b == 0)%Q) -> (sumOver f S == f a)%Q.
Proof.
  intros f a S NS I Z. rewrite (sum_sub f [a] S).
  - cbn. apply Qplus_0_r.
  - repeat constructor; auto.
  - auto.
  - intros x [<-|[]]; auto.
  - intros b Hb Hn. apply Z; [auto|]. intros ->. apply Hn. left; auto.
Qed.

Lemma sum_nothing : forall A (f : A -> Q) S, (forall b, In b S -> (f b == 0)%Q) -> (sumOver f S == 0)%Q.
Proof.
  intros A f S H. rewrite (ResidualProofs.sumOver_ext f (fun _ => 0%Q) S H). apply ResidualProofs.sumOver_zero.
Qed.

Lemma upd_sorted : forall (cs : list (list nat)) i s, Forall (StronglySorted lt) cs -> StronglySorted lt s ->
  Forall (StronglySorted lt) (upd cs i s).
Proof.
  induction cs as [|c cs IH]; intros i s H Hs; [destruct i; auto|]. inversion H; subst.
  destruct i; cbn; constructor; auto.
Qed.

Lemma nth_sorted : forall (cs : list (list nat)) i, Forall (StronglySorted lt) cs -> StronglySorted lt (nth i cs []).
Proof.
  induction cs as [|c cs IH]; intros i H; [destruct i; constructor|]. inversion H; subst. destruct i; cbn; auto.
Qed.

Section System.
Variable N : nat.
Variable fo : nat -> foreignOverlap.
Variable shared : nat -> nat -> list (nat * nat).
Variable dof : nat -> nat -> nat.
Variable number : nat -> nat.
Variable total : nat.
Variable ddof : nat -> nat -> nat.
Variable dom : nat -> domestic.
Hypothesis SY : system N fo shared dof number total ddof dom.

Let D := sy_distributed _ _ _ _ _ _ _ _ SY.
Let O := sy_overlapping _ _ _ _ _ _ _ _ SY.
Let NU := sy_numbering _ _ _ _ _ _ _ _ SY.
Let DM := sy_domestic _ _ _ _ _ _ _ _ SY.

Variable toNative : nat -> nat -> nat.
Variable native : nat -> nat -> list (nat * Q).
Variable cname : nat -> nat -> nat.
Variable known : nat -> nat -> bool.
Variable black : nat -> list (nat * option nat).
Variable numRows : nat -> nat.
Variable graph : nat -> nat -> list nat.

Notation col p := (columnOf (fo p) (black p)).
Hypothesis NM : nativeMatrices N fo toNative native cname known ddof (fun p => domSize (dom p))
  (fun p => columnOf (fo p) (black p)) numRows graph.

Notation bst := (built fo shared dom toNative black numRows graph).
Notation entry := (hasEntry fo dof toNative native cname known).

Lemma structure_sorted : forall p, p < N -> Forall (StronglySorted lt) (mxColumns (bst p)).
Proof.
  intros p Hp.
  destruct (built_form N fo shared dof number total ddof dom SY toNative native cname known black numRows graph NM p Hp) as (_ & E & _ & _).
  rewrite E.
  assert (A : forall es cs, Forall (StronglySorted lt) cs -> Forall (StronglySorted lt) (addEntries es cs)).
  { unfold addEntries. induction es as [|[r o] es IH]; intros cs H; [auto|]. cbn [fold_left fst snd].
    apply IH. destruct o; [|auto]. apply upd_sorted; [auto|]. apply setInsert_sorted. apply nth_sorted; auto. }
  assert (G : forall qs cs, Forall (StronglySorted lt) cs -> Forall (StronglySorted lt)
     (fold_left (fun cs q => addEntries (bufferEntries (receivedBuffer fo shared dof number dom toNative black graph p q)) cs) qs cs)).
  { induction qs as [|q qs IH]; intros cs H; [auto|]. cbn [fold_left]. apply IH, A, H. }
  apply G. unfold localEntries.
  assert (L : forall ns es, Forall (StronglySorted lt) es -> Forall (StronglySorted lt)
    (fold_left (fun es n =>
      match nativeToLocal (fo p) n with
      | Some l => upd es l (insertAll (rowColumns (fo p) (black p) (graph p) n) (nth l es []))
      | None => es
      end) ns es)).
  { induction ns as [|n ns IH]; intros es H; [auto|]. cbn [fold_left]. apply IH.
    destruct (nativeToLocal (fo p) n); [|auto]. apply upd_sorted; [auto|]. apply insertAll_sorted. apply nth_sorted; auto. }
  apply L. apply Forall_forall. intros x Hx. apply repeat_spec in Hx. subst. constructor.
Qed.

(** What rank q contributes to the entry for x and y. *)
Definition part (q x y : nat) : Q :=
  sumOver (fun l => if Nat.eqb (dof q l) x
      then sumOver (fun e => if known q (fst e) && Nat.eqb (cname q (fst e)) y then snd e else 0%Q)
             (native q (toNative q l))
      else 0%Q) (seq 0 (numLocal (fo q))).

Lemma part_value : forall q x y v, q < N -> entry q x y v -> (part q x y == v)%Q.
Proof.
  intros q x y v Hq (l & c & Hl & El & Hin & Hk & Ec). unfold part.
  rewrite (sum_one _ l).
  - rewrite (proj2 (Nat.eqb_eq _ _) El).
    pose proof (nm_once _ _ _ _ _ _ _ _ _ _ _ NM q (toNative q l) Hq) as ND.
    revert ND Hin. generalize (native q (toNative q l)). clear -Ec Hk.
    induction l as [|[a u] es IH]; intros ND Hin; [destruct Hin|].
    cbn [map fst] in ND. inversion ND as [|? ? N1 N2]; subst. rewrite ResidualProofs.sumOver_cons. cbn [fst snd].
    destruct Hin as [Hin|Hin].
    + injection Hin as -> ->. rewrite Hk, Nat.eqb_refl. cbn [andb]. rewrite sum_nothing; [apply Qplus_0_r|].
      intros [b w] Hb. cbn [fst]. destruct (Nat.eqb_spec (cname q b) (cname q c)) as [E|]; [|rewrite andb_false_r; reflexivity].
      exfalso. apply N1. apply in_map_iff. exists (b, w). auto.
    + rewrite IH by auto. destruct (Nat.eqb_spec (cname q a) (cname q c)) as [E|].
      * exfalso. apply N1. apply in_map_iff. exists (c, v). cbn. auto.
      * rewrite andb_false_r. apply Qplus_0_l.
  - apply seq_NoDup.
  - apply in_seq. lia.
  - intros l' Hl' Hne. apply in_seq in Hl'. destruct (Nat.eqb_spec (dof q l') x) as [E|]; [|reflexivity].
    exfalso. apply Hne. apply (di_dof _ _ _ D q l' l Hq); [lia|auto|congruence].
Qed.

Lemma part_zero : forall q x y, q < N -> (forall v, ~ entry q x y v) -> (part q x y == 0)%Q.
Proof.
  intros q x y Hq H. unfold part. apply sum_nothing. intros l Hl. apply in_seq in Hl.
  destruct (Nat.eqb_spec (dof q l) x) as [E|]; [|reflexivity].
  apply sum_nothing. intros [c v] Hin. cbn [fst snd].
  destruct (known q c) eqn:Hk, (Nat.eqb_spec (cname q c) y) as [Ec|]; cbn [andb]; try reflexivity.
  exfalso. apply (H v). exists l, c. split; [lia|]. auto.
Qed.

Lemma entry_sum_part : forall x y, entrySum N fo dof toNative native cname known x y = sumOver (fun q => part q x y) (seq 0 N).
Proof. reflexivity. Qed.

Lemma entry_total : forall p x y c (v : Q), p < N -> otherEntries N fo dof toNative native cname known p x y c ->
  (v == part p x y)%Q ->
  (fold_left Qplus (map snd c) v == entrySum N fo dof toNative native cname known x y)%Q.
Proof.
  intros p x y c v Hp [C1 C2] Hv. rewrite fold_add, Hv, entry_sum_part.
  rewrite (sum_sub _ (p :: map fst c) (seq 0 N)).
  - rewrite ResidualProofs.sumOver_cons, ResidualProofs.sumOver_map.
    rewrite (ResidualProofs.sumOver_ext snd (fun e => part (fst e) x y) c); [reflexivity|].
    intros [q w] Hin. cbn [fst snd]. apply C2 in Hin. destruct Hin as (Hq & _ & He). symmetry. apply part_value; auto.
  - constructor; [|apply sorted_NoDup; auto]. intros K. apply in_map_iff in K. destruct K as ([q w] & E & K). cbn in E. subst q.
    apply C2 in K. tauto.
  - apply seq_NoDup.
  - intros q [<-|K]; [apply in_seq; lia|]. apply in_map_iff in K. destruct K as ([q' w] & <- & K). apply C2 in K. apply in_seq. cbn. lia.
  - intros q Hq K. apply in_seq in Hq. apply part_zero; [lia|]. intros w Hw. apply K.
    destruct (Nat.eq_dec q p) as [->|Hne]; [left; auto|right]. apply in_map_iff. exists (q, w). split; [auto|]. apply C2. split; [lia|auto].
Qed.

Lemma entry_sum_none : forall x y, (forall q v, q < N -> ~ entry q x y v) ->
  (entrySum N fo dof toNative native cname known x y == 0)%Q.
Proof.
  intros x y H. rewrite entry_sum_part. apply sum_nothing. intros q Hq. apply in_seq in Hq. apply part_zero; [lia|].
  intros v. apply H. lia.
Qed.

(* ----- after the assignment and the exchange ----- *)

Variable m : nat -> @values Q.
Hypothesis AS : forall p, p < N -> assignedValues fo dof ddof dom 0%Q toNative native cname known p (m p).

Lemma assigned_part : forall p i j, p < N -> i < domSize (dom p) -> j < domSize (dom p) ->
  (m p i j == part p (ddof p i) (ddof p j))%Q.
Proof.
  intros p i j Hp Hi Hj. destruct (AS p Hp i j Hi Hj) as [A1 A2].
  destruct (held_dec N fo shared dof number total ddof dom SY toNative native cname known black numRows graph NM m p (ddof p i) (ddof p j) Hp) as [(v & Hv)|H].
  - destruct Hv as ((w & Hw) & _). rewrite (A1 w Hw). symmetry. apply part_value; auto.
  - rewrite A2; [symmetry; apply part_zero; auto|].
    all: intros v Hv; apply (H v); apply (held_entry N fo shared dof number total ddof dom SY 0%Q toNative native cname known black numRows graph NM m AS p); auto.
Qed.

Lemma summed_values : forall p, p < N -> exists m', syncEntriesResult fo shared dom 0%Q toNative black numRows graph m Qplus p = Some m'
  /\ forall i j, i < domSize (dom p) -> j < domSize (dom p) ->
     (m' i j == entrySum N fo dof toNative native cname known (ddof p i) (ddof p j))%Q.
Proof.
  intros p Hp.
  destruct (sync_entries_result N fo shared dof number total ddof dom SY 0%Q toNative native cname known black numRows graph NM m Qplus p Hp) as (m' & E & H).
  exists m'. split; [exact E|]. intros i j Hi Hj. destruct (H i j Hi Hj) as (c & C1 & C2 & ->).
  apply (entry_total p); [auto| |apply assigned_part; auto]. split; [auto|].
  intros q v. rewrite C2. split; intros (K1 & K2 & K3); (do 2 (split; [auto|]));
    apply (held_entry N fo shared dof number total ddof dom SY 0%Q toNative native cname known black numRows graph NM m AS q); auto.
Qed.

(* ----- the product with a vector ----- *)

(** The sum over all processes which have the row x, of the columns in [seen]. *)
Definition productSum (seen : nat -> bool) (X : nat -> Q) (x : nat) : Q :=
  sumLocal N fo dof x (fun q l =>
    sumOver (fun e => if known q (fst e) && seen (cname q (fst e)) then snd e * X (cname q (fst e)) else 0)%Q (native q (toNative q l))).

Lemma row_product : forall p (m' : values) (x : list Q) (X : nat -> Q) (seen : nat -> bool) i, p < N -> i < domSize (dom p) ->
  (forall j, j < domSize (dom p) -> (m' i j == entrySum N fo dof toNative native cname known (ddof p i) (ddof p j))%Q) ->
  (forall j, j < domSize (dom p) -> (nth j x 0 == X (ddof p j))%Q) ->
  (forall y, seen y = true <-> exists j, j < domSize (dom p) /\ ddof p j = y) ->
  (fold_left (fun s j => s + m' i j * nth j x 0) (nth i (mxColumns (bst p)) []) 0 == productSum seen X (ddof p i))%Q.
Proof.
  intros p m' x X seen i Hp Hi Hm Hx Hk.
  destruct (structure_in N fo shared dof number total ddof dom SY toNative native cname known black numRows graph NM p Hp) as [_ ST].
  assert (E0 : forall L s, (fold_left (fun s j => s + m' i j * nth j x 0) L s == s + sumOver (fun j => m' i j * nth j x 0) L)%Q).
  { induction L as [|j L IH]; intros s; [cbn; rewrite Qplus_0_r; reflexivity|]. cbn [fold_left].
    rewrite IH, ResidualProofs.sumOver_cons. ring. }
  rewrite E0, Qplus_0_l.
  set (es := fun j => entrySum N fo dof toNative native cname known (ddof p i) (ddof p j)).
  rewrite (ResidualProofs.sumOver_ext _ (fun j => es j * X (ddof p j))%Q).
  2:{ intros j Hj. apply ST in Hj. destruct Hj as (_ & Hj & _). rewrite (Hm j Hj), (Hx j Hj). reflexivity. }
  rewrite <- (sum_sub _ (nth i (mxColumns (bst p)) []) (seq 0 (domSize (dom p)))).
  2:{ apply sorted_NoDup, nth_sorted, structure_sorted; auto. }
  2:{ apply seq_NoDup. }
  2:{ intros j Hj. apply ST in Hj. apply in_seq. lia. }
  2:{ intros j Hj Hn. apply in_seq in Hj. unfold es. rewrite entry_sum_none; [ring|].
      intros q v Hq He. apply Hn. apply ST. split; [auto|]. split; [lia|]. eauto. }
  unfold es, productSum, sumLocal. 
  rewrite (ResidualProofs.sumOver_ext _ (fun j => sumOver (fun q => part q (ddof p i) (ddof p j) * X (ddof p j)) (seq 0 N))%Q).
  2:{ intros j Hj. rewrite entry_sum_part. rewrite ResidualProofs.sumOver_scale. reflexivity. }
  rewrite sum_swap. apply ResidualProofs.sumOver_ext. intros q Hq. apply in_seq in Hq.
  unfold part.
  rewrite (ResidualProofs.sumOver_ext _ (fun j => sumOver (fun l => if Nat.eqb (dof q l) (ddof p i)
      then sumOver (fun e => if known q (fst e) && Nat.eqb (cname q (fst e)) (ddof p j) then snd e * X (cname q (fst e)) else 0%Q)
             (native q (toNative q l))
      else 0%Q) (seq 0 (numLocal (fo q))))%Q).
  2:{ intros j _. rewrite <- ResidualProofs.sumOver_scale. apply ResidualProofs.sumOver_ext. intros l _.
      destruct (Nat.eqb (dof q l) (ddof p i)); [|ring]. rewrite <- ResidualProofs.sumOver_scale.
      apply ResidualProofs.sumOver_ext. intros e _. destruct (known q (fst e)), (Nat.eqb_spec (cname q (fst e)) (ddof p j)) as [->|]; cbn [andb]; ring. }
  rewrite sum_swap. apply ResidualProofs.sumOver_ext. intros l Hl. apply in_seq in Hl.
  destruct (Nat.eqb_spec (dof q l) (ddof p i)) as [El|]; [|apply ResidualProofs.sumOver_zero].
  rewrite sum_swap. apply ResidualProofs.sumOver_ext. intros [c v] Hin. cbn [fst snd].
  destruct (known q c) eqn:Ek; cbn [andb]; [|apply ResidualProofs.sumOver_zero].
  destruct (seen (cname q c)) eqn:Es.
  2:{ apply sum_nothing. intros k Hk'. apply in_seq in Hk'. destruct (Nat.eqb_spec (cname q c) (ddof p k)) as [E|]; [|reflexivity].
      exfalso. assert (K : seen (cname q c) = true) by (apply Hk; exists k; split; [lia|auto]). congruence. }
  destruct (proj1 (Hk (cname q c)) Es) as (j & Hj & Ej).
  rewrite (sum_one _ j).
  - rewrite Ej, Nat.eqb_refl. reflexivity.
  - apply seq_NoDup.
  - apply in_seq. lia.
  - intros k Hk' Hne. apply in_seq in Hk'. destruct (Nat.eqb_spec (cname q c) (ddof p k)); [|reflexivity].
    exfalso. apply Hne. apply (dm_inj _ _ _ _ _ _ _ _ (DM p Hp)); [lia|auto|congruence].
Qed.

End System.
