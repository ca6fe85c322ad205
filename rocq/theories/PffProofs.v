(** * Proofs about the prefetch friendly grid vector *)
From Coq Require Import List Arith Bool Lia.
From Verif Require Import PffModel PffSpec.
Import ListNotations.

Lemma setNth_length : forall (A : Type) n (x : A) l, length (setNth n x l) = length l.
Proof. intros A n x l. revert n. induction l as [|y l IH]; intros [|n]; cbn; try reflexivity. now rewrite IH. Qed.
Lemma setNth_same : forall (A : Type) n (x : A) l, n < length l -> nth_error (setNth n x l) n = Some x.
Proof. intros A n x l. revert n. induction l as [|y l IH]; intros [|n] H; cbn in *; try lia; [reflexivity|]. apply IH. lia. Qed.
Lemma setNth_other : forall (A : Type) n m (x : A) l, m <> n -> nth_error (setNth n x l) m = nth_error l m.
Proof.
  intros A n m x l. revert n m. induction l as [|y l IH]; intros [|n] [|m] H; cbn; try reflexivity; [contradiction|]. apply IH. lia.
Qed.
Definition total (es : list element) : nat := list_sum (map el_dofs es).
Lemma total_cons : forall e es, total (e :: es) = el_dofs e + total es.
Proof. reflexivity. Qed.
Lemma numLocalDofs : forall es, computeNumLocalDofs es = total es.
Proof.
  intros es. unfold computeNumLocalDofs.
  assert (G : forall n, fold_left (fun r e => r + el_dofs e) es n = n + total es).
  { induction es as [|e es IH]; intros n; cbn [fold_left]; [cbn; lia|]. rewrite IH, total_cons. lia. }
  apply G.
Qed.

Section P.
Variable D : Type.
Variable dflt : D.
Variable dist : nat -> nat -> D -> D.

Lemma fill_length : forall idx n k cur c, length (fill D dflt dist idx k n cur c) = length c.
Proof. intros idx. induction n as [|n IH]; intros k cur c; cbn [fill]; [reflexivity|]. now rewrite IH, setNth_length. Qed.
Lemma fill_out : forall idx n k cur c j, j < cur + k \/ cur + k + n <= j -> nth_error (fill D dflt dist idx k n cur c) j = nth_error c j.
Proof.
  intros idx. induction n as [|n IH]; intros k cur c j H; cbn [fill]; [reflexivity|]. rewrite IH by lia. apply setNth_other. lia.
Qed.
Lemma fill_in : forall idx n k cur c i, cur + k + n <= length c -> k <= i < k + n ->
  nth_error (fill D dflt dist idx k n cur c) (cur + i) = Some (dist idx i (nth (cur + i) c dflt)).
Proof.
  intros idx. induction n as [|n IH]; intros k cur c i L H; cbn [fill]; [lia|].
  destruct (Nat.eq_dec i k) as [->|NE].
  - rewrite fill_out by lia. apply setNth_same. lia.
  - rewrite IH by (rewrite ?setNth_length; lia). f_equal. f_equal.
    assert (E : nth_error (setNth (cur + k) (dist idx k (nth (cur + k) c dflt)) c) (cur + i) = nth_error c (cur + i)) by (apply setNth_other; lia).
    rewrite <- (nth_default_eq (cur + i) (setNth _ _ _)), <- (nth_default_eq (cur + i) c). unfold nth_default. now rewrite E.
Qed.

Lemma loop_some : forall b es cur c ptr, (forall e, In e es -> el_idx e < length ptr) ->
  exists c' ptr', loop D dflt dist b es cur c ptr = Some (c', ptr').
Proof.
  intros b. induction es as [|e es IH]; intros cur c ptr H; cbn [loop]; [exists c, ptr; reflexivity|].
  destruct (Nat.ltb_spec (el_idx e) (length ptr)) as [K|K]; [|specialize (H e (or_introl eq_refl)); lia].
  apply IH. intros x X. rewrite setNth_length. apply H. right. exact X.
Qed.
Lemma loop_keep : forall b c' ptr' i es cu c0 p0, ~ In i (map el_idx es) -> loop D dflt dist b es cu c0 p0 = Some (c', ptr') ->
  nth_error ptr' i = nth_error p0 i.
Proof.
  intros b c' ptr' i. induction es as [|z es IHz]; intros cu c0 p0 N H; cbn [loop] in H; [now injection H as <- <-|].
  destruct (Nat.ltb_spec (el_idx z) (length p0)) as [K|K]; [|discriminate]. cbn [map In] in N.
  rewrite (IHz _ _ _ ltac:(tauto) H). apply setNth_other. intros Q. apply N. left. congruence.
Qed.
Lemma loop_place : forall b c' ptr' x es cu c0 p0, In x es -> NoDup (map el_idx es) -> loop D dflt dist b es cu c0 p0 = Some (c', ptr') ->
  exists a', nth_error ptr' (el_idx x) = Some (Some (b, a')) /\ cu <= a'.
Proof.
  intros b c' ptr' x. induction es as [|y es IHy]; intros cu c0 p0 X ND H; [destruct X|].
  cbn [loop] in H. destruct (Nat.ltb_spec (el_idx y) (length p0)) as [K|K]; [|discriminate]. inversion ND as [|? ? NI ND']; subst. destruct X as [->|X].
  - exists cu. split; [|lia]. rewrite (loop_keep _ _ _ _ _ _ _ _ NI H). now apply setNth_same.
  - destruct (IHy _ _ _ X ND' H) as (a' & P1 & P2). exists a'. split; [exact P1|lia].
Qed.
Lemma loop_spec : forall b es cur c ptr c' ptr', NoDup (map el_idx es) -> cur + total es <= length c ->
  loop D dflt dist b es cur c ptr = Some (c', ptr') ->
  length c' = length c /\ length ptr' = length ptr /\
  (forall j, j < cur -> nth_error c' j = nth_error c j) /\
  (forall i, ~ In i (map el_idx es) -> nth_error ptr' i = nth_error ptr i) /\
  forall e, In e es -> exists a, nth_error ptr' (el_idx e) = Some (Some (b, a)) /\
    forall k, k < el_dofs e -> nth_error c' (a + k) = Some (dist (el_idx e) k (nth (a + k) c dflt)).
Proof.
  intros b. induction es as [|e es IH]; intros cur c ptr c' ptr' ND L H; cbn [loop] in H.
  - injection H as <- <-. split; [reflexivity|]. split; [reflexivity|]. split; [reflexivity|]. split; [reflexivity|]. intros e [].
  - destruct (Nat.ltb_spec (el_idx e) (length ptr)) as [K|K]; [|discriminate]. rewrite total_cons in L. inversion ND as [|? ? NI ND']; subst.
    assert (L' : cur + el_dofs e + total es <= length (fill D dflt dist (el_idx e) 0 (el_dofs e) cur c)) by (rewrite fill_length; lia).
    destruct (IH _ _ _ _ _ ND' L' H) as (A & A2 & B & C & E). rewrite fill_length in A. rewrite setNth_length in A2.
    split; [exact A|]. split; [exact A2|]. split; [|split].
    + intros j J. rewrite B by lia. apply fill_out. lia.
    + intros i I. cbn [map In] in I. rewrite C by tauto. apply setNth_other. intros ->. apply I. left. reflexivity.
    + intros x [<-|X].
      * exists cur. split; [rewrite C by exact NI; now apply setNth_same|]. intros k J. rewrite B by lia. apply (fill_in _ _ 0); lia.
      * destruct (E x X) as (a & Pa & Va). exists a. split; [exact Pa|]. intros k J. rewrite (Va k J). f_equal. f_equal.
        (* the places of later elements are not written before *)
        pose proof (loop_place b c' ptr' x es _ _ _ X ND' H) as Q.
        destruct Q as (a' & P1 & P2). rewrite Pa in P1. injection P1 as <-.
        rewrite <- (nth_default_eq (a + k) (fill _ _ _ _ _ _ _ _)), <- (nth_default_eq (a + k) c). unfold nth_default.
        rewrite fill_out by lia. reflexivity.
Qed.
Lemma loop_own : forall b es cur c ptr c' ptr', loop D dflt dist b es cur c ptr = Some (c', ptr') ->
  forall i b' a, nth_error ptr' i = Some (Some (b', a)) -> b' = b \/ (nth_error ptr i = Some (Some (b', a)) /\ ~ In i (map el_idx es)).
Proof.
  intros b. induction es as [|e es IH]; intros cur c ptr c' ptr' H i b' a P; cbn [loop] in H.
  - injection H as <- <-. right. split; [exact P|intros []].
  - destruct (Nat.ltb_spec (el_idx e) (length ptr)) as [K|K]; [|discriminate].
    destruct (IH _ _ _ _ _ H i b' a P) as [Q|[Q1 Q2]]; [left; exact Q|]. destruct (Nat.eq_dec i (el_idx e)) as [->|NE].
    + rewrite setNth_same in Q1 by exact K. left. congruence.
    + rewrite setNth_other in Q1 by exact NE. right. split; [exact Q1|]. intros [J|J]; [congruence|contradiction].
Qed.

Lemma resized_length : forall c n, length (resized D dflt c n) = n.
Proof. intros. unfold resized. rewrite app_length, firstn_length, repeat_length. lia. Qed.
Lemma ptr_length : forall o n, length (o_ptr (resizePtr o n)) = n.
Proof. intros. unfold resizePtr. cbn [o_ptr]. rewrite app_length, firstn_length, repeat_length. lia. Qed.
(** The heap and the object after resizing. *)
Lemma resize_spec : forall h o n h' o', valid D h o -> 0 < n -> resizeData D dflt h o n = (h', o') ->
  valid D h' o' /\ o_ptr o' = o_ptr o /\ exists b, o_block o' = Some b /\ h_block D h' b = Some (resized D dflt (contentOf D h o) n) /\
  (forall x, o_block o <> Some x -> x <> b -> h_block D h' x = h_block D h x) /\
  (o_block o = Some b \/ b = h_next D h /\ h_block D h b = None).
Proof.
  intros h o n h' o' [F V] P H. unfold resizeData in H. destruct (Nat.leb_spec n (o_cap o)) as [L|L].
  - destruct (o_block o) as [b|] eqn:B; [|lia]. injection H as <- <-. destruct V as [c V].
    assert (NB : b < h_next D h) by (destruct (Nat.lt_ge_cases b (h_next D h)) as [X|X]; [exact X|rewrite (F b X) in V; discriminate]).
    split; [|split; [reflexivity|]].
    + split.
      * intros x X. cbn [setBlock h_next h_block] in *. destruct (Nat.eqb_spec x b) as [->|N]; [lia|]. now apply F.
      * rewrite B. cbn [setBlock h_block]. rewrite Nat.eqb_refl. eexists. reflexivity.
    + exists b. split; [exact B|]. cbn [setBlock h_block]. rewrite Nat.eqb_refl. split; [reflexivity|]. split; [|left; reflexivity].
      intros x N N'. destruct (Nat.eqb_spec x b) as [->|_]; [contradiction|reflexivity].
  - injection H as <- <-.
    assert (NX : h_next D (freeBlock D h o) = h_next D h) by (unfold freeBlock; destruct (o_block o); reflexivity).
    assert (FB : forall x, o_block o <> Some x -> h_block D (freeBlock D h o) x = h_block D h x).
    { intros x N. unfold freeBlock. destruct (o_block o) as [b|]; [|reflexivity]. cbn [setBlock h_block].
      destruct (Nat.eqb_spec x b) as [->|_]; [contradiction|reflexivity]. }
    rewrite NX. split; [|split; [reflexivity|]].
    + split.
      * intros x X. cbn [h_next h_block] in *. destruct (Nat.eqb_spec x (h_next D h)) as [->|_]; [lia|].
        unfold freeBlock. destruct (o_block o) as [b|]; [cbn [setBlock h_block]; destruct (Nat.eqb x b); [reflexivity|]|]; apply F; lia.
      * cbn [o_block h_block]. rewrite Nat.eqb_refl. eexists. reflexivity.
    + exists (h_next D h). cbn [o_block h_block]. rewrite Nat.eqb_refl. split; [reflexivity|]. split; [reflexivity|].
      split; [|right; split; [reflexivity|now apply F]]. intros x N N'. destruct (Nat.eqb_spec x (h_next D h)) as [->|_]; [contradiction|]. now apply FB.
Qed.
Lemma valid_ptr : forall h o n, valid D h o -> valid D h (resizePtr o n).
Proof. intros h o n V. exact V. Qed.

Theorem update_spec : forall h o es, valid D h o -> numbered es -> 0 < total es ->
  exists h' b ptr cap, update D dflt dist h o es = Some (h', mkObject (Some b) cap ptr) /\ valid D h' (mkObject (Some b) cap ptr) /\
  (forall x, o_block o <> Some x -> x <> b -> h_block D h' x = h_block D h x) /\
  (o_block o = Some b \/ h_block D h b = None) /\ length ptr = length es /\
  (forall i p, nth_error ptr i = Some (Some p) -> fst p = b) /\
  exists c, h_block D h' b = Some c /\ forall e, In e es -> exists a, nth_error ptr (el_idx e) = Some (Some (b, a)) /\
    forall k, k < el_dofs e -> nth_error c (a + k) = Some (dist (el_idx e) k (nth (a + k) (resized D dflt (contentOf D h o) (total es)) dflt)).
Proof.
  intros h o es V [ND IN] P. unfold update. rewrite numLocalDofs.
  destruct (resizeData D dflt h (resizePtr o (length es)) (total es)) as [h2 o2] eqn:R.
  destruct (resize_spec h _ (total es) h2 o2 (valid_ptr h o _ V) P R) as (V2 & OP & b & OB & HB & HX & FR).
  destruct (Nat.eqb_spec (total es) 0) as [Z|_]; [lia|]. rewrite OB.
  assert (CO : contentOf D h2 o2 = resized D dflt (contentOf D h o) (total es)) by (unfold contentOf at 1; rewrite OB, HB; reflexivity).
  rewrite CO. assert (PL : length (o_ptr o2) = length es) by (rewrite OP; apply ptr_length).
  destruct (loop_some b es 0 (resized D dflt (contentOf D h o) (total es)) (o_ptr o2)) as (c & ptr & L).
  { intros e E. rewrite PL. now apply IN. }
  rewrite L. exists (setBlock D h2 b (Some c)), b, ptr, (o_cap o2). split; [reflexivity|].
  assert (LE : 0 + total es <= length (resized D dflt (contentOf D h o) (total es))) by (rewrite resized_length; lia).
  destruct (loop_spec b es 0 _ _ c ptr ND LE L) as (A1 & A2 & _ & _ & E).
  split; [|split; [|split; [|split; [|split]]]].
  - destruct V2 as [F2 _]. split.
    + intros x X. cbn [setBlock h_next h_block] in *. destruct (Nat.eqb_spec x b) as [->|_]; [|now apply F2].
      rewrite (F2 b X) in HB. discriminate.
    + cbn [o_block setBlock h_block]. rewrite Nat.eqb_refl. eexists. reflexivity.
  - intros x N N'. cbn [setBlock h_block]. destruct (Nat.eqb_spec x b) as [->|_]; [contradiction|]. now apply HX.
  - destruct FR as [FR|[_ FR]]; [left; exact FR|right; exact FR].
  - congruence.
  - intros i [b' a] Q. cbn [fst]. destruct (loop_own b es 0 _ _ _ _ L i b' a Q) as [->|[Q1 Q2]]; [reflexivity|].
    exfalso. apply Q2.
    assert (I : i < length es) by (rewrite <- PL; apply nth_error_Some; congruence).
    (* the indices are all of 0 .. length es - 1 *)
    assert (INC : incl (seq 0 (length es)) (map el_idx es)).
    { apply NoDup_length_incl; [exact ND|rewrite map_length, seq_length; lia|]. intros x X. apply in_map_iff in X. destruct X as (e & <- & X).
      apply in_seq. specialize (IN e X). lia. }
    apply INC. apply in_seq. lia.
  - exists c. cbn [setBlock h_block]. rewrite Nat.eqb_refl. split; [reflexivity|]. intros e X. exact (E e X).
Qed.
Theorem update_empty : forall h o es, total es = 0 -> update D dflt dist h o es = None.
Proof.
  intros h o es Z. unfold update. rewrite numLocalDofs. destruct (resizeData D dflt h (resizePtr o (length es)) (total es)). now rewrite Z.
Qed.
End P.
