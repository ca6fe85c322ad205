From Coq Require Import Arith List Bool Lia Sorted Permutation.
From Verif Require Import MpiModel MpiSpec MpiProofs MpiLemmas MpiExchange ExchangeModel
  GlobalIndexModel GlobalIndexSpec GlobalIndexProofs ForeignModel ForeignProofs
  DomesticModel DomesticSpec DomesticProofs VectorModel VectorSpec VectorProofs PipelineModel
  OvMatrixModel OvMatrixSpec.
Import ListNotations.

(* ----- lists ----- *)

Lemma insertAll_in : forall xs s y, In y (insertAll xs s) <-> In y xs \/ In y s.
Proof.
  induction xs as [|x xs IH]; intros s y; cbn; [tauto|].
  unfold insertAll in IH. rewrite IH, setInsert_In. intuition (subst; auto).
Qed.

Lemma insertAll_sorted : forall xs s, StronglySorted lt s -> StronglySorted lt (insertAll xs s).
Proof.
  induction xs as [|x xs IH]; intros s H; cbn; [auto|]. apply IH. apply setInsert_sorted. auto.
Qed.

Lemma sorted_NoDup : forall l, StronglySorted lt l -> NoDup l.
Proof.
  induction l as [|a l IH]; intros H; [constructor|]. inversion H; subst. constructor; [|auto].
  intros K. rewrite Forall_forall in H3. specialize (H3 a K). lia.
Qed.

Lemma insertAll_length : forall xs, NoDup xs -> length (insertAll xs []) = length xs.
Proof.
  intros xs H. apply Permutation_length. apply NoDup_Permutation; [|auto|].
  - apply sorted_NoDup, insertAll_sorted. constructor.
  - intros y. rewrite insertAll_in. cbn. tauto.
Qed.

Lemma combine_maps : forall A B C (f : A -> B) (g : A -> C) l, combine (map f l) (map g l) = map (fun a => (f a, g a)) l.
Proof. induction l; cbn; congruence. Qed.

Lemma sum_acc : forall l s, fold_left Nat.add l s = s + sum l.
Proof.
  unfold sum. induction l as [|a l IH]; intros s; cbn; [lia|]. rewrite IH, (IH a). lia.
Qed.

Lemma sum_cons : forall a l, sum (a :: l) = a + sum l.
Proof. intros. unfold sum at 1. cbn. apply sum_acc. Qed.

Lemma sum_lengths : forall A (ls : list (list A)), sum (map (@length A) ls) = length (concat ls).
Proof. induction ls as [|l ls IH]; [reflexivity|]. cbn [map concat]. rewrite sum_cons, app_length, IH. reflexivity. Qed.

(** Cutting the buffer of all columns into the rows again. *)
Lemma entries_of : forall A (f : A -> nat) (g : nat -> option nat) (S : A -> list nat) lds,
  entriesOf (map f lds) (map (@length nat) (map S lds)) (map g (concat (map S lds)))
  = map (fun lg => (f (fst lg), g (snd lg))) (flat_map (fun ld => map (fun c => (ld, c)) (S ld)) lds).
Proof.
  induction lds as [|ld lds IH]; [reflexivity|]. cbn [map concat flat_map entriesOf].
  rewrite !map_app. f_equal.
  - rewrite <- (map_length g (S ld)), firstn_app, firstn_all, Nat.sub_diag. cbn [firstn].
    rewrite app_nil_r, !map_map. reflexivity.
  - rewrite <- IH. f_equal. rewrite <- (map_length g (S ld)), skipn_app, skipn_all, Nat.sub_diag. reflexivity.
Qed.

Section System.
Variable N : nat.
Variable fo : nat -> foreignOverlap.
Variable shared : nat -> nat -> list (nat * nat).
Variable dof : nat -> nat -> nat.
Variable number : nat -> nat.
Variable total : nat.
Variable ddof : nat -> nat -> nat.
Variable dom : nat -> domestic.
Hypothesis SY : system N fo shared dof number total ddof dom.

Let D := sy_distributed _ _ _ _ _ _ _ _ SY.
Let O := sy_overlapping _ _ _ _ _ _ _ _ SY.
Let NU := sy_numbering _ _ _ _ _ _ _ _ SY.
Let DM := sy_domestic _ _ _ _ _ _ _ _ SY.

Context {V : Type}.
Variable toNative : nat -> nat -> nat.
Variable native : nat -> nat -> list (nat * V).
Variable cname : nat -> nat -> nat.
Variable known : nat -> nat -> bool.
Variable black : nat -> list (nat * option nat).
Variable numRows : nat -> nat.
Variable graph : nat -> nat -> list nat.

Notation col p := (columnOf (fo p) (black p)).
Hypothesis NM : nativeMatrices N fo toNative native cname known ddof (fun p => domSize (dom p))
  (fun p => columnOf (fo p) (black p)) numRows graph.

Notation rcols p := (rowColumns (fo p) (black p) (graph p)).
Notation cset p := (columnSet (fo p) (dom p) (black p) (toNative p) (graph p)).
Notation gcols p := (globalColumns (fo p) (dom p) (black p) (toNative p) (graph p)).
Notation ents p := (localEntries (fo p) (dom p) (black p) (numRows p) (graph p)).

Lemma rowColumns_in : forall p n j, p < N -> (In j (rcols p n) <->
  exists c v, In (c, v) (native p n) /\ col p c = Some j).
Proof.
  intros p n j Hp. unfold rowColumns. rewrite <- (nm_graph _ _ _ _ _ _ _ _ _ _ _ NM p n Hp). rewrite in_flat_map. split.
  - intros (c & H & K). apply in_map_iff in H. destruct H as ([c' v] & <- & H). cbn [fst] in *. exists c', v. split; [auto|].
    destruct (col p c') as [j'|]; [|destruct K]. destruct K as [->|[]]. reflexivity.
  - intros (c & v & H & E). exists c. split; [apply in_map_iff; exists (c, v); auto|]. rewrite E. left. reflexivity.
Qed.

Lemma rowColumns_names : forall p n, p < N -> NoDup (map (ddof p) (rcols p n)).
Proof.
  intros p n Hp. pose proof (nm_once _ _ _ _ _ _ _ _ _ _ _ NM p n Hp) as H.
  unfold rowColumns. rewrite <- (nm_graph _ _ _ _ _ _ _ _ _ _ _ NM p n Hp).
  induction (native p n) as [|[c v] es IH]; [constructor|].
  cbn [map fst flat_map] in *. inversion H as [|? ? H1 H2]; subst.
  destruct (col p c) as [j|] eqn:E; [|apply IH; auto]. cbn [app map]. constructor; [|apply IH; auto].
  intros K. apply H1. apply in_map_iff in K. destruct K as (j' & E1 & K).
  apply in_flat_map in K. destruct K as (c' & K1 & K2). apply in_map_iff in K1. destruct K1 as ([c2 v'] & <- & K1). cbn [fst] in K2.
  destruct (col p c2) as [j2|] eqn:E2; [|destruct K2]. destruct K2 as [->|[]].
  apply in_map_iff. exists (c2, v'). split; [|auto]. cbn [fst].
  rewrite <- (proj2 (nm_column _ _ _ _ _ _ _ _ _ _ _ NM p c2 j' Hp E2)), E1.
  apply (nm_column _ _ _ _ _ _ _ _ _ _ _ NM p c j Hp E).
Qed.

Lemma rowColumns_lt : forall p n j, p < N -> In j (rcols p n) -> j < domSize (dom p).
Proof.
  intros p n j Hp H. apply rowColumns_in in H; [|auto]. destruct H as (c & v & _ & E).
  apply (nm_column _ _ _ _ _ _ _ _ _ _ _ NM p c j Hp E).
Qed.

Lemma d2g : forall p i, p < N -> i < domSize (dom p) -> domesticToGlobal (domIdx (dom p)) i = Some (number (ddof p i)).
Proof. intros p i Hp Hi. apply (dm_d2g _ _ _ _ _ _ _ _ (DM p Hp)). auto. Qed.

Lemma g2d : forall p i, p < N -> i < domSize (dom p) -> globalToDomestic (domIdx (dom p)) (number (ddof p i)) = Some i.
Proof. intros p i Hp Hi. apply (dm_g2d _ _ _ _ _ _ _ _ (DM p Hp)). auto. Qed.

(** Somebody has every degree of freedom which is known somewhere. *)
Lemma somewhere : forall p i, p < N -> i < domSize (dom p) -> exists q, q < N /\ has fo dof q (ddof p i).
Proof.
  intros p i Hp Hi.
  destruct (proj2 (dm_knows _ _ _ _ _ _ _ _ (DM p Hp) (ddof p i)) (ex_intro _ i (conj Hi eq_refl))) as [H|(q & l & Hq & Ht & E)].
  - exists p. auto.
  - exists q. split; [auto|]. exists l. split; [apply (ov_local _ _ _ _ O q p l Hq Ht)|auto].
Qed.

Lemma number_inj : forall p q i j, p < N -> q < N -> i < domSize (dom p) -> j < domSize (dom q) ->
  number (ddof p i) = number (ddof q j) -> ddof p i = ddof q j.
Proof.
  intros p q i j Hp Hq Hi Hj E. destruct NU as (_ & Inj & _).
  destruct (somewhere p i Hp Hi) as (a & Ha & A). destruct (somewhere q j Hq Hj) as (b & Hb & B).
  apply (Inj a b); auto.
Qed.

Lemma global_columns : forall p l, p < N ->
  allSome (gcols p l) = true /\ values0 (gcols p l) = map (fun j => number (ddof p j)) (rcols p (toNative p l)).
Proof.
  intros p l Hp. unfold globalColumns. apply allSome_map. intros j Hj.
  apply d2g; [auto|]. apply (rowColumns_lt p _ j Hp Hj).
Qed.

Lemma number_NoDup : forall p n, p < N -> NoDup (map (fun j => number (ddof p j)) (rcols p n)).
Proof.
  intros p n Hp. pose proof (rowColumns_names p n Hp) as H.
  assert (L : forall j, In j (rcols p n) -> j < domSize (dom p)) by (intros; eapply rowColumns_lt; eauto).
  induction (rcols p n) as [|j js IH]; [constructor|]. cbn [map] in *. inversion H as [|? ? H1 H2]; subst.
  constructor; [|apply IH; [auto|intros; apply L; right; auto]].
  intros K. apply H1. apply in_map_iff in K. destruct K as (j' & E & K). apply in_map_iff. exists j'. split; [|auto].
  apply number_inj in E; auto; apply L; [right|left]; auto.
Qed.

Lemma columnSet_in : forall p l g, p < N -> (In g (cset p l) <->
  exists j, In j (rcols p (toNative p l)) /\ g = number (ddof p j)).
Proof.
  intros p l g Hp. unfold columnSet. rewrite insertAll_in, (proj2 (global_columns p l Hp)), in_map_iff. cbn [In].
  split.
  - intros [(j & <- & H)|[]]. eauto.
  - intros (j & H & ->). left. eauto.
Qed.

Lemma columnSet_length : forall p l, p < N -> length (cset p l) = length (gcols p l).
Proof.
  intros p l Hp. unfold columnSet. rewrite (proj2 (global_columns p l Hp)).
  rewrite insertAll_length by (apply number_NoDup; auto).
  unfold globalColumns. rewrite !map_length. reflexivity.
Qed.

Lemma columns_for : forall p q, p < N ->
  columnsFor (fo p) (shared p) (dom p) (black p) (toNative p) (graph p) q
  = concat (map (fun ld => cset p (fst ld)) (shared p q)).
Proof.
  intros p q Hp. unfold columnsFor.
  replace (numEntriesFor _ _ _ _ _ _ q) with (length (concat (setsFor (fo p) (shared p) (dom p) (black p) (toNative p) (graph p) q))).
  - rewrite Nat.sub_diag. cbn [repeat]. rewrite app_nil_r. reflexivity.
  - unfold numEntriesFor, setsFor. rewrite <- sum_lengths. f_equal. rewrite map_map. apply map_ext.
    intros [l d]. cbn [fst]. apply columnSet_length. auto.
Qed.

Lemma rows_for : forall p q, p < N ->
  allSome (rowsFor (shared p) (dom p) q) = true
  /\ values0 (rowsFor (shared p) (dom p) q) = map (fun ld => number (dof p (fst ld))) (shared p q).
Proof.
  intros p q Hp. unfold rowsFor. apply allSome_map. intros [l d] Hin. cbn [fst].
  apply (local_global N fo shared dof number total ddof dom SY p l Hp).
  apply (ov_local _ _ _ _ O p q l Hp). exists d; auto.
Qed.

Lemma send_defined : forall p, p < N ->
  forallb (sendDefinedFor (fo p) (shared p) (dom p) (black p) (toNative p) (graph p)) (peerSet (fo p)) = true.
Proof.
  intros p Hp. apply forallb_forall. intros q _. unfold sendDefinedFor.
  rewrite (proj1 (rows_for p q Hp)). cbn [andb]. apply forallb_forall. intros [l d] _. cbn [fst].
  apply (global_columns p l Hp).
Qed.

(* ----- the buffers ----- *)

(** The entries which q sends to p: local row and global column. *)
Definition pairsOf (q p : nat) : list (nat * nat) :=
  flat_map (fun ld => map (fun g => (fst ld, g)) (cset q (fst ld))) (shared q p).

Definition rowAt (p q l : nat) : nat :=
  match globalToDomestic (domIdx (dom p)) (number (dof q l)) with Some i => i | None => 0 end.

Definition sentBuffer (p q : nat) : indexBuffers :=
  mkIndexBuffers (map fst (shared p q)) (map (@length nat) (map (fun ld => cset p (fst ld)) (shared p q)))
    (map (globalToDomestic (domIdx (dom p))) (concat (map (fun ld => cset p (fst ld)) (shared p q)))).

Definition receivedBuffer (p q : nat) : indexBuffers :=
  mkIndexBuffers (map (fun ld => rowAt p q (fst ld)) (shared q p))
    (map (@length nat) (map (fun ld => cset q (fst ld)) (shared q p)))
    (map (globalToDomestic (domIdx (dom p))) (concat (map (fun ld => cset q (fst ld)) (shared q p)))).

Lemma sent_entries : forall p q,
  bufferEntries (sentBuffer p q)
  = map (fun lg => (fst lg, globalToDomestic (domIdx (dom p)) (snd lg))) (pairsOf p q).
Proof.
  intros p q. unfold bufferEntries, sentBuffer. cbn [bRows bSizes bCols].
  rewrite (entries_of _ fst (globalToDomestic (domIdx (dom p))) (fun ld => cset p (fst ld))).
  unfold pairsOf. induction (shared p q) as [|ld lds IH]; [reflexivity|].
  cbn [flat_map]. rewrite !map_app, IH, !map_map. reflexivity.
Qed.

Lemma received_entries : forall p q,
  bufferEntries (receivedBuffer p q)
  = map (fun lg => (rowAt p q (fst lg), globalToDomestic (domIdx (dom p)) (snd lg))) (pairsOf q p).
Proof.
  intros p q. unfold bufferEntries, receivedBuffer. cbn [bRows bSizes bCols].
  rewrite (entries_of _ (fun ld => rowAt p q (fst ld)) (globalToDomestic (domIdx (dom p))) (fun ld => cset q (fst ld))).
  unfold pairsOf. induction (shared q p) as [|ld lds IH]; [reflexivity|].
  cbn [flat_map]. rewrite !map_app, IH, !map_map. reflexivity.
Qed.

Lemma pairs_length : forall p q, length (pairsOf p q) = length (concat (map (fun ld => cset p (fst ld)) (shared p q))).
Proof.
  intros p q. unfold pairsOf. induction (shared p q) as [|ld lds IH]; [reflexivity|].
  cbn [flat_map map concat]. rewrite !app_length, map_length, IH. reflexivity.
Qed.

Lemma pairs_in : forall q p l g, q < N -> (In (l, g) (pairsOf q p) <->
  tells shared q p l /\ exists c v j, In (c, v) (native q (toNative q l)) /\ col q c = Some j /\ g = number (cname q c)).
Proof.
  intros q p l g Hq. unfold pairsOf. rewrite in_flat_map. split.
  - intros ([l' d] & H & K). apply in_map_iff in K. destruct K as (g' & E & K). cbn [fst] in *. injection E as -> ->.
    split; [exists d; auto|]. apply (columnSet_in q l g Hq) in K. destruct K as (j & Hj & ->).
    apply rowColumns_in in Hj; [|auto]. destruct Hj as (c & v & Hin & E). exists c, v, j. split; [auto|]. split; [auto|].
    rewrite (proj2 (nm_column _ _ _ _ _ _ _ _ _ _ _ NM q c j Hq E)). reflexivity.
  - intros ((d & H) & c & v & j & Hin & E & ->). exists (l, d). split; [auto|]. apply in_map_iff.
    exists (number (cname q c)). split; [reflexivity|]. cbn [fst]. apply (columnSet_in q l _ Hq). exists j.
    split; [apply rowColumns_in; eauto|]. rewrite (proj2 (nm_column _ _ _ _ _ _ _ _ _ _ _ NM q c j Hq E)). reflexivity.
Qed.

Lemma pairs_NoDup : forall q p, q < N -> NoDup (pairsOf q p).
Proof.
  intros q p Hq. pose proof (ov_once _ _ _ _ O q p Hq) as H. unfold pairsOf.
  induction (shared q p) as [|[l d] lds IH]; [constructor|]. cbn [map fst flat_map] in *.
  inversion H as [|? ? H1 H2]; subst.
  assert (G : forall l1 l2 : list (nat * nat), NoDup l1 -> NoDup l2 -> (forall a, In a l1 -> ~ In a l2) -> NoDup (l1 ++ l2)).
  { induction l1 as [|a l1 IH1]; intros l2 M1 M2 M3; [auto|]. inversion M1; subst. cbn. constructor.
    - intros K. apply in_app_or in K. destruct K as [K|K]; [contradiction|]. apply (M3 a); [left; auto|auto].
    - apply IH1; auto. intros b Hb. apply M3. right; auto. }
  apply G; [|auto|].
  - apply FinFun.Injective_map_NoDup; [intros a b E; injection E as E; auto|].
    apply sorted_NoDup. unfold columnSet. apply insertAll_sorted. constructor.
  - intros [l' g] K1 K2. apply in_map_iff in K1. destruct K1 as (g' & E & _). injection E as <- _.
    apply in_flat_map in K2. destruct K2 as ([l2 d2] & K2 & K3). apply in_map_iff in K3. cbn [fst] in K3.
    destruct K3 as (g2 & E & _). injection E as -> _. apply H1. apply in_map_iff. exists (l, d2). auto.
Qed.

Lemma rowAt_spec : forall p q l, p < N -> q < N -> tells shared q p l ->
  rowAt p q l < domSize (dom p) /\ ddof p (rowAt p q l) = dof q l
  /\ globalToDomestic (domIdx (dom p)) (number (dof q l)) = Some (rowAt p q l).
Proof.
  intros p q l Hp Hq H.
  destruct (told_known N fo shared dof number total ddof dom SY p q l Hp Hq H) as (i & Hi & E & G).
  unfold rowAt. rewrite G. auto.
Qed.

(* ----- building ----- *)

Notation sizesOf q p := (map (@length nat) (setsFor (fo q) (shared q) (dom q) (black q) (toNative q) (graph q) p)).
Notation globalsOf q p := (values0 (rowsFor (shared q) (dom q) p)).
Notation colsOf q p := (columnsFor (fo q) (shared q) (dom q) (black q) (toNative q) (graph q) p).

Definition initial (p : nat) : structure :=
  mkStructure (forallb (sendDefinedFor (fo p) (shared p) (dom p) (black p) (toNative p) (graph p)) (peerSet (fo p)))
    (ents p) (fun _ => noBuffers) (fun _ => noBuffers).

Definition built (p : nat) : structure :=
  fold_left (convertSent (fo p) (shared p) (dom p) (black p) (toNative p) (graph p)) (peerSet (fo p))
    (fold_left (fun st q => gotIndices (dom p) q (sizesOf q p) (globalsOf q p) (colsOf q p) st)
       (peerSet (fo p)) (initial p)).

Lemma sizes_match : forall q p, q < N ->
  length (shared q p) = length (sizesOf q p) /\ length (shared q p) = length (globalsOf q p)
  /\ sum (sizesOf q p) = length (colsOf q p).
Proof.
  intros q p Hq. unfold setsFor. rewrite !map_length. split; [auto|]. split.
  - rewrite (proj2 (rows_for q p Hq)), map_length. reflexivity.
  - rewrite (columns_for q p Hq), sum_lengths. reflexivity.
Qed.

Lemma build_run : assuredRun
  (cfg N (fun p => buildMatrix (fo p) (shared p) (dom p) (black p) (toNative p) (numRows p) (graph p)) noMsg)
  (cfg N (fun p => Ret (built p)) noMsg).
Proof.
  apply (exchange_peers structure N (fun p => peerSet (fo p))
    (fun p q => [Count (length (shared p q)); Items (sizesOf p q); Items (globalsOf p q); Items (colsOf p q)]));
    [apply (sym_peers N fo shared dof number total ddof dom SY)|].
  intros p Hp. unfold buildMatrix. apply atrace_bind with (r := initial p).
  { apply atrace_skip. intros q _. cbn. repeat constructor. }
  apply atrace_bind with (r := fold_left (fun st q => gotIndices (dom p) q (sizesOf q p) (globalsOf q p) (colsOf q p) st)
       (peerSet (fo p)) (initial p)).
  { apply (atrace_forEach _ _ _ _ _ (fun st q => gotIndices (dom p) q (sizesOf q p) (globalsOf q p) (colsOf q p) st) (fun _ _ => True)); [auto|].
    intros q pre post s' Eq _. split; [|auto]. unfold receiveIndices. cbn [map].
    assert (Hq : In q (peerSet (fo p))) by (rewrite Eq; apply in_or_app; right; left; auto).
    destruct (ov_range _ _ _ _ O p q Hp Hq) as [HqN _].
    destruct (sizes_match q p HqN) as (E1 & E2 & E3).
    apply at_recv. apply at_recv. apply at_recv. apply at_recv.
    rewrite <- E1, <- E2, E3, !Nat.eqb_refl. cbn [andb]. constructor. }
  rewrite <- (app_nil_r (flat_map _ _)).
  apply atrace_bind with (r := fold_left (fun st q => gotIndices (dom p) q (sizesOf q p) (globalsOf q p) (colsOf q p) st)
       (peerSet (fo p)) (initial p)).
  { apply atrace_skip. intros q _. cbn. repeat constructor. }
  constructor.
Qed.

Lemma got_buffer : forall p q st, p < N -> In q (peerSet (fo p)) ->
  gotIndices (dom p) q (sizesOf q p) (globalsOf q p) (colsOf q p) st
  = mkStructure (mxOk st) (addEntries (bufferEntries (receivedBuffer p q)) (mxColumns st))
      (mxSend st) (setPeer q (receivedBuffer p q) (mxRecv st)).
Proof.
  intros p q st Hp Hq. destruct (ov_range _ _ _ _ O p q Hp Hq) as [HqN _].
  unfold gotIndices, toDomestic. rewrite (proj2 (rows_for q p HqN)), (columns_for q p HqN), map_map.
  destruct (allSome_map (nat * nat) (fun ld => globalToDomestic (domIdx (dom p)) (number (dof q (fst ld))))
     (fun ld => rowAt p q (fst ld)) (shared q p)) as [A1 A2].
  { intros [l d] Hin. cbn [fst]. apply (rowAt_spec p q l Hp HqN). exists d; auto. }
  rewrite A1, A2, andb_true_r. reflexivity.
Qed.

Lemma sent_buffer : forall p q st, p < N ->
  convertSent (fo p) (shared p) (dom p) (black p) (toNative p) (graph p) st q
  = mkStructure (mxOk st) (mxColumns st) (setPeer q (sentBuffer p q) (mxSend st)) (mxRecv st).
Proof.
  intros p q st Hp. unfold convertSent, toDomestic.
  rewrite (proj2 (rows_for p q Hp)), (columns_for p q Hp), map_map.
  destruct (allSome_map (nat * nat) (fun ld => globalToDomestic (domIdx (dom p)) (number (dof p (fst ld))))
     fst (shared p q)) as [A1 A2].
  { intros [l d] Hin. cbn [fst].
    assert (Hl : l < numLocal (fo p)) by (apply (ov_local _ _ _ _ O p q l Hp); exists d; auto).
    pose proof (dm_size _ _ _ _ _ _ _ _ (DM p Hp)).
    rewrite <- (dm_local _ _ _ _ _ _ _ _ (DM p Hp) l Hl). apply g2d; [auto|lia]. }
  rewrite A1, A2, andb_true_r. reflexivity.
Qed.

Lemma built_form : forall p, p < N ->
  mxOk (built p) = true
  /\ mxColumns (built p) = fold_left (fun cs q => addEntries (bufferEntries (receivedBuffer p q)) cs) (peerSet (fo p)) (ents p)
  /\ (forall q, In q (peerSet (fo p)) -> mxSend (built p) q = sentBuffer p q)
  /\ (forall q, In q (peerSet (fo p)) -> mxRecv (built p) q = receivedBuffer p q).
Proof.
  intros p Hp. unfold built.
  assert (R : forall qs st, (forall q, In q qs -> In q (peerSet (fo p))) ->
    let st' := fold_left (fun st q => gotIndices (dom p) q (sizesOf q p) (globalsOf q p) (colsOf q p) st) qs st in
    mxOk st' = mxOk st
    /\ mxColumns st' = fold_left (fun cs q => addEntries (bufferEntries (receivedBuffer p q)) cs) qs (mxColumns st)
    /\ forall q, In q qs \/ mxRecv st q = receivedBuffer p q -> mxRecv st' q = receivedBuffer p q).
  { induction qs as [|q qs IH]; intros st Hqs st'; subst st'.
    - cbn. split; [auto|]. split; [auto|]. intros q [[]|H]; auto.
    - cbn [fold_left]. rewrite (got_buffer p q st Hp (Hqs q (or_introl eq_refl))).
      match goal with |- context [fold_left (fun st q => gotIndices _ q _ _ _ st) qs ?s] =>
        destruct (IH s) as (I1 & I2 & I3); [intros; apply Hqs; right; auto|] end.
      split; [exact I1|]. split; [exact I2|]. intros q' Hq'. apply I3. cbn [mxRecv]. unfold setPeer.
      destruct (Nat.eqb_spec q' q) as [->|Hne]; [auto|]. destruct Hq' as [[->|K]|K]; [congruence|auto|auto]. }
  assert (C : forall qs st,
    let st' := fold_left (convertSent (fo p) (shared p) (dom p) (black p) (toNative p) (graph p)) qs st in
    mxOk st' = mxOk st /\ mxColumns st' = mxColumns st /\ mxRecv st' = mxRecv st
    /\ forall q, In q qs \/ mxSend st q = sentBuffer p q -> mxSend st' q = sentBuffer p q).
  { induction qs as [|q qs IH]; intros st st'; subst st'.
    - cbn. do 3 (split; [auto|]). intros q [[]|H]; auto.
    - cbn [fold_left]. rewrite (sent_buffer p q st Hp).
      match goal with |- context [fold_left (convertSent _ _ _ _ _ _) qs ?s] =>
        destruct (IH s) as (I1 & I2 & I3 & I4) end.
      split; [exact I1|]. split; [exact I2|]. split; [exact I3|]. intros q' Hq'. apply I4. cbn [mxSend]. unfold setPeer.
      destruct (Nat.eqb_spec q' q) as [->|Hne]; [auto|]. destruct Hq' as [[->|K]|K]; [congruence|auto|auto]. }
  destruct (R (peerSet (fo p)) (initial p)) as (R1 & R2 & R3); [auto|].
  match goal with |- context [fold_left (convertSent _ _ _ _ _ _) (peerSet (fo p)) ?s] =>
    destruct (C (peerSet (fo p)) s) as (C1 & C2 & C3 & C4) end.
  split; [rewrite C1, R1; apply (send_defined p Hp)|]. split; [rewrite C2, R2; reflexivity|].
  split; [intros q Hq; apply C4; auto|]. intros q Hq. rewrite C3. apply R3. auto.
Qed.

(* ----- the structure ----- *)

Lemma local_entries : forall p, p < N -> length (ents p) = domSize (dom p)
  /\ forall i j, In j (nth i (ents p) []) <-> i < numLocal (fo p) /\ In j (rcols p (toNative p i)).
Proof.
  intros p Hp. unfold localEntries.
  assert (G : forall ns es, length es = domSize (dom p) -> NoDup ns ->
    let es' := fold_left (fun es n =>
      match nativeToLocal (fo p) n with
      | Some l => upd es l (insertAll (rcols p n) (nth l es []))
      | None => es
      end) ns es in
    length es' = domSize (dom p)
    /\ forall i j, In j (nth i es' []) <->
       In j (nth i es []) \/ exists n, In n ns /\ nativeToLocal (fo p) n = Some i /\ In j (rcols p n)).
  { induction ns as [|n ns IH]; intros es Le ND es'; subst es'.
    - cbn. split; [auto|]. intros i j. split; [auto|]. intros [H|(n & [] & _)]; auto.
    - cbn [fold_left]. inversion ND as [|? ? N1 N2]; subst.
      destruct (nativeToLocal (fo p) n) as [l|] eqn:E.
      + destruct (nm_rows _ _ _ _ _ _ _ _ _ _ _ NM p n l Hp E) as (Hl & _ & _).
        pose proof (dm_size _ _ _ _ _ _ _ _ (DM p Hp)).
        destruct (IH (upd es l (insertAll (rcols p n) (nth l es [])))) as [I1 I2]; [rewrite upd_len; auto|auto|].
        split; [exact I1|]. intros i j. rewrite I2. destruct (Nat.eq_dec i l) as [->|Hne].
        * rewrite nth_upd_eq by lia. rewrite insertAll_in. split.
          -- intros [[K|K]|(n' & K1 & K2)]; [right; exists n; cbn; auto|auto|right; exists n'; cbn; tauto].
          -- intros [K|(n' & [->|K1] & K2 & K3)]; [auto|auto|right; eauto].
        * rewrite nth_upd_ne by auto. split.
          -- intros [K|(n' & K1 & K2)]; [auto|right; exists n'; cbn; tauto].
          -- intros [K|(n' & [->|K1] & K2 & K3)]; [auto|congruence|right; eauto].
      + destruct (IH es Le N2) as [I1 I2]. split; [exact I1|]. intros i j. rewrite I2. split.
        * intros [K|(n' & K1 & K2)]; [auto|right; exists n'; cbn; tauto].
        * intros [K|(n' & [->|K1] & K2 & K3)]; [auto|congruence|right; eauto]. }
  destruct (G (seq 0 (numRows p)) (repeat [] (domSize (dom p)))) as [G1 G2]; [apply repeat_length|apply seq_NoDup|].
  split; [exact G1|]. intros i j. rewrite G2. split.
  - intros [K|(n & K1 & K2 & K3)].
    + exfalso. assert (E : nth i (repeat (@nil nat) (domSize (dom p))) [] = []).
      { destruct (Nat.lt_ge_cases i (domSize (dom p))); [apply nth_repeat|apply nth_overflow; rewrite repeat_length; auto]. }
      rewrite E in K. destruct K.
    + destruct (nm_rows _ _ _ _ _ _ _ _ _ _ _ NM p n i Hp K2) as (Hl & _ & E). rewrite E. auto.
  - intros [Hl K]. right. exists (toNative p i).
    pose proof (nm_native _ _ _ _ _ _ _ _ _ _ _ NM p i Hp Hl) as E.
    destruct (nm_rows _ _ _ _ _ _ _ _ _ _ _ NM p _ i Hp E) as (_ & Hn & _).
    split; [apply in_seq; lia|]. auto.
Qed.

Lemma add_entries : forall es cs, (forall e, In e es -> fst e < length cs) ->
  length (addEntries es cs) = length cs
  /\ forall i j, In j (nth i (addEntries es cs) []) <-> In j (nth i cs []) \/ In (i, Some j) es.
Proof.
  unfold addEntries. induction es as [|[r o] es IH]; intros cs H.
  - cbn. split; [auto|]. intros i j. tauto.
  - cbn [fold_left fst snd]. pose proof (H (r, o) (or_introl eq_refl)) as Hr. cbn [fst] in Hr.
    destruct o as [k|].
    + destruct (IH (upd cs r (setInsert k (nth r cs [])))) as [I1 I2].
      { intros e He. rewrite upd_len. apply H. right; auto. }
      split; [rewrite I1; apply upd_len|]. intros i j. rewrite I2. cbn [In].
      destruct (Nat.eq_dec i r) as [->|Hne].
      * rewrite nth_upd_eq by auto. rewrite setInsert_In. intuition congruence.
      * rewrite nth_upd_ne by auto. intuition congruence.
    + destruct (IH cs) as [I1 I2]; [intros; apply H; right; auto|]. split; [auto|].
      intros i j. rewrite I2. cbn [In]. intuition congruence.
Qed.

(** The columns which arrive from q for row i. *)
Lemma received_in : forall p q i j, p < N -> In q (peerSet (fo p)) ->
  (In (i, Some j) (bufferEntries (receivedBuffer p q)) <->
   i < domSize (dom p) /\ j < domSize (dom p) /\ exists v, hasEntry fo dof toNative native cname known q (ddof p i) (ddof p j) v).
Proof.
  intros p q i j Hp Hq. destruct (ov_range _ _ _ _ O p q Hp Hq) as [HqN Hne].
  rewrite received_entries, in_map_iff. split.
  - intros ([l g] & E & H). cbn [fst snd] in E. injection E as E1 E2.
    apply (pairs_in q p l g HqN) in H. destruct H as (Ht & c & v & k & Hin & Ec & ->).
    destruct (rowAt_spec p q l Hp HqN Ht) as (R1 & R2 & _). rewrite E1 in R1, R2.
    apply (dm_g2d _ _ _ _ _ _ _ _ (DM p Hp)) in E2. destruct E2 as [Hj E2].
    split; [auto|]. split; [auto|]. exists v, l, c.
    split; [apply (ov_local _ _ _ _ O q p l HqN Ht)|]. split; [auto|]. split; [auto|].
    split; [rewrite (nm_known _ _ _ _ _ _ _ _ _ _ _ NM), Ec; reflexivity|].
    destruct (nm_column _ _ _ _ _ _ _ _ _ _ _ NM q c k HqN Ec) as [Hk Ek]. rewrite <- Ek in *.
    apply (number_inj q p); auto.
  - intros (Hi & Hj & v & l & c & Hl & El & Hin & Hk & Ec).
    rewrite (nm_known _ _ _ _ _ _ _ _ _ _ _ NM) in Hk. destruct (col q c) as [k|] eqn:E; [|discriminate].
    assert (Ht : tells shared q p l).
    { apply (holder_tells N fo shared dof number total ddof dom SY); auto. rewrite El.
      apply (dm_knows _ _ _ _ _ _ _ _ (DM p Hp)). eauto. }
    exists (l, number (cname q c)). split.
    + cbn [fst snd]. f_equal.
      * destruct (rowAt_spec p q l Hp HqN Ht) as (R1 & R2 & _).
        apply (dm_inj _ _ _ _ _ _ _ _ (DM p Hp)); auto. congruence.
      * rewrite Ec. apply g2d; auto.
    + apply (pairs_in q p l _ HqN). split; [auto|]. exists c, v, k. auto.
Qed.

(** The own columns of row i. *)
Lemma own_in : forall p i j, p < N -> (i < numLocal (fo p) /\ In j (rcols p (toNative p i)) <->
  i < domSize (dom p) /\ j < domSize (dom p) /\ exists v, hasEntry fo dof toNative native cname known p (ddof p i) (ddof p j) v).
Proof.
  intros p i j Hp. pose proof (dm_size _ _ _ _ _ _ _ _ (DM p Hp)) as HS. split.
  - intros [Hi H]. pose proof (rowColumns_lt p _ j Hp H) as Hj. apply rowColumns_in in H; [|auto].
    destruct H as (c & v & Hin & E). split; [lia|]. split; [auto|]. exists v, i, c. split; [auto|].
    split; [symmetry; apply (dm_local _ _ _ _ _ _ _ _ (DM p Hp) i Hi)|]. split; [auto|].
    split; [rewrite (nm_known _ _ _ _ _ _ _ _ _ _ _ NM), E; reflexivity|].
    symmetry. apply (nm_column _ _ _ _ _ _ _ _ _ _ _ NM p c j Hp E).
  - intros (Hi & Hj & v & l & c & Hl & El & Hin & Hk & Ec).
    rewrite (nm_known _ _ _ _ _ _ _ _ _ _ _ NM) in Hk. destruct (col p c) as [k|] eqn:E; [|discriminate].
    destruct (nm_column _ _ _ _ _ _ _ _ _ _ _ NM p c k Hp E) as [Hk' Ek].
    rewrite <- (dm_local _ _ _ _ _ _ _ _ (DM p Hp) l Hl) in El.
    apply (dm_inj _ _ _ _ _ _ _ _ (DM p Hp)) in El; [|lia|auto]. subst l. split; [auto|].
    apply rowColumns_in; [auto|]. exists c, v. split; [auto|]. rewrite E. f_equal.
    apply (dm_inj _ _ _ _ _ _ _ _ (DM p Hp)); auto. congruence.
Qed.

Lemma structure_in : forall p, p < N ->
  length (mxColumns (built p)) = domSize (dom p)
  /\ forall i j, In j (nth i (mxColumns (built p)) []) <->
     i < domSize (dom p) /\ j < domSize (dom p)
     /\ exists q v, q < N /\ hasEntry fo dof toNative native cname known q (ddof p i) (ddof p j) v.
Proof.
  intros p Hp. destruct (built_form p Hp) as (_ & E & _ & _). rewrite E.
  destruct (local_entries p Hp) as [L1 L2].
  assert (G : forall qs cs, length cs = domSize (dom p) -> (forall q, In q qs -> In q (peerSet (fo p))) ->
    let cs' := fold_left (fun cs q => addEntries (bufferEntries (receivedBuffer p q)) cs) qs cs in
    length cs' = domSize (dom p)
    /\ forall i j, In j (nth i cs' []) <-> In j (nth i cs []) \/
         (i < domSize (dom p) /\ j < domSize (dom p) /\ exists q v, In q qs /\ hasEntry fo dof toNative native cname known q (ddof p i) (ddof p j) v)).
  { induction qs as [|q qs IH]; intros cs Lc Hqs cs'; subst cs'.
    - cbn. split; [auto|]. intros i j. split; [auto|]. intros [K|(_ & _ & q & v & [] & _)]; auto.
    - cbn [fold_left]. pose proof (Hqs q (or_introl eq_refl)) as Hq.
      destruct (add_entries (bufferEntries (receivedBuffer p q)) cs) as [A1 A2].
      { intros e He. rewrite received_entries in He. apply in_map_iff in He. destruct He as ([l g] & <- & He).
        cbn [fst]. rewrite Lc. destruct (ov_range _ _ _ _ O p q Hp Hq) as [HqN _].
        apply (pairs_in q p l g HqN) in He. apply (rowAt_spec p q l Hp HqN). apply He. }
      destruct (IH (addEntries (bufferEntries (receivedBuffer p q)) cs)) as [I1 I2]; [congruence|intros; apply Hqs; right; auto|].
      split; [exact I1|]. intros i j. rewrite I2, A2, (received_in p q i j Hp Hq). split.
      + intros [[K|(K1 & K2 & v & K3)]|(K1 & K2 & q' & v & K3 & K4)]; [auto| |].
        * right. do 2 (split; [auto|]). exists q, v. cbn; auto.
        * right. do 2 (split; [auto|]). exists q', v. cbn; auto.
      + intros [K|(K1 & K2 & q' & v & [->|K3] & K4)]; [auto|left; right; eauto|].
        right. do 2 (split; [auto|]). eauto. }
  destruct (G (peerSet (fo p)) (ents p) L1) as [G1 G2]; [auto|].
  split; [exact G1|]. intros i j. rewrite G2, L2, (own_in p i j Hp). split.
  - intros [(K1 & K2 & v & K3)|(K1 & K2 & q & v & K3 & K4)]; do 2 (split; [auto|]).
    + exists p, v. auto.
    + exists q, v. split; [apply (ov_range _ _ _ _ O p q Hp K3)|auto].
  - intros (K1 & K2 & q & v & K3 & K4). destruct (Nat.eq_dec q p) as [->|Hne].
    + left. do 2 (split; [auto|]). eauto.
    + right. do 2 (split; [auto|]). exists q, v. split; [|auto].
      destruct K4 as (l & c & Hl & El & _).
      apply (tells_peer N fo shared dof number total ddof dom SY q p l K3).
      apply (holder_tells N fo shared dof number total ddof dom SY); auto. rewrite El.
      apply (dm_knows _ _ _ _ _ _ _ _ (DM p Hp)). eauto.
Qed.

End System.
