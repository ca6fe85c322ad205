From Coq Require Import Arith List Bool Lia Sorted Permutation QArith.
From Verif Require Import MpiModel MpiSpec MpiProofs MpiLemmas MpiExchange MpiLift ExchangeModel
  GlobalIndexModel GlobalIndexSpec GlobalIndexProofs ForeignModel ForeignSpec ForeignProofs ForeignReach
  DomesticModel DomesticSpec DomesticProofs VectorModel VectorSpec VectorProofs VectorSums
  PipelineModel PipelineSpec PipelineProofs PipelineRun
  OvMatrixModel OvMatrixSpec OvMatrixProofs OvMatrixValues OvMatrixSums.
From Verif Require FluxSpec ResidualProofs.
Import ListNotations.
Import FluxSpec.
Local Open Scope nat_scope.

Section Whole.
Variable N : nat.
Variable pt : nat -> partition.
Variable d0 os : nat.
Variable name : nat -> nat -> nat.
Hypothesis DE : decomposition N pt d0 os name.
Variable pb : nat -> peerBlackLists.
Hypothesis PB : blackListsOf N pt name pb.
Variable maxDistance maxRank : nat.
Hypothesis HD : os <= maxDistance.
Hypothesis HR : N <= maxRank.

Notation fo := (PipelineProofs.fo pt d0 os).
Notation shared := (PipelineProofs.shared pt d0 os).
Notation dof := (PipelineProofs.dof pt name).
Notation res := (PipelineProofs.res pt d0 os).
Notation dom := (PipelineRun.dom pt d0 os maxDistance maxRank).
Notation object := (PipelineRun.object pt d0 os pb maxDistance maxRank).
Notation theNumber := (PipelineRun.theNumber N pt d0 os name).

Variable ddof : nat -> nat -> nat.
Hypothesis SY : system N fo shared dof theNumber (offset fo N) ddof dom.
Let DM := sy_domestic _ _ _ _ _ _ _ _ SY.
Let D := sy_distributed _ _ _ _ _ _ _ _ SY.

Definition blacks (p : nat) : list (nat * option nat) := blackIdx (ovBlack (object p)).
Definition nats (p l : nat) : nat := toNative (pt p) l.
Definition rowsN (p : nat) : nat := numNative (pt p).
Definition knows_ (p c : nat) : bool := match columnOf (fo p) (blacks p) c with Some _ => true | None => false end.

Lemma column_usable : forall p c, p < N -> (knows_ p c = true <-> usableColumn N pt d0 os name pb p c).
Proof.
  intros p c Hp. unfold knows_, columnOf, usableColumn. cbn [PipelineProofs.fo asForeign nativeToLocal].
  destruct (black_of N pt d0 os name pb PB maxDistance maxRank ddof SY p Hp) as [_ B].
  pose proof (rows_of N pt d0 os name DE maxDistance maxRank HD HR ddof SY p Hp) as RO.
  destruct (toLocal (pt p) c) as [l|] eqn:El.
  - split; [|auto]. intros _. left. apply row_local. eauto.
  - split.
    + intros H. destruct (nativeToDomesticOf c (blacks p)) as [i|] eqn:E; [|discriminate].
      apply B in E. destruct E as (E1 & E2 & E3). right. split; [auto|].
      apply (ro_all _ _ _ _ _ _ _ _ RO). eauto.
    + intros [H|[H1 H2]].
      * apply row_local in H. destruct H as (l & Hl). congruence.
      * apply (ro_all _ _ _ _ _ _ _ _ RO) in H2. destruct H2 as (i & Hi & E).
        unfold blacks. rewrite (proj2 (B c i)); auto.
Qed.

Context {V : Type}.
Variable native : nat -> nat -> list (nat * V).
Hypothesis GR : onGraph N pt native.
Hypothesis ONCE : columnsOnce N pt name.

Lemma native_matrices : nativeMatrices N fo nats native name knows_ ddof (fun p => domSize (dom p))
  (fun p => columnOf (fo p) (blacks p)) rowsN (fun p => columns (pt p)).
Proof.
  split.
  - intros p n l Hp H. cbn [PipelineProofs.fo asForeign nativeToLocal numLocal] in *.
    split; [apply (toLocal_lt _ _ _ H)|]. split; [|apply (toNative_toLocal _ _ _ H)].
    assert (K : isRow pt p n) by (apply row_local; eauto). apply K.
  - intros p l Hp Hl. apply toLocal_toNative. exact Hl.
  - reflexivity.
  - intros p c i Hp H. unfold columnOf in H.
    destruct (black_of N pt d0 os name pb PB maxDistance maxRank ddof SY p Hp) as [_ B].
    pose proof (rows_of N pt d0 os name DE maxDistance maxRank HD HR ddof SY p Hp) as RO.
    cbn [PipelineProofs.fo asForeign nativeToLocal] in H.
    destruct (toLocal (pt p) c) as [l|] eqn:El.
    + injection H as <-. apply (ro_local _ _ _ _ _ _ _ _ RO c l El).
    + apply B in H. tauto.
  - intros p n Hp. apply GR. exact Hp.
  - intros p n Hp. rewrite <- map_map, (GR p n Hp). apply ONCE. exact Hp.
Qed.
Notation NM := native_matrices.

Notation bst := (built fo shared dom nats blacks rowsN (fun p => columns (pt p))).

Lemma entry_row : forall q x y v, q < N ->
  (hasEntry fo dof nats native name knows_ q x y v <-> rowEntry N pt d0 os name pb native q x y v).
Proof.
  intros q x y v Hq. unfold hasEntry, rowEntry. split.
  - intros (l & c & Hl & El & Hin & Hk & Ec). exists (nats q l), c.
    split; [apply (native_row pt d0 os); auto|]. split; [auto|]. split; [auto|]. split; [apply column_usable; auto|auto].
  - intros (n & c & Hr & En & Hin & Hk & Ec). apply row_local in Hr. destruct Hr as (l & Hl).
    exists l, c. split; [apply (toLocal_lt _ _ _ Hl)|].
    unfold PipelineProofs.dof, nats. rewrite (toNative_toLocal _ _ _ Hl).
    split; [auto|]. split; [auto|]. split; [apply column_usable; auto|auto].
Qed.

Lemma matrix_run : assuredRun
  (cfg N (fun p => newMatrix p (pt p) (object p)) noMsg)
  (cfg N (fun p => Ret (bst p)) (@noMsg (message V))).
Proof.
  unfold newMatrix, forBuffer. apply lift_run; [reflexivity|].
  apply (build_run N fo shared dof theNumber (offset fo N) ddof dom SY nats native name knows_ blacks rowsN (fun p => columns (pt p)) NM).
Qed.

Variable zero : V.
Variable add : V -> V -> V.

Lemma set_matrix_run : exists m : nat -> @values V,
  (forall p, p < N -> assignedValues fo dof ddof dom zero nats native name knows_ p (m p))
  /\ assuredRun
    (cfg N (fun p => setMatrix zero add p (pt p) (native p) (object p) (bst p)) noMsg)
    (cfg N (fun p => Ret (syncEntriesResult fo shared dom zero nats blacks rowsN (fun p => columns (pt p)) m add p)) noMsg).
Proof.
  destruct (finite_choice (@values V) (fun _ _ => zero)
     (fun p m => assignFromNative zero (fo p) (blacks p) (rowsN p) (native p) (bst p) = Some m
        /\ assignedValues fo dof ddof dom zero nats native name knows_ p m) N) as (m & H).
  { intros p Hp. apply (assign_native N fo shared dof theNumber (offset fo N) ddof dom SY zero nats native name knows_ blacks rowsN (fun p => columns (pt p)) NM p Hp). }
  exists m. split; [intros p Hp; apply H; auto|].
  unfold setMatrix, forValues. apply lift_run; [reflexivity|]. unfold assignAdd, syncAddEntries.
  rewrite (cfg_ext _ N _ (fun p => syncWith zero (fo p) (bst p) add (Some (m p))) noMsg noMsg).
  - apply (sync_entries_run N fo shared dof theNumber (offset fo N) ddof dom SY zero nats native name knows_ blacks rowsN (fun p => columns (pt p)) NM m add).
  - intros p Hp. destruct (H p Hp) as [H1 _]. unfold ovAsForeign.
    change (asForeign (pt p) p (ovForeign (object p))) with (fo p).
    change (blackIdx (ovBlack (object p))) with (blacks p). change (numNative (pt p)) with (rowsN p).
    rewrite H1. reflexivity.
  - reflexivity.
Qed.

Lemma assembled : exists m : nat -> @values V,
  (forall p, p < N -> assignedValues fo dof ddof dom zero nats native name knows_ p (m p))
  /\ assuredRun
    (cfg N (fun p => buildAndAssemble zero add p N (pt p) (pb p) maxDistance maxRank (native p)) noMsg)
    (cfg N (fun p => Ret (object p, bst p, syncEntriesResult fo shared dom zero nats blacks rowsN (fun p => columns (pt p)) m add p)) noMsg).
Proof.
  destruct set_matrix_run as (m & A & R). exists m. split; [exact A|].
  unfold buildAndAssemble. eapply phases; [apply (build_all N pt d0 os name DE pb PB maxDistance maxRank HD HR)|]. cbv beta.
  eapply phases; [apply matrix_run|]. cbv beta.
  eapply phases; [apply R|]. apply ar_nil.
Qed.

Lemma structure_rows : forall p, p < N ->
  mxOk (bst p) = true /\ length (mxColumns (bst p)) = domSize (dom p)
  /\ forall i j, In j (nth i (mxColumns (bst p)) []) <->
     i < domSize (dom p) /\ j < domSize (dom p)
     /\ exists q v, q < N /\ rowEntry N pt d0 os name pb native q (ddof p i) (ddof p j) v.
Proof.
  intros p Hp.
  destruct (built_form N fo shared dof theNumber (offset fo N) ddof dom SY nats native name knows_ blacks rowsN (fun p => columns (pt p)) NM p Hp) as (E & _).
  destruct (structure_in N fo shared dof theNumber (offset fo N) ddof dom SY nats native name knows_ blacks rowsN (fun p => columns (pt p)) NM p Hp) as [S1 S2].
  split; [exact E|]. split; [exact S1|]. intros i j. rewrite S2.
  split; intros (H1 & H2 & q & v & H3 & H4); (do 2 (split; [auto|])); exists q, v; (split; [auto|]); apply entry_row; auto.
Qed.

Lemma assembled_values : forall m : nat -> @values V,
  (forall p, p < N -> assignedValues fo dof ddof dom zero nats native name knows_ p (m p)) ->
  forall p, p < N -> exists m', syncEntriesResult fo shared dom zero nats blacks rowsN (fun p => columns (pt p)) m add p = Some m'
  /\ forall i j, i < domSize (dom p) -> j < domSize (dom p) ->
     exists s c, (rowEntry N pt d0 os name pb native p (ddof p i) (ddof p j) s
                  \/ s = zero /\ forall v, ~ rowEntry N pt d0 os name pb native p (ddof p i) (ddof p j) v)
       /\ otherRowEntries N pt d0 os name pb native p (ddof p i) (ddof p j) c
       /\ m' i j = fold_left add (map snd c) s.
Proof.
  intros m A p Hp.
  destruct (sync_entries_result N fo shared dof theNumber (offset fo N) ddof dom SY zero nats native name knows_ blacks rowsN (fun p => columns (pt p)) NM m add p Hp) as (m' & E & H).
  exists m'. split; [exact E|]. intros i j Hi Hj. destruct (H i j Hi Hj) as (c & C1 & C2 & C3).
  pose proof (held_entry N fo shared dof theNumber (offset fo N) ddof dom SY zero nats native name knows_ blacks rowsN (fun p => columns (pt p)) NM m A) as HE.
  exists (m p i j), c. split; [|split; [|exact C3]].
  - destruct (A p Hp i j Hi Hj) as [A1 A2].
    destruct (held_dec N fo shared dof theNumber (offset fo N) ddof dom SY nats native name knows_ blacks rowsN (fun p => columns (pt p)) NM m p (ddof p i) (ddof p j) Hp) as [(v & Hv)|K].
    + left. apply (HE p) in Hv; [|auto]. rewrite (A1 v Hv). apply entry_row; auto.
    + right. assert (K' : forall v, ~ hasEntry fo dof nats native name knows_ p (ddof p i) (ddof p j) v).
      { intros v Hv. apply (K v). apply (HE p); auto. }
      split; [apply A2; exact K'|]. intros v Hv. apply (K' v). apply entry_row; auto.
  - split; [auto|]. intros q v. rewrite C2.
    split; intros (K1 & K2 & K3); (do 2 (split; [auto|])).
    + apply entry_row; [auto|]. apply (HE q); auto.
    + apply (HE q); [auto|]. apply entry_row; auto.
Qed.

End Whole.

(* ----- numbers ----- *)

Lemma fold_scaled : forall (alpha : Q) (g : nat -> Q) L s,
  (fold_left (fun s j => s + alpha * g j) L s == s + alpha * fold_left (fun s j => s + g j) L 0)%Q.
Proof.
  intros alpha g L s.
  assert (E1 : forall L s, (fold_left (fun s j => s + alpha * g j) L s == s + alpha * sumOver g L)%Q).
  { clear. induction L as [|j L IH]; intros s; [cbn; ring|]. cbn [fold_left]. rewrite IH, ResidualProofs.sumOver_cons. ring. }
  assert (E2 : forall L s, (fold_left (fun s j => s + g j) L s == s + sumOver g L)%Q).
  { clear. induction L as [|j L IH]; intros s; [cbn; ring|]. cbn [fold_left]. rewrite IH, ResidualProofs.sumOver_cons. ring. }
  rewrite E1, E2. ring.
Qed.

Section Numbers.
Variable N : nat.
Variable pt : nat -> partition.
Variable d0 os : nat.
Variable name : nat -> nat -> nat.
Hypothesis DE : decomposition N pt d0 os name.
Variable pb : nat -> peerBlackLists.
Hypothesis PB : blackListsOf N pt name pb.
Variable maxDistance maxRank : nat.
Hypothesis HD : os <= maxDistance.
Hypothesis HR : N <= maxRank.

Notation fo := (PipelineProofs.fo pt d0 os).
Notation shared := (PipelineProofs.shared pt d0 os).
Notation dof := (PipelineProofs.dof pt name).
Notation dom := (PipelineRun.dom pt d0 os maxDistance maxRank).
Notation object := (PipelineRun.object pt d0 os pb maxDistance maxRank).
Notation theNumber := (PipelineRun.theNumber N pt d0 os name).
Notation bufs := (PipelineRun.bufs pt d0 os maxDistance maxRank).
Notation start_ := (PipelineRun.start_ pt d0 os maxDistance maxRank).

Variable ddof : nat -> nat -> nat.
Hypothesis SY : system N fo shared dof theNumber (offset fo N) ddof dom.
Let DM := sy_domestic _ _ _ _ _ _ _ _ SY.

Variable native : nat -> nat -> list (nat * Q).
Hypothesis GR : onGraph N pt native.
Hypothesis ONCE : columnsOnce N pt name.
Hypothesis ALL : allUsable N pt d0 os name pb.

Notation blk := (blacks pt d0 os pb maxDistance maxRank).
Notation nat_ := (nats pt).
Notation rows_ := (rowsN pt).
Notation kno := (knows_ pt d0 os pb maxDistance maxRank).
Notation NM := (native_matrices N pt d0 os name DE pb PB maxDistance maxRank HD HR ddof SY native GR ONCE).
Notation bst := (built fo shared dom nat_ blk rows_ (fun p => columns (pt p))).

Lemma over_local : forall x (g : nat -> nat -> Q),
  (overRows N pt name x g == sumLocal N fo dof x (fun q l => g q (toNative (pt q) l)))%Q.
Proof.
  intros x g. unfold overRows, sumLocal. apply ResidualProofs.sumOver_ext. intros q _.
  assert (E : forall f : nat -> Q, (sumOver (fun l => f (toNative (pt q) l)) (seq 0 (numLocal (fo q)))
              == sumOver f (localIndices (pt q)))%Q).
  { intros f. rewrite <- (ResidualProofs.sumOver_map (toNative (pt q)) f). unfold toNative.
    change (numLocal (fo q)) with (length (localIndices (pt q))). rewrite map_nth_seq. reflexivity. }
  unfold PipelineProofs.dof.
  rewrite (E (fun n => if name q n =? x then g q n else 0)%Q).
  unfold localIndices. rewrite <- sum_filter. apply ResidualProofs.sumOver_ext. intros n _.
  destruct (blackListed (pt q) n); cbn [negb andb]; reflexivity.
Qed.

Lemma all_known : forall q l e, q < N -> l < numLocal (fo q) -> In e (native q (nat_ q l)) -> kno q (fst e) = true.
Proof.
  intros q l [c v] Hq Hl Hin. cbn [fst].
  apply (column_usable N pt d0 os name DE pb PB maxDistance maxRank HD HR ddof SY q c Hq).
  apply (ALL q (nat_ q l) c Hq); [apply (native_row pt d0 os); auto|].
  rewrite <- (GR q _ Hq). apply (in_map fst) in Hin. exact Hin.
Qed.

Lemma sum_local_ext : forall x f g, (forall q l, q < N -> l < numLocal (fo q) -> (f q l == g q l)%Q) ->
  (sumLocal N fo dof x f == sumLocal N fo dof x g)%Q.
Proof.
  intros x f g H. unfold sumLocal. apply ResidualProofs.sumOver_ext. intros q Hq. apply in_seq in Hq.
  apply ResidualProofs.sumOver_ext. intros l Hl. apply in_seq in Hl.
  destruct (Nat.eqb (dof q l) x); [apply H; lia|reflexivity].
Qed.

Lemma entry_global : forall x y, (entrySum N fo dof nat_ native name kno x y == globalEntry N pt name native x y)%Q.
Proof.
  intros x y. unfold globalEntry. rewrite over_local.
  change (entrySum N fo dof nat_ native name kno x y) with
    (sumLocal N fo dof x (fun q l => sumOver (fun e => if kno q (fst e) && Nat.eqb (name q (fst e)) y then snd e else 0%Q)
             (native q (nat_ q l)))).
  apply sum_local_ext. intros q l Hq Hl. apply ResidualProofs.sumOver_ext. intros e He.
  rewrite (all_known q l e Hq Hl He). reflexivity.
Qed.

Lemma product_global : forall seen X x, (productSum N fo dof nat_ native name kno seen X x == seenProduct N pt name native seen X x)%Q.
Proof.
  intros seen X x. unfold seenProduct. rewrite over_local. unfold productSum.
  apply sum_local_ext. intros q l Hq Hl. apply ResidualProofs.sumOver_ext. intros e He.
  rewrite (all_known q l e Hq Hl He). reflexivity.
Qed.

Lemma assembled_sum : forall m : nat -> @values Q,
  (forall p, p < N -> assignedValues fo dof ddof dom 0%Q nat_ native name kno p (m p)) ->
  forall p, p < N -> exists m', syncEntriesResult fo shared dom 0%Q nat_ blk rows_ (fun p => columns (pt p)) m Qplus p = Some m'
  /\ forall i j, i < domSize (dom p) -> j < domSize (dom p) ->
     (m' i j == globalEntry N pt name native (ddof p i) (ddof p j))%Q.
Proof.
  intros m A p Hp.
  destruct (summed_values N fo shared dof theNumber (offset fo N) ddof dom SY nat_ native name kno blk rows_ (fun p => columns (pt p)) NM m A p Hp) as (m' & E & H).
  exists m'. split; [exact E|]. intros i j Hi Hj. rewrite (H i j Hi Hj). apply entry_global.
Qed.

(* ----- the operator ----- *)

Lemma assigned_all : forall (v : nat -> list Q) (X : nat -> Q),
  (forall p n, p < N -> isRow pt p n -> (forall q, q < p -> ~ hasRow pt name q (name p n)) ->
     (nth n (v p) 0 == X (name p n))%Q) ->
  forall p, p < N -> exists y, syncResult fo dom 0%Q bufs (start_ 0%Q v) p = Some y
  /\ length y = domSize (dom p)
  /\ forall i, i < domSize (dom p) -> (nth i y 0 == X (ddof p i))%Q.
Proof.
  intros v X VX p Hp.
  destruct (assign_value N pt d0 os name maxDistance maxRank HD HR ddof SY 0%Q Qplus v p Hp) as (y & E & L & H).
  exists y. split; [exact E|]. split; [exact L|]. intros i Hi.
  pose proof (rows_of N pt d0 os name DE maxDistance maxRank HD HR ddof SY p Hp) as RO.
  destruct (ro_master _ _ _ _ _ _ _ _ RO i Hi) as [(n & Hr & En) M2].
  rewrite (H i (domMasterRank (dom p) i) n Hi Hr En M2).
  destruct (master_local N fo shared dof theNumber (offset fo N) ddof dom SY p i Hp Hi) as [K1 _].
  rewrite VX, En; [reflexivity|auto|auto|]. intros q Hq. rewrite En. apply M2; auto.
Qed.

Variable v : nat -> list Q.
Variable X : nat -> Q.
Hypothesis VX : forall p n, p < N -> isRow pt p n -> (forall q, q < p -> ~ hasRow pt name q (name p n)) ->
  (nth n (v p) 0 == X (name p n))%Q.

Variable seen : nat -> nat -> bool.
Hypothesis SEEN : forall p x, p < N -> (seen p x = true <-> inOverlap N pt d0 os name p x).

Lemma multiplied : exists y : nat -> list Q,
  assuredRun
    (cfg N (fun p => buildAndMultiply 0%Q Qplus Qmult p N (pt p) (pb p) maxDistance maxRank (native p) (v p)) noMsg)
    (cfg N (fun p => Ret (object p, Some (y p))) noMsg)
  /\ forall p, p < N -> length (y p) = domSize (dom p)
     /\ forall i, i < domSize (dom p) ->
        (nth i (y p) 0 == seenProduct N pt name native (seen (domMasterRank (dom p) i)) X (ddof p i))%Q.
Proof.
  destruct (set_matrix_run N pt d0 os name DE pb PB maxDistance maxRank HD HR ddof SY native GR ONCE 0%Q Qplus) as (m & A & R).
  destruct (finite_choice (@values Q) (fun _ _ => 0%Q)
     (fun p m' => syncEntriesResult fo shared dom 0%Q nat_ blk rows_ (fun p => columns (pt p)) m Qplus p = Some m'
       /\ forall i j, i < domSize (dom p) -> j < domSize (dom p) ->
     (m' i j == entrySum N fo dof nat_ native name kno (ddof p i) (ddof p j))%Q) N) as (m' & M).
  { intros p Hp. apply (summed_values N fo shared dof theNumber (offset fo N) ddof dom SY nat_ native name kno blk rows_ (fun p => columns (pt p)) NM m A p Hp). }
  destruct (finite_choice (list Q) [] (fun p x => syncResult fo dom 0%Q bufs (start_ 0%Q v) p = Some x
     /\ length x = domSize (dom p) /\ forall i, i < domSize (dom p) -> (nth i x 0 == X (ddof p i))%Q) N) as (x & HX).
  { intros p Hp. apply (assigned_all v X VX); auto. }
  pose proof (bufs_ok N pt d0 os name maxDistance maxRank ddof SY) as BF.
  set (z := fun p => mv 0%Q (dom p) (bst p) Qplus Qmult (m' p) (x p)).
  assert (LZ : forall p, p < N -> length (z p) = domSize (dom p)).
  { intros p _. unfold z, mv. rewrite map_length, seq_length. reflexivity. }
  destruct (finite_choice (list Q) [] (fun p y => syncResult fo dom 0%Q bufs z p = Some y
     /\ length y = domSize (dom p)
     /\ forall i m j, i < domSize (dom p) -> isMaster fo dof m (ddof p i) ->
          j < numLocal (fo m) -> dof m j = ddof p i -> nth i y 0%Q = nth j (z m) 0%Q) N) as (y & HY).
  { intros p Hp. apply (sync_result N fo shared dof theNumber (offset fo N) ddof dom SY 0%Q Qplus bufs BF z LZ p Hp). }
  exists y. split.
  - unfold buildAndMultiply. eapply phases; [apply (build_all N pt d0 os name DE pb PB maxDistance maxRank HD HR)|]. cbv beta.
    eapply phases; [apply (matrix_run N pt d0 os name DE pb PB maxDistance maxRank HD HR ddof SY native GR ONCE)|]. cbv beta.
    eapply phases; [apply (vector_run N pt d0 os name pb maxDistance maxRank ddof SY)|]. cbv beta.
    eapply phases; [apply R|]. cbv beta.
    eapply phases; [apply (assign_run N pt d0 os name pb maxDistance maxRank ddof SY)|]. cbv beta.
    rewrite (cfg_ext _ N _ (fun p => bind (forValues (sync (fo p) (dom p) 0%Q (bufs p) (z p)))
        (fun y => Ret (object p, y))) noMsg noMsg).
    + eapply phases.
      * unfold forValues. apply lift_run; [reflexivity|].
        apply (sync_run N fo shared dof theNumber (offset fo N) ddof dom SY 0%Q bufs BF z).
      * cbv beta. rewrite (cfg_ext _ N _ (fun p => Ret (object p, Some (y p))) noMsg noMsg); [apply ar_nil| |reflexivity].
        intros p Hp. destruct (HY p Hp) as (-> & _). reflexivity.
    + intros p Hp. destruct (M p Hp) as [-> _]. destruct (HX p Hp) as (-> & _). reflexivity.
    + reflexivity.
  - intros p Hp. destruct (HY p Hp) as (_ & L & H). split; [exact L|]. intros i Hi.
    destruct (master_local N fo shared dof theNumber (offset fo N) ddof dom SY p i Hp Hi) as [K1 K2].
    set (q := domMasterRank (dom p) i) in *. pose proof K2 as (j & Hj & Ej).
    pose proof (dm_size _ _ _ _ _ _ _ _ (DM q K1)) as HS.
    rewrite (H i q j Hi); auto.
    2:{ split; [exact K2|]. intros r Hr. destruct (dm_master _ _ _ _ _ _ _ _ (DM p Hp) i Hi) as [_ M2]. apply M2; auto. }
    unfold z, mv.
    rewrite (nth_indep _ 0%Q ((fun i => fold_left (fun s j => s + m' q i j * nth j (x q) 0)%Q (nth i (mxColumns (bst q)) []) 0%Q) 0))
      by (rewrite map_length, seq_length; lia).
    rewrite (map_nth (fun i => fold_left (fun s j => s + m' q i j * nth j (x q) 0)%Q (nth i (mxColumns (bst q)) []) 0%Q)).
    rewrite seq_nth by lia. cbn [Nat.add].
    assert (Ed : ddof q j = ddof p i) by (rewrite (dm_local _ _ _ _ _ _ _ _ (DM q K1) j Hj); exact Ej).
    rewrite (row_product N fo shared dof theNumber (offset fo N) ddof dom SY nat_ native name kno blk rows_ (fun p => columns (pt p)) NM q (m' q) (x q) X (seen q) j K1).
    + rewrite Ed. apply product_global.
    + lia.
    + intros k Hk. apply (M q K1); [lia|auto].
    + intros k Hk. apply (HX q K1); auto.
    + intros y0. rewrite (SEEN q y0 K1).
      apply (ro_all _ _ _ _ _ _ _ _ (rows_of N pt d0 os name DE maxDistance maxRank HD HR ddof SY q K1)).
Qed.

Variable w : nat -> list Q.
Variable Y : nat -> Q.
Hypothesis WY : forall p n, p < N -> isRow pt p n -> (forall q, q < p -> ~ hasRow pt name q (name p n)) ->
  (nth n (w p) 0 == Y (name p n))%Q.
Variable alpha : Q.

Lemma updated : exists y : nat -> list Q,
  assuredRun
    (cfg N (fun p => buildAndUpdate 0%Q Qplus Qmult p N (pt p) (pb p) maxDistance maxRank (native p) alpha (v p) (w p)) noMsg)
    (cfg N (fun p => Ret (object p, Some (y p))) noMsg)
  /\ forall p, p < N -> length (y p) = domSize (dom p)
     /\ forall i, i < domSize (dom p) ->
        (nth i (y p) 0 == Y (ddof p i) + alpha * seenProduct N pt name native (seen (domMasterRank (dom p) i)) X (ddof p i))%Q.
Proof.
  destruct (set_matrix_run N pt d0 os name DE pb PB maxDistance maxRank HD HR ddof SY native GR ONCE 0%Q Qplus) as (m & A & R).
  destruct (finite_choice (@values Q) (fun _ _ => 0%Q)
     (fun p m' => syncEntriesResult fo shared dom 0%Q nat_ blk rows_ (fun p => columns (pt p)) m Qplus p = Some m'
       /\ forall i j, i < domSize (dom p) -> j < domSize (dom p) ->
     (m' i j == entrySum N fo dof nat_ native name kno (ddof p i) (ddof p j))%Q) N) as (m' & M).
  { intros p Hp. apply (summed_values N fo shared dof theNumber (offset fo N) ddof dom SY nat_ native name kno blk rows_ (fun p => columns (pt p)) NM m A p Hp). }
  destruct (finite_choice (list Q) [] (fun p x => syncResult fo dom 0%Q bufs (start_ 0%Q v) p = Some x
     /\ length x = domSize (dom p) /\ forall i, i < domSize (dom p) -> (nth i x 0 == X (ddof p i))%Q) N) as (x & HX).
  { intros p Hp. apply (assigned_all v X VX); auto. }
  destruct (finite_choice (list Q) [] (fun p x => syncResult fo dom 0%Q bufs (start_ 0%Q w) p = Some x
     /\ length x = domSize (dom p) /\ forall i, i < domSize (dom p) -> (nth i x 0 == Y (ddof p i))%Q) N) as (u & HU).
  { intros p Hp. apply (assigned_all w Y WY); auto. }
  pose proof (bufs_ok N pt d0 os name maxDistance maxRank ddof SY) as BF.
  set (z := fun p => usmv 0%Q (dom p) (bst p) Qplus Qmult alpha (m' p) (x p) (u p)).
  assert (LZ : forall p, p < N -> length (z p) = domSize (dom p)).
  { intros p _. unfold z, usmv. rewrite map_length, seq_length. reflexivity. }
  destruct (finite_choice (list Q) [] (fun p y => syncResult fo dom 0%Q bufs z p = Some y
     /\ length y = domSize (dom p)
     /\ forall i m j, i < domSize (dom p) -> isMaster fo dof m (ddof p i) ->
          j < numLocal (fo m) -> dof m j = ddof p i -> nth i y 0%Q = nth j (z m) 0%Q) N) as (y & HY).
  { intros p Hp. apply (sync_result N fo shared dof theNumber (offset fo N) ddof dom SY 0%Q Qplus bufs BF z LZ p Hp). }
  exists y. split.
  - unfold buildAndMultiply. eapply phases; [apply (build_all N pt d0 os name DE pb PB maxDistance maxRank HD HR)|]. cbv beta.
    eapply phases; [apply (matrix_run N pt d0 os name DE pb PB maxDistance maxRank HD HR ddof SY native GR ONCE)|]. cbv beta.
    eapply phases; [apply (vector_run N pt d0 os name pb maxDistance maxRank ddof SY)|]. cbv beta.
    eapply phases; [apply R|]. cbv beta.
    eapply phases; [apply (assign_run N pt d0 os name pb maxDistance maxRank ddof SY)|]. cbv beta.
    eapply phases; [apply (assign_run N pt d0 os name pb maxDistance maxRank ddof SY)|]. cbv beta.
    rewrite (cfg_ext _ N _ (fun p => bind (forValues (sync (fo p) (dom p) 0%Q (bufs p) (z p)))
        (fun y => Ret (object p, y))) noMsg noMsg).
    + eapply phases.
      * unfold forValues. apply lift_run; [reflexivity|].
        apply (sync_run N fo shared dof theNumber (offset fo N) ddof dom SY 0%Q bufs BF z).
      * cbv beta. rewrite (cfg_ext _ N _ (fun p => Ret (object p, Some (y p))) noMsg noMsg); [apply ar_nil| |reflexivity].
        intros p Hp. destruct (HY p Hp) as (-> & _). reflexivity.
    + intros p Hp. destruct (M p Hp) as [-> _]. destruct (HX p Hp) as (-> & _). destruct (HU p Hp) as (-> & _). reflexivity.
    + reflexivity.
  - intros p Hp. destruct (HY p Hp) as (_ & L & H). split; [exact L|]. intros i Hi.
    destruct (master_local N fo shared dof theNumber (offset fo N) ddof dom SY p i Hp Hi) as [K1 K2].
    set (q := domMasterRank (dom p) i) in *. pose proof K2 as (j & Hj & Ej).
    pose proof (dm_size _ _ _ _ _ _ _ _ (DM q K1)) as HS.
    rewrite (H i q j Hi); auto.
    2:{ split; [exact K2|]. intros r Hr. destruct (dm_master _ _ _ _ _ _ _ _ (DM p Hp) i Hi) as [_ M2]. apply M2; auto. }
    unfold z, usmv.
    rewrite (nth_indep _ 0%Q ((fun i => fold_left (fun s j => s + alpha * (m' q i j * nth j (x q) 0))%Q (nth i (mxColumns (bst q)) []) (nth i (u q) 0%Q)) 0))
      by (rewrite map_length, seq_length; lia).
    rewrite (map_nth (fun i => fold_left (fun s j => s + alpha * (m' q i j * nth j (x q) 0))%Q (nth i (mxColumns (bst q)) []) (nth i (u q) 0%Q))).
    rewrite seq_nth by lia. cbn [Nat.add].
    assert (Ed : ddof q j = ddof p i) by (rewrite (dm_local _ _ _ _ _ _ _ _ (DM q K1) j Hj); exact Ej).
    rewrite fold_scaled.
    rewrite (row_product N fo shared dof theNumber (offset fo N) ddof dom SY nat_ native name kno blk rows_ (fun p => columns (pt p)) NM q (m' q) (x q) X (seen q) j K1).
    + rewrite (proj2 (proj2 (HU q K1)) j) by lia. rewrite Ed, product_global. reflexivity.
    + lia.
    + intros k Hk. apply (M q K1); [lia|auto].
    + intros k Hk. apply (HX q K1); auto.
    + intros y0. rewrite (SEEN q y0 K1).
      apply (ro_all _ _ _ _ _ _ _ _ (rows_of N pt d0 os name DE maxDistance maxRank HD HR ddof SY q K1)).
Qed.

Hypothesis OS : 1 <= os.
Hypothesis OWN : d0 = 0 -> forall p n c, p < N -> isRow pt p n -> In c (columns (pt p) n) -> isRow pt p c.

(** Who has a row in its interior or on its border knows the columns of this row on all
    processes. *)
Lemma columns_known : forall m q n c, m < N -> q < N -> hasRow pt name m (name q n) -> isRow pt q n ->
  In c (columns (pt q) n) -> inOverlap N pt d0 os name m (name q c).
Proof.
  intros m q n c Hm Hq (n' & Hr' & En') Hr Hin.
  pose proof (de_named _ _ _ _ _ DE) as NA.
  destruct (Nat.eq_dec m q) as [->|Hne].
  - destruct (ALL q n c Hq Hr Hin) as [K|[_ K]]; [|exact K]. left. exists c. auto.
  - destruct (Nat.eq_dec d0 0) as [Hd|Hd].
    + pose proof (OWN Hd q n c Hq Hr Hin) as Hc. right. exists q, c, 1. split; [lia|]. split; [|reflexivity].
      eapply reaches_entry; [|exact Hin|exact Hc].
      apply reaches_border with (j := n'); [auto|auto|].
      apply (na_common _ _ _ _ NA Hd q n m n'); auto.
    + exfalso. apply (na_distinct _ _ _ _ NA ltac:(lia) m n' q n); auto.
Qed.

End Numbers.
