From Coq Require Import Arith List Bool Lia Sorted Permutation QArith Qabs Lqa.
From Verif Require Import Num MpiModel MpiSpec MpiProofs MpiLemmas MpiExchange MpiLift ExchangeModel
  GlobalIndexModel GlobalIndexSpec GlobalIndexProofs ForeignModel ForeignSpec ForeignProofs ForeignReach
  DomesticModel DomesticSpec DomesticProofs VectorModel VectorSpec VectorProofs VectorSums
  PipelineModel PipelineSpec PipelineProofs PipelineRun
  OvMatrixModel OvMatrixSpec OvMatrixProofs OvMatrixValues OvMatrixSums OvMatrixRun OvMatrixProps
  ParSolverModel ParSolverSpec.
From Verif Require FluxSpec ResidualProofs BiCGModel CriterionProofs.
Import ListNotations.
Import FluxSpec.
Local Open Scope nat_scope.

(* ----- minima ----- *)

Lemma min_flags : forall (f : nat -> bool) l s, (s = 1%Q \/ s = 0%Q) ->
  fold_left (fun a b => if Qltb b a then b else a) (map (fun p => if f p then 1%Q else 0%Q) l) s
  = if negb (Qeq_bool s 0) && forallb f l then 1%Q else 0%Q.
Proof.
  intros f. induction l as [|p l IH]; intros s Hs; cbn [map fold_left forallb].
  - destruct Hs as [->| ->]; reflexivity.
  - destruct Hs as [->| ->], (f p); cbn [andb]; rewrite IH by (cbn; auto); reflexivity.
Qed.

(** Every process learns whether the flag is set on all of them. *)
Lemma agree_run : forall N tag f, 0 < N ->
  assuredRun (cfg N (fun p => agree tag (f p)) noMsg) (cfg N (fun _ => Ret (forallb f (seq 0 N))) noMsg).
Proof.
  intros N tag f HN. unfold agree. eapply phases.
  - unfold forScalar. apply lift_run; [reflexivity|]. eapply ar_cons; [|apply ar_nil].
    apply (cfg_coll Q N _ noMsg tag (fun p => if f p then 1%Q else 0%Q) (fun _ ss => Ret (minOver ss))); auto.
  - cbv beta. unfold minOver. rewrite min_flags by auto. cbn [Qeq_bool negb andb].
    destruct (forallb f (seq 0 N)); apply ar_nil.
Qed.

(* ----- maxima ----- *)

Lemma fold_fin : forall l a, exists q, fold_left nmax (map (fun q => nabs (Fin q)) l) (Fin a) = Fin q.
Proof.
  induction l as [|x l IH]; intros a; cbn [map fold_left]; [eauto|].
  unfold nmax at 2. cbn [nabs]. destruct (nltb (Fin a) (Fin (Qabs x))); apply IH.
Qed.

(** The criterion of all processes together. *)
Lemma errors_run : forall N (c : BiCGModel.combined) change resid, 0 < N ->
  assuredRun (cfg N (fun p => updateErrors c (change p) (resid p)) noMsg)
   (cfg N (fun _ => Ret (BiCGModel.cc_updateErrors c (map (fun p => map Fin (change p)) (seq 0 N))
                                                    (map (fun p => map Fin (resid p)) (seq 0 N)))) noMsg).
Proof.
  intros N c change resid HN. unfold updateErrors. eapply phases.
  - unfold forScalar. apply lift_run; [reflexivity|]. eapply ar_cons; [|apply ar_nil].
    apply (cfg_coll num N _ noMsg 1
      (fun p => fin_val (fold_left nmax (map (fun q => nabs (Fin q)) (resid p)) (Fin 0)))
      (fun _ es => Ret (fold_left nmax (map Fin es) (Fin 0)))); auto.
  - cbv beta. eapply phases; [apply agree_run; auto|]. cbv beta.
    replace (BiCGModel.cc_updateErrors c (map (fun p => map Fin (change p)) (seq 0 N)) (map (fun p => map Fin (resid p)) (seq 0 N)))
      with (BiCGModel.mkCombined (BiCGModel.cc_reduction c) (BiCGModel.cc_abs c) (BiCGModel.cc_max c)
        (fold_left nmax (map Fin (map (fun p => fin_val (fold_left nmax (map (fun q => nabs (Fin q)) (resid p)) (Fin 0))) (seq 0 N))) (Fin 0))
        (BiCGModel.cc_initial c) (forallb (fun p => forallb (fun q => Qeq_bool q 0) (change p)) (seq 0 N))); [apply ar_nil|].
    unfold BiCGModel.cc_updateErrors, BiCGModel.maxOver. f_equal.
    + rewrite !map_map. f_equal. apply map_ext. intros p.
      destruct (fold_fin (resid p) 0%Q) as (q & E). rewrite map_map, E. reflexivity.
    + induction (seq 0 N) as [|p l IH]; cbn [map forallb]; [reflexivity|]. rewrite IH. f_equal.
      induction (change p) as [|q ch IHc]; cbn [map forallb]; [reflexivity|]. rewrite IHc. reflexivity.
Qed.

(** Numbers which are equal as rationals. *)
Definition numEq (a b : num) : Prop :=
  match a, b with
  | Fin x, Fin y => (x == y)%Q
  | NaN, NaN | PInf, PInf | NInf, NInf => True
  | _, _ => False
  end.

Lemma numEq_refl : forall a, numEq a a.
Proof. destruct a; cbn; auto. reflexivity. Qed.

Lemma qleb_eq : forall a b c d, (a == b)%Q -> (c == d)%Q -> Qle_bool a c = Qle_bool b d.
Proof. intros a b c d H K. apply eq_true_iff_eq. rewrite !Qle_bool_iff, H, K. reflexivity. Qed.
Lemma qltb_eq' : forall a b c d, (a == b)%Q -> (c == d)%Q -> Qltb a c = Qltb b d.
Proof. intros a b c d H K. unfold Qltb. rewrite (qleb_eq c d a b K H). reflexivity. Qed.
Lemma qeqb_eq : forall a b, (a == b)%Q -> Qeq_bool a 0 = Qeq_bool b 0.
Proof. intros a b H. apply eq_true_iff_eq. rewrite !Qeq_bool_iff, H. reflexivity. Qed.

Lemma nleb_eq : forall a b c d, numEq a b -> numEq c d -> nleb a c = nleb b d.
Proof. intros [| | |a] [| | |b] [| | |c] [| | |d] H K; cbn in *; try contradiction; auto. apply qleb_eq; auto. Qed.
Lemma nltb_eq : forall a b c d, numEq a b -> numEq c d -> nltb a c = nltb b d.
Proof. intros [| | |a] [| | |b] [| | |c] [| | |d] H K; cbn in *; try contradiction; auto. apply qltb_eq'; auto. Qed.
Lemma nmax_eq : forall a b c d, numEq a b -> numEq c d -> numEq (nmax a c) (nmax b d).
Proof. intros a b c d H K. unfold nmax. rewrite (nltb_eq a b c d H K). destruct (nltb b d); auto. Qed.
Lemma nabs_eq : forall a b, numEq a b -> numEq (nabs a) (nabs b).
Proof. intros [| | |a] [| | |b] H; cbn in *; try contradiction; auto. rewrite H. reflexivity. Qed.
Lemma ndiv_eq : forall a b c d, numEq a b -> numEq c d -> numEq (ndiv a c) (ndiv b d).
Proof.
  intros [| | |a] [| | |b] [| | |c] [| | |d] H K; cbn [numEq ndiv] in *; try contradiction; auto;
    try reflexivity.
  - rewrite (qleb_eq 0 0 c d) by (auto; reflexivity). destruct (Qle_bool 0 d); exact I.
  - rewrite (qleb_eq 0 0 c d) by (auto; reflexivity). destruct (Qle_bool 0 d); exact I.
  - rewrite (qeqb_eq c d K), (qeqb_eq a b H), (qltb_eq' 0 0 a b) by (auto; reflexivity).
    destruct (Qeq_bool d 0), (Qeq_bool b 0), (Qltb 0 b); cbn [numEq sgn_inf]; auto; rewrite H, K; reflexivity.
Qed.

Definition within (l l' : list (list num)) : Prop :=
  forall p x, In p l -> In x p -> exists p' x', In p' l' /\ In x' p' /\ numEq x x'.

Lemma nleb_anti : forall a b, nleb a b = true -> nleb b a = true -> numEq a b.
Proof.
  intros [| | |a] [| | |b] H K; cbn in *; try discriminate; auto.
  apply Qle_bool_iff in H. apply Qle_bool_iff in K. apply Qle_antisym; auto.
Qed.

Lemma max_le : forall l l', within l l' -> nleb (BiCGModel.maxOver l) (BiCGModel.maxOver l') = true.
Proof.
  intros l l' W. apply CriterionProofs.maxOver_le.
  pose proof (CriterionProofs.nleb_refl _ (CriterionProofs.maxOver_nan l')) as R.
  apply CriterionProofs.maxOver_le in R. destruct R as [R0 R]. split; [exact R0|].
  intros p x Hp Hx Hn. destruct (W p x Hp Hx) as (p' & x' & Hp' & Hx' & E).
  rewrite (nleb_eq x x' _ (BiCGModel.maxOver l') E (numEq_refl _)).
  apply (R p' x' Hp' Hx'). intros ->. destruct x; cbn in E; auto; contradiction.
Qed.

Lemma max_same : forall l l', within l l' -> within l' l -> numEq (BiCGModel.maxOver l) (BiCGModel.maxOver l').
Proof. intros. apply nleb_anti; apply max_le; auto. Qed.

(** The same tolerances, and equal numbers. *)
Record critRel (c c' : BiCGModel.combined) : Prop := {
  cr_reduction : BiCGModel.cc_reduction c = BiCGModel.cc_reduction c';
  cr_abs : BiCGModel.cc_abs c = BiCGModel.cc_abs c';
  cr_max : BiCGModel.cc_max c = BiCGModel.cc_max c';
  cr_error : numEq (BiCGModel.cc_error c) (BiCGModel.cc_error c');
  cr_initial : numEq (BiCGModel.cc_initial c) (BiCGModel.cc_initial c');
  cr_stagnates : BiCGModel.cc_stagnates c = BiCGModel.cc_stagnates c'
}.

Lemma critRel_refl : forall c, critRel c c.
Proof. intros c. split; try reflexivity; apply numEq_refl. Qed.

Lemma conv_rel : forall c c', critRel c c' -> BiCGModel.cc_converged c = BiCGModel.cc_converged c'.
Proof.
  intros c c' [H1 H2 H3 H4 H5 H6]. unfold BiCGModel.cc_converged. rewrite H1, H2. f_equal.
  - apply nleb_eq; [|apply numEq_refl]. apply ndiv_eq; [exact H4|]. apply nmax_eq; [apply numEq_refl|exact H5].
  - apply nleb_eq; [exact H4|apply numEq_refl].
Qed.

Lemma fail_rel : forall c c', critRel c c' -> BiCGModel.cc_failed c = BiCGModel.cc_failed c'.
Proof.
  intros c c' H. unfold BiCGModel.cc_failed. rewrite (conv_rel c c' H). destruct H as [H1 H2 H3 H4 H5 H6].
  rewrite H3, H6. rewrite (nltb_eq _ _ _ _ (numEq_refl (BiCGModel.cc_max c')) H4). reflexivity.
Qed.

Lemma update_rel : forall c c' ch ch' re re', critRel c c' ->
  within ch ch' -> within ch' ch -> within re re' -> within re' re ->
  critRel (BiCGModel.cc_updateErrors c ch re) (BiCGModel.cc_updateErrors c' ch' re').
Proof.
  intros c c' ch ch' re re' [H1 H2 H3 H4 H5 H6] C1 C2 R1 R2. unfold BiCGModel.cc_updateErrors. split;
    cbn [BiCGModel.cc_reduction BiCGModel.cc_abs BiCGModel.cc_max BiCGModel.cc_error BiCGModel.cc_initial BiCGModel.cc_stagnates]; auto.
  - assert (G : forall l l', within l l' -> within (map (map nabs) l) (map (map nabs) l')).
    { clear. intros l l' W p x Hp Hx. apply in_map_iff in Hp. destruct Hp as (p0 & <- & Hp).
      apply in_map_iff in Hx. destruct Hx as (x0 & <- & Hx).
      destruct (W p0 x0 Hp Hx) as (p' & x' & Hp' & Hx' & E). exists (map nabs p'), (nabs x').
      split; [apply in_map; auto|]. split; [apply in_map; auto|apply nabs_eq; auto]. }
    apply max_same; apply G; auto.
  - assert (G : forall l l', within l l' ->
      forallb (forallb (fun x => match x with Fin q => Qeq_bool q 0 | _ => false end)) l' = true ->
      forallb (forallb (fun x => match x with Fin q => Qeq_bool q 0 | _ => false end)) l = true).
    { clear. intros l l' W H. apply forallb_forall. intros p Hp. apply forallb_forall. intros x Hx.
      destruct (W p x Hp Hx) as (p' & x' & Hp' & Hx' & E). rewrite forallb_forall in H.
      specialize (H p' Hp'). rewrite forallb_forall in H. specialize (H x' Hx').
      destruct x, x'; cbn [numEq] in E; try contradiction; try discriminate. rewrite (qeqb_eq _ _ E). exact H. }
    apply eq_true_iff_eq. split; apply G; auto.
Qed.

Lemma initial_rel : forall c c' ch ch' re re', critRel c c' ->
  within ch ch' -> within ch' ch -> within re re' -> within re' re ->
  critRel (BiCGModel.cc_setInitial c ch re) (BiCGModel.cc_setInitial c' ch' re').
Proof.
  intros c c' ch ch' re re' H C1 C2 R1 R2.
  destruct (update_rel c c' ch ch' re re' H C1 C2 R1 R2) as [H1 H2 H3 H4 H5 H6]. unfold BiCGModel.cc_setInitial. split;
    cbn [BiCGModel.cc_reduction BiCGModel.cc_abs BiCGModel.cc_max BiCGModel.cc_error BiCGModel.cc_initial BiCGModel.cc_stagnates]; auto;
    apply nmax_eq; auto; apply numEq_refl.
Qed.

Lemma initial_run : forall N (c : BiCGModel.combined) sol resid, 0 < N ->
  assuredRun (cfg N (fun p => setInitial c (sol p) (resid p)) noMsg)
   (cfg N (fun _ => Ret (BiCGModel.cc_setInitial c (map (fun p => map Fin (sol p)) (seq 0 N))
                                                  (map (fun p => map Fin (resid p)) (seq 0 N)))) noMsg).
Proof.
  intros N c sol resid HN. unfold setInitial. eapply phases; [apply errors_run; auto|]. apply ar_nil.
Qed.

Lemma forall2_nth : forall (l l' : list Q), length l = length l' ->
  (forall i, i < length l -> (nth i l 0 == nth i l' 0)%Q) -> Forall2 Qeq l l'.
Proof.
  induction l as [|a l IH]; intros [|b l'] L H; cbn [length] in L; try discriminate; constructor.
  - apply (H 0). cbn. lia.
  - apply IH; [lia|]. intros i Hi. apply (H (S i)). cbn. lia.
Qed.

Lemma tabulate_length : forall n f, length (tabulate n f) = n.
Proof. intros. unfold tabulate. rewrite map_length, seq_length. reflexivity. Qed.

Lemma tabulate_nth : forall n f i, i < n -> nth i (tabulate n f) 0%Q = f i.
Proof.
  intros n f i Hi. unfold tabulate.
  rewrite (nth_indep _ 0%Q (f 0)) by (rewrite map_length, seq_length; exact Hi).
  rewrite map_nth, seq_nth by exact Hi. reflexivity.
Qed.

Section Whole.
Variable N : nat.
Variable pt : nat -> partition.
Variable d0 os : nat.
Variable name : nat -> nat -> nat.
Hypothesis DE : decomposition N pt d0 os name.
Variable pb : nat -> peerBlackLists.
Hypothesis PB : blackListsOf N pt name pb.
Variable maxDistance maxRank : nat.
Hypothesis HD : os <= maxDistance.
Hypothesis HR : N <= maxRank.

Notation fo := (PipelineProofs.fo pt d0 os).
Notation shared := (PipelineProofs.shared pt d0 os).
Notation dof := (PipelineProofs.dof pt name).
Notation dom := (PipelineRun.dom pt d0 os maxDistance maxRank).
Notation object := (PipelineRun.object pt d0 os pb maxDistance maxRank).
Notation theNumber := (PipelineRun.theNumber N pt d0 os name).
Notation bufs := (PipelineRun.bufs pt d0 os maxDistance maxRank).
Notation start_ := (PipelineRun.start_ pt d0 os maxDistance maxRank).

Variable ddof : nat -> nat -> nat.
Hypothesis SY : system N fo shared dof theNumber (offset fo N) ddof dom.
Let DM := sy_domestic _ _ _ _ _ _ _ _ SY.

Variable native : nat -> nat -> list (nat * Q).
Hypothesis GR : onGraph N pt native.
Hypothesis ONCE : columnsOnce N pt name.
Hypothesis ALL : allUsable N pt d0 os name pb.
Hypothesis OS : 1 <= os.
Hypothesis OWN : d0 = 0 -> forall p n c, p < N -> isRow pt p n -> In c (columns (pt p) n) -> isRow pt p c.

Notation blk := (blacks pt d0 os pb maxDistance maxRank).
Notation nat_ := (nats pt).
Notation rows_ := (rowsN pt).
Notation kno := (knows_ pt d0 os pb maxDistance maxRank).
Notation NM := (native_matrices N pt d0 os name DE pb PB maxDistance maxRank HD HR ddof SY native GR ONCE).
Notation bst := (built fo shared dom nat_ blk rows_ (fun p => columns (pt p))).

(** The list is the part of the global vector which the process knows. *)
Definition holds (X : nat -> Q) (p : nat) (x : list Q) : Prop :=
  length x = domSize (dom p) /\ forall i, i < domSize (dom p) -> (nth i x 0 == X (ddof p i))%Q.

Lemma local_dof : forall p l, p < N -> l < numLocal (fo p) -> l < domSize (dom p) /\ ddof p l = dof p l.
Proof.
  intros p l Hp Hl. pose proof (dm_size _ _ _ _ _ _ _ _ (DM p Hp)) as Hs. split; [lia|].
  apply (dm_local _ _ _ _ _ _ _ _ (DM p Hp) l Hl).
Qed.

Lemma sync_holds : forall (z : nat -> list Q) (Z : nat -> Q),
  (forall p, p < N -> length (z p) = domSize (dom p)) ->
  (forall p j, p < N -> j < numLocal (fo p) -> isMaster fo dof p (dof p j) -> (nth j (z p) 0 == Z (dof p j))%Q) ->
  exists y, assuredRun (cfg N (fun p => syncVector (fo p) (dom p) (bufs p) (z p)) noMsg)
                       (cfg N (fun p => Ret (inr (y p))) noMsg)
    /\ forall p, p < N -> holds Z p (y p).
Proof.
  intros z Z L H. pose proof (bufs_ok N pt d0 os name maxDistance maxRank ddof SY) as BF.
  destruct (finite_choice (list Q) [] (fun p y => syncResult fo dom 0%Q bufs z p = Some y
     /\ length y = domSize (dom p)
     /\ forall i m j, i < domSize (dom p) -> isMaster fo dof m (ddof p i) ->
          j < numLocal (fo m) -> dof m j = ddof p i -> nth i y 0%Q = nth j (z m) 0%Q) N) as (y & HY).
  { intros p Hp. apply (sync_result N fo shared dof theNumber (offset fo N) ddof dom SY 0%Q Qplus bufs BF z L p Hp). }
  exists y. split.
  - unfold syncVector. eapply phases.
    + unfold forValues. apply lift_run; [reflexivity|].
      apply (sync_run N fo shared dof theNumber (offset fo N) ddof dom SY 0%Q bufs BF z).
    + cbv beta. rewrite (cfg_ext _ N _ (fun p => Ret (inr (y p))) noMsg noMsg); [apply ar_nil| |reflexivity].
      intros p Hp. destruct (HY p Hp) as (-> & _). reflexivity.
  - intros p Hp. destruct (HY p Hp) as (_ & Ly & K). split; [exact Ly|]. intros i Hi.
    destruct (master_local N fo shared dof theNumber (offset fo N) ddof dom SY p i Hp Hi) as [K1 K2].
    set (q := domMasterRank (dom p) i) in *. pose proof K2 as (j & Hj & Ej).
    assert (Mq : isMaster fo dof q (ddof p i)).
    { split; [exact K2|]. intros r Hr. destruct (dm_master _ _ _ _ _ _ _ _ (DM p Hp) i Hi) as [_ M2]. apply M2; auto. }
    rewrite (K i q j Hi Mq Hj Ej). rewrite H; auto; rewrite Ej; [reflexivity|exact Mq].
Qed.

(* ----- the operator ----- *)

Variable m : nat -> @values Q.
Hypothesis MV : forall p, p < N -> forall i j, i < domSize (dom p) -> j < domSize (dom p) ->
  (m p i j == entrySum N fo dof nat_ native name kno (ddof p i) (ddof p j))%Q.

Lemma operator_holds : forall (x : nat -> list Q) (X : nat -> Q), (forall p, p < N -> holds X p (x p)) ->
  exists y, assuredRun (cfg N (fun p => applyOperator (fo p) (dom p) (bst p) (bufs p) (m p) (x p)) noMsg)
                       (cfg N (fun p => Ret (inr (y p))) noMsg)
    /\ forall p, p < N -> holds (globalProduct N pt name native X) p (y p).
Proof.
  intros x X HX.
  destruct (seen_exists N pt d0 os name DE maxDistance maxRank HD HR) as (seen & SEEN).
  destruct (sync_holds (fun p => mv 0%Q (dom p) (bst p) Qplus Qmult (m p) (x p)) (globalProduct N pt name native X)) as (y & R & H).
  - intros p _. unfold mv. rewrite map_length, seq_length. reflexivity.
  - intros p j Hp Hj _. destruct (local_dof p j Hp Hj) as [Hj' Ed]. unfold mv.
    rewrite (nth_indep _ 0%Q ((fun i => fold_left (fun s j => s + m p i j * nth j (x p) 0)%Q (nth i (mxColumns (bst p)) []) 0%Q) 0))
      by (rewrite map_length, seq_length; lia).
    rewrite (map_nth (fun i => fold_left (fun s j => s + m p i j * nth j (x p) 0)%Q (nth i (mxColumns (bst p)) []) 0%Q)).
    rewrite seq_nth by lia. cbn [Nat.add].
    rewrite (row_product N fo shared dof theNumber (offset fo N) ddof dom SY nat_ native name kno blk rows_ (fun p => columns (pt p)) NM p (m p) (x p) X (seen p) j Hp).
    + rewrite Ed. rewrite (product_global N pt d0 os name DE pb PB maxDistance maxRank HD HR ddof SY native GR ALL).
      unfold seenProduct, globalProduct, overRows.
      apply ResidualProofs.sumOver_ext. intros q Hq. apply in_seq in Hq.
      apply ResidualProofs.sumOver_ext. intros n Hn. apply in_seq in Hn.
      destruct (blackListed (pt q) n) eqn:Eb; cbn [negb andb]; [reflexivity|].
      destruct (Nat.eqb_spec (name q n) (dof p j)) as [En|]; [|reflexivity].
      apply ResidualProofs.sumOver_ext. intros [c e] He. cbn [fst snd].
      rewrite (proj2 (SEEN p (name q c) Hp)); [reflexivity|].
      apply (columns_known N pt d0 os name DE pb maxDistance maxRank HD HR ALL OS OWN p q n c); try lia.
      * rewrite En. exists (toNative (pt p) j). split; [apply (native_row pt d0 os); auto|reflexivity].
      * split; [lia|auto].
      * rewrite <- (GR q n ltac:(lia)). apply (in_map fst) in He. exact He.
    + exact Hj'.
    + intros k Hk. apply (MV p Hp); auto.
    + intros k Hk. apply (HX p Hp); auto.
    + intros y0. rewrite (SEEN p y0 Hp).
      apply (ro_all _ _ _ _ _ _ _ _ (rows_of N pt d0 os name DE maxDistance maxRank HD HR ddof SY p Hp)).
  - exists y. split; [exact R|exact H].
Qed.

(* ----- the scalar product ----- *)

Variable n : nat.
Hypothesis NR : forall x, x < n <-> exists p, p < N /\ hasRow pt name p x.

Lemma dot_holds : forall (x y : nat -> list Q) (X Y : nat -> Q),
  (forall p, p < N -> holds X p (x p)) -> (forall p, p < N -> holds Y p (y p)) ->
  exists s, assuredRun (cfg N (fun p => scalarProduct p (fo p) (x p) (y p)) noMsg) (cfg N (fun _ => Ret s) noMsg)
    /\ (s == globalDot n X Y)%Q.
Proof.
  intros x y X Y HX HY.
  exists (fold_left Qplus (map (fun p => dotLocal (fo p) 0%Q Qplus Qmult p (x p) (y p)) (seq 0 N)) 0%Q). split.
  - unfold scalarProduct, forScalar. apply lift_run; [reflexivity|].
    apply (dot_run N fo shared dof theNumber (offset fo N) ddof dom SY).
  - rewrite (dot_masters N fo shared dof theNumber (offset fo N) ddof dom SY x y X Y).
    + apply ResidualProofs.sumOver_perm.
      destruct (masterDofs_spec N fo shared dof theNumber (offset fo N) ddof dom SY) as [M1 M2].
      apply NoDup_Permutation; [exact M1|apply seq_NoDup|]. intros d. rewrite M2, in_seq. cbn [Nat.add].
      split.
      * intros (p & Hp & K). split; [lia|]. apply NR. exists p. split; [auto|]. apply (has_row pt d0 os name). exact K.
      * intros [_ K]. apply NR in K. destruct K as (p & Hp & K). exists p. split; [auto|]. apply (has_row pt d0 os name). exact K.
    + intros p i Hp Hi _. destruct (local_dof p i Hp Hi) as [Hi' Ed]. rewrite <- Ed.
      split; [apply (HX p Hp); auto|apply (HY p Hp); auto].
Qed.

(* ----- the criterion ----- *)

Lemma holds_within : forall (x : nat -> list Q) X, (forall p, p < N -> holds X p (x p)) ->
  within (map (fun p => map Fin (x p)) (seq 0 N)) (BiCGModel.entries n X)
  /\ within (BiCGModel.entries n X) (map (fun p => map Fin (x p)) (seq 0 N)).
Proof.
  intros x X H. split.
  - intros l e Hl He. apply in_map_iff in Hl. destruct Hl as (p & <- & Hp). apply in_seq in Hp.
    apply in_map_iff in He. destruct He as (q & <- & Hq). destruct (In_nth _ _ 0%Q Hq) as (i & Hi & Ei).
    destruct (H p ltac:(lia)) as [L K]. rewrite L in Hi. exists (map (fun i => Fin (X i)) (seq 0 n)), (Fin (X (ddof p i))).
    split; [left; reflexivity|]. split.
    + apply (in_map (fun i => Fin (X i))). apply in_seq. split; [lia|]. cbn [Nat.add]. apply NR.
      destruct (master_local N fo shared dof theNumber (offset fo N) ddof dom SY p i ltac:(lia) Hi) as [K1 K2].
      exists (domMasterRank (dom p) i). split; [exact K1|]. apply (has_row pt d0 os name). exact K2.
    + cbn [numEq]. rewrite <- Ei. apply K; auto.
  - intros l e [<-|[]] He. apply in_map_iff in He. destruct He as (d & <- & Hd). apply in_seq in Hd.
    destruct (proj1 (NR d) ltac:(lia)) as (p & Hp & K). apply (has_row pt d0 os name) in K. destruct K as (j & Hj & Ej).
    destruct (local_dof p j Hp Hj) as [Hj' Ed]. destruct (H p Hp) as [L K].
    exists (map Fin (x p)), (Fin (nth j (x p) 0%Q)). split; [apply (in_map (fun p => map Fin (x p))); apply in_seq; lia|].
    split; [apply in_map; apply nth_In; lia|]. cbn [numEq]. rewrite (K j Hj'), Ed, Ej. reflexivity.
Qed.

Lemma update_holds : forall c c' (ch re : nat -> list Q) CH RE, 0 < N -> critRel c c' ->
  (forall p, p < N -> holds CH p (ch p)) -> (forall p, p < N -> holds RE p (re p)) ->
  exists d, assuredRun (cfg N (fun p => updateErrors c (ch p) (re p)) noMsg) (cfg N (fun _ => Ret d) noMsg)
    /\ critRel d (BiCGModel.cc_updateErrors c' (BiCGModel.entries n CH) (BiCGModel.entries n RE)).
Proof.
  intros c c' ch re CH RE HN C H1 H2. eexists. split; [apply errors_run; auto|].
  destruct (holds_within ch CH H1), (holds_within re RE H2). apply update_rel; auto.
Qed.

Lemma initial_holds : forall c c' (ch re : nat -> list Q) CH RE, 0 < N -> critRel c c' ->
  (forall p, p < N -> holds CH p (ch p)) -> (forall p, p < N -> holds RE p (re p)) ->
  exists d, assuredRun (cfg N (fun p => setInitial c (ch p) (re p)) noMsg) (cfg N (fun _ => Ret d) noMsg)
    /\ critRel d (BiCGModel.cc_setInitial c' (BiCGModel.entries n CH) (BiCGModel.entries n RE)).
Proof.
  intros c c' ch re CH RE HN C H1 H2. eexists. split; [apply initial_run; auto|].
  destruct (holds_within ch CH H1), (holds_within re RE H2). apply initial_rel; auto.
Qed.

(* ----- the preconditioner ----- *)

Variable prec : nat -> nat -> list Q -> list Q -> option (nat -> Q).
Hypothesis SAME : forall p, p < N -> sameForEqual (prec p).

Definition onRank (x p : nat) : bool := existsb (fun l => dof p l =? x) (seq 0 (numLocal (fo p))).

(** The global preconditioner: for each row what its master does with what it knows. *)
Definition globalPrec (k : nat) (Y D : nat -> Q) (x : nat) : Q :=
  match find (onRank x) (seq 0 N) with
  | Some p =>
      match prec p k (restriction (ddof p) (domSize (dom p)) Y) (restriction (ddof p) (domSize (dom p)) D),
            find (fun l => dof p l =? x) (seq 0 (numLocal (fo p))) with
      | Some z, Some l => z l
      | _, _ => 0%Q
      end
  | None => 0%Q
  end.

Lemma onRank_iff : forall x p, onRank x p = true <-> has fo dof p x.
Proof.
  intros x p. unfold onRank. rewrite existsb_exists. split.
  - intros (l & Hl & E). apply in_seq in Hl. apply Nat.eqb_eq in E. exists l. split; [lia|auto].
  - intros (l & Hl & E). exists l. split; [apply in_seq; lia|apply Nat.eqb_eq; auto].
Qed.

Lemma find_master : forall x p, p < N -> isMaster fo dof p x -> find (onRank x) (seq 0 N) = Some p.
Proof.
  intros x p Hp [M1 M2].
  assert (G : forall k s, s <= p -> p < s + k -> find (onRank x) (seq s k) = Some p).
  { induction k as [|k IH]; intros s H1 H2; [lia|]. cbn [seq find].
    destruct (onRank x s) eqn:E.
    - apply onRank_iff in E. f_equal. destruct (Nat.eq_dec s p) as [|Hne]; [auto|].
      exfalso. apply (M2 s); [lia|exact E].
    - apply IH; [|lia]. destruct (Nat.eq_dec s p) as [->|Hne]; [|lia].
      apply onRank_iff in M1. congruence. }
  apply G; lia.
Qed.

Lemma global_prec : forall p j k Y D z, p < N -> j < numLocal (fo p) -> isMaster fo dof p (dof p j) ->
  prec p k (restriction (ddof p) (domSize (dom p)) Y) (restriction (ddof p) (domSize (dom p)) D) = Some z ->
  globalPrec k Y D (dof p j) = z j.
Proof.
  intros p j k Y D z Hp Hj M E. unfold globalPrec. rewrite (find_master _ p Hp M), E.
  destruct (find (fun l => dof p l =? dof p j) (seq 0 (numLocal (fo p)))) as [l|] eqn:F.
  - apply find_some in F. destruct F as [F1 F2]. apply in_seq in F1. apply Nat.eqb_eq in F2.
    rewrite (dof_inj N pt d0 os name DE p l j Hp ltac:(lia) Hj F2). reflexivity.
  - exfalso. pose proof (find_none _ _ F j ltac:(apply in_seq; lia)) as K. cbv beta in K. rewrite Nat.eqb_refl in K. discriminate.
Qed.

Lemma restriction_holds : forall X p x, holds X p x -> Forall2 Qeq x (restriction (ddof p) (domSize (dom p)) X).
Proof.
  intros X p x [L H]. change (restriction (ddof p) (domSize (dom p)) X) with (tabulate (domSize (dom p)) (fun i => X (ddof p i))).
  apply forall2_nth; [rewrite tabulate_length; exact L|]. intros i Hi. rewrite L in Hi.
  rewrite tabulate_nth by exact Hi. apply H; auto.
Qed.

Lemma prec_restricted : forall p k Y D y d, p < N -> holds Y p y -> holds D p d ->
  match prec p k y d, prec p k (restriction (ddof p) (domSize (dom p)) Y) (restriction (ddof p) (domSize (dom p)) D) with
  | Some z, Some z' => forall i, (z i == z' i)%Q
  | None, None => True
  | _, _ => False
  end.
Proof. intros p k Y D y d Hp HY HD'. apply (SAME p Hp k); apply restriction_holds; auto. Qed.

Hypothesis PEERS : N = 1 \/ forall p, p < N -> peerSet (fo p) <> [].

Lemma prec_holds : forall k (y d : nat -> list Q) Y D, 0 < N ->
  (forall p, p < N -> holds Y p (y p)) -> (forall p, p < N -> holds D p (d p)) ->
  (exists z, assuredRun (cfg N (fun p => precondApply (fo p) (dom p) (bufs p) (prec p) k (y p) (d p)) noMsg)
                        (cfg N (fun p => Ret (inr (z p))) noMsg)
     /\ forall p, p < N -> holds (globalPrec k Y D) p (z p))
  \/ (exists p k y d, p < N /\ prec p k y d = None)
     /\ assuredRun (cfg N (fun p => precondApply (fo p) (dom p) (bufs p) (prec p) k (y p) (d p)) noMsg)
                   (cfg N (fun p => Ret (inl PFailed)) noMsg).
Proof.
  intros k y d Y D HN HY HD'.
  set (f := fun p => match prec p k (y p) (d p) with Some _ => true | None => false end).
  destruct (forallb f (seq 0 N)) eqn:F.
  - (* all succeed *)
    assert (S : forall p, p < N -> exists z, prec p k (y p) (d p) = Some z).
    { intros p Hp. rewrite forallb_forall in F. specialize (F p ltac:(apply in_seq; lia)). unfold f in F.
      destruct (prec p k (y p) (d p)) as [z|]; [eauto|discriminate]. }
    destruct (finite_choice (nat -> Q) (fun _ => 0%Q) (fun p z => prec p k (y p) (d p) = Some z) N S) as (w & W).
    assert (V : forall p j, p < N -> j < numLocal (fo p) -> isMaster fo dof p (dof p j) ->
       (nth j (tabulate (length (y p)) (w p)) 0 == globalPrec k Y D (dof p j))%Q).
    { intros p j Hp Hj M. destruct (local_dof p j Hp Hj) as [Hj' _]. destruct (HY p Hp) as [L _].
      rewrite tabulate_nth by lia. pose proof (prec_restricted p k Y D (y p) (d p) Hp (HY p Hp) (HD' p Hp)) as R.
      rewrite (W p Hp) in R.
      destruct (prec p k (restriction (ddof p) (domSize (dom p)) Y) (restriction (ddof p) (domSize (dom p)) D)) as [z'|] eqn:E; [|destruct R].
      rewrite (global_prec p j k Y D z' Hp Hj M E). apply R. }
    left. destruct PEERS as [E1|P].
    + (* one process alone *)
      exists (fun p => tabulate (length (y p)) (w p)). split.
      * rewrite (cfg_ext _ N _ (fun p => Ret (inr (tabulate (length (y p)) (w p)))) noMsg noMsg); [apply ar_nil| |reflexivity].
        intros p Hp. unfold precondApply. destruct (peerSet (fo p)) as [|q qs] eqn:Q.
        -- rewrite (W p Hp). reflexivity.
        -- exfalso. pose proof (peers_symmetric' N pt d0 os name DE
             ) as SP.
           destruct (sy_range _ _ SP p q Hp) as [Q1 Q2]; [rewrite Q; left; reflexivity|]. lia.
      * intros p Hp. destruct (HY p Hp) as [L _]. split; [rewrite tabulate_length; exact L|]. intros i Hi.
        destruct (master_local N fo shared dof theNumber (offset fo N) ddof dom SY p i Hp Hi) as [K1 K2].
        assert (Em : domMasterRank (dom p) i = p) by lia. rewrite Em in K2. destruct K2 as (j & Hj & Ej).
        destruct (local_dof p j Hp Hj) as [Hj' Ed].
        assert (i = j) by (apply (dm_inj _ _ _ _ _ _ _ _ (DM p Hp)); auto; congruence). subst j.
        rewrite Ed. apply V; auto. split; [exists i; auto|]. intros r Hr. lia.
    + destruct (sync_holds (fun p => tabulate (length (y p)) (w p)) (globalPrec k Y D)) as (z & R & H).
      * intros p Hp. rewrite tabulate_length. apply (HY p Hp).
      * exact V.
      * exists z. split; [|exact H].
        rewrite (cfg_ext _ N _ (fun p => bind (agree 3 (f p)) (fun success =>
            if success then match option_map (tabulate (length (y p))) (prec p k (y p) (d p)) with
                            | Some x => syncVector (fo p) (dom p) (bufs p) x
                            | None => Ret (inl PUndefined) end
            else Ret (inl PFailed))) noMsg noMsg).
        -- eapply phases; [apply agree_run; auto|]. cbv beta. rewrite F.
           rewrite (cfg_ext _ N _ (fun p => syncVector (fo p) (dom p) (bufs p) (tabulate (length (y p)) (w p))) noMsg noMsg); [exact R| |reflexivity].
           intros p Hp. rewrite (W p Hp). reflexivity.
        -- intros p Hp. unfold precondApply, f. destruct (peerSet (fo p)) as [|q qs] eqn:Q; [exfalso; apply (P p Hp Q)|].
           destruct (prec p k (y p) (d p)); reflexivity.
        -- reflexivity.
  - (* one fails *)
    right.
    assert (X : exists p, p < N /\ prec p k (y p) (d p) = None).
    { clear -F. assert (G : forall l, forallb f l = false -> exists p, In p l /\ f p = false).
      { induction l as [|a l IH]; cbn [forallb]; intros H; [discriminate|]. destruct (f a) eqn:E; [|exists a; cbn; auto].
        destruct (IH H) as (p & Hp & K). exists p. cbn. auto. }
      destruct (G _ F) as (p & Hp & K). apply in_seq in Hp. exists p. split; [lia|]. unfold f in K.
      destruct (prec p k (y p) (d p)); [discriminate|reflexivity]. }
    destruct X as (p0 & Hp0 & X). split; [exists p0, k, (y p0), (d p0); auto|].
    destruct PEERS as [E1|P].
    + rewrite (cfg_ext _ N _ (fun p => Ret (inl PFailed)) noMsg noMsg); [apply ar_nil| |reflexivity].
      intros p Hp. assert (p = p0) by lia. subst p0. unfold precondApply. rewrite X. cbn [option_map].
      destruct (peerSet (fo p)) as [|q qs] eqn:Q; [reflexivity|].
      exfalso. pose proof (peers_symmetric' N pt d0 os name DE
             ) as SP.
      destruct (sy_range _ _ SP p q Hp) as [Q1 Q2]; [rewrite Q; left; reflexivity|]. lia.
    + rewrite (cfg_ext _ N _ (fun p => bind (agree 3 (f p)) (fun success =>
            if success then match option_map (tabulate (length (y p))) (prec p k (y p) (d p)) with
                            | Some x => syncVector (fo p) (dom p) (bufs p) x
                            | None => Ret (inl PUndefined) end
            else Ret (inl PFailed))) noMsg noMsg).
      * eapply phases; [apply agree_run; auto|]. cbv beta. rewrite F. apply ar_nil.
      * intros p Hp. unfold precondApply, f. destruct (peerSet (fo p)) as [|q qs] eqn:Q; [exfalso; apply (P p Hp Q)|].
        destruct (prec p k (y p) (d p)); reflexivity.
      * reflexivity.
Qed.

(* ----- one iteration ----- *)

Variable b : nat -> list Q.
Variable B : nat -> Q.
Hypothesis HB : forall p, p < N -> holds B p (b p).
Variable eps : Q.
Hypothesis HN : 0 < N.

Notation FAILS := (exists p k y d, p < N /\ prec p k y d = None).
Notation seqFirst := (BiCGModel.firstHalf _ (BiCGModel.combinedCriterion n) (globalProduct N pt name native) (globalDot n) globalPrec B eps).
Notation seqSecond := (BiCGModel.secondHalf _ (BiCGModel.combinedCriterion n) (globalProduct N pt name native) (globalDot n) globalPrec eps).

Lemma small_eq : forall x y, (x == y)%Q -> small eps x = BiCGModel.small eps y.
Proof.
  intros x y H. unfold small, BiCGModel.small. rewrite (qltb_eq' x y 0 0 H) by reflexivity.
  apply qleb_eq; [|reflexivity]. destruct (Qltb y 0); rewrite H; reflexivity.
Qed.

(** A process ends like the sequential solver. *)
Definition outRel (p : nat) (o : outcome) (r : BiCGModel.result BiCGModel.combined) : Prop :=
  match r with
  | BiCGModel.Returned ok x c it => exists w c', o = PReturned ok w c' it /\ holds x p w /\ critRel c' c
  | BiCGModel.Breakdown => o = PBreakdown
  end.

Definition simulates (L : nat -> ploop) (l : BiCGModel.loop BiCGModel.combined) : Prop :=
  exists x r pp v y z rho alpha omega c,
    (forall p, p < N -> L p = mkPLoop (x p) (r p) (pp p) (v p) (y p) (z p) rho alpha omega c
                                (BiCGModel.l_calls _ l) (BiCGModel.l_iter _ l))
    /\ (forall p, p < N -> holds (BiCGModel.l_x _ l) p (x p) /\ holds (BiCGModel.l_r _ l) p (r p)
         /\ holds (BiCGModel.l_p _ l) p (pp p) /\ holds (BiCGModel.l_v _ l) p (v p) /\ holds (BiCGModel.l_y _ l) p (y p))
    /\ (rho == BiCGModel.l_rho _ l)%Q /\ (alpha == BiCGModel.l_alpha _ l)%Q /\ (omega == BiCGModel.l_omega _ l)%Q
    /\ critRel c (BiCGModel.l_crit _ l).

Definition stepsTo (f : nat -> proc (message Q) (outcome + ploop)) (s : BiCGModel.step BiCGModel.combined) : Prop :=
  match s with
  | BiCGModel.Done _ r => exists o, assuredRun (cfg N f noMsg) (cfg N (fun p => Ret (inl (o p))) noMsg)
      /\ forall p, p < N -> outRel p (o p) r
  | BiCGModel.Next _ l => exists L, assuredRun (cfg N f noMsg) (cfg N (fun p => Ret (inr (L p))) noMsg) /\ simulates L l
  end
  \/ FAILS /\ assuredRun (cfg N f noMsg) (cfg N (fun _ => Ret (inl PFailed)) noMsg).

Lemma stepsTo_run : forall f g s, assuredRun (cfg N f noMsg) (cfg N g noMsg) -> stepsTo g s -> stepsTo f s.
Proof.
  intros f g s R [H|[H1 H2]].
  - left. destruct s as [r|l].
    + destruct H as (o & H & K). exists o. split; [eapply ar_trans; eauto|exact K].
    + destruct H as (L & H & K). exists L. split; [eapply ar_trans; eauto|exact K].
  - right. split; [exact H1|eapply ar_trans; eauto].
Qed.

Lemma stepsTo_phase : forall A (f : nat -> proc (message Q) A) K r s,
  assuredRun (cfg N f noMsg) (cfg N (fun p => Ret (r p)) noMsg) ->
  stepsTo (fun p => K p (r p)) s -> stepsTo (fun p => bind (f p) (K p)) s.
Proof. intros A f K r s R H. eapply stepsTo_run; [eapply phases; [exact R|apply ar_nil]|exact H]. Qed.

Lemma stepsTo_ext : forall f g s, (forall p, p < N -> f p = g p) -> stepsTo g s -> stepsTo f s.
Proof. intros f g s E H. unfold stepsTo. rewrite (cfg_ext _ N f g noMsg noMsg E (fun _ _ _ _ => eq_refl)). exact H. Qed.

Lemma stepsTo_done : forall o r, (forall p, p < N -> outRel p (o p) r) ->
  stepsTo (fun p => Ret (inl (o p))) (BiCGModel.Done _ r).
Proof. intros o r H. left. exists o. split; [apply ar_nil|exact H]. Qed.

Lemma holds_tab : forall X p (f : nat -> Q), (forall i, i < domSize (dom p) -> (f i == X (ddof p i))%Q) ->
  holds X p (tabulate (domSize (dom p)) f).
Proof.
  intros X p f H. split; [apply tabulate_length|]. intros i Hi. rewrite tabulate_nth by exact Hi. apply H; auto.
Qed.

Lemma sync_again : forall (x : nat -> list Q) X, (forall p, p < N -> holds X p (x p)) ->
  exists y, assuredRun (cfg N (fun p => syncVector (fo p) (dom p) (bufs p) (x p)) noMsg)
                       (cfg N (fun p => Ret (inr (y p))) noMsg)
    /\ forall p, p < N -> holds X p (y p).
Proof.
  intros x X H. apply sync_holds.
  - intros p Hp. apply (H p Hp).
  - intros p j Hp Hj _. destruct (local_dof p j Hp Hj) as [Hj' Ed]. rewrite <- Ed. apply (H p Hp); auto.
Qed.

Lemma after_holds : forall c c' (x : nat -> list Q) X it next l, critRel c c' ->
  (forall p, p < N -> holds X p (x p)) -> simulates next l ->
  stepsTo (fun p => afterCheck (fo p) (dom p) (bufs p) c (x p) it (next p))
    (if BiCGModel.cc_converged c' then BiCGModel.Done _ (BiCGModel.Returned true X c' it)
     else if BiCGModel.cc_failed c' then BiCGModel.Done _ (BiCGModel.Returned false X c' it)
     else BiCGModel.Next _ l).
Proof.
  intros c c' x X it next l C HX S. unfold afterCheck. rewrite <- (conv_rel c c' C), <- (fail_rel c c' C).
  destruct (BiCGModel.cc_converged c).
  - unfold precondPost. destruct (sync_again x X HX) as (y & R & H).
    eapply stepsTo_phase with (r := fun p => inr (y p)).
    + eapply phases; [apply agree_run; exact HN|]. cbv beta.
      assert (E : forallb (fun _ : nat => true) (seq 0 N) = true) by (apply forallb_forall; auto). rewrite E. exact R.
    + cbv beta. apply (stepsTo_done (fun p => PReturned true (y p) c it)). intros p Hp. exists (y p), c.
      split; [reflexivity|]. split; [apply H; auto|exact C].
  - destruct (BiCGModel.cc_failed c).
    + apply (stepsTo_done (fun p => PReturned false (x p) c it)). intros p Hp. exists (x p), c.
      split; [reflexivity|]. split; [apply HX; auto|exact C].
    + left. exists next. split; [apply ar_nil|exact S].
Qed.

Lemma breakdown_steps : stepsTo (fun _ => Ret (inl PBreakdown)) (BiCGModel.Done _ BiCGModel.Breakdown).
Proof. apply (stepsTo_done (fun _ => PBreakdown)). intros. reflexivity. Qed.

Lemma first_steps : forall L l, simulates L l ->
  stepsTo (fun p => firstHalf p (fo p) (dom p) (bst p) (bufs p) (m p) (prec p) (b p) eps (domSize (dom p)) (L p)) (seqFirst l).
Proof.
  intros L l (x & r & pp & v & y & z & rho & alpha & omega & c & EL & HV & Erho & Ealpha & Eomega & C).
  apply (stepsTo_ext _ (fun p => firstHalf p (fo p) (dom p) (bst p) (bufs p) (m p) (prec p) (b p) eps (domSize (dom p))
     (mkPLoop (x p) (r p) (pp p) (v p) (y p) (z p) rho alpha omega c (BiCGModel.l_calls _ l) (BiCGModel.l_iter _ l)))).
  { intros p Hp. rewrite (EL p Hp). reflexivity. }
  clear EL L. destruct l as [X R P V Y Z srho salpha somega sc calls iter]. cbn [BiCGModel.l_x BiCGModel.l_r BiCGModel.l_p BiCGModel.l_v
    BiCGModel.l_y BiCGModel.l_rho BiCGModel.l_alpha BiCGModel.l_omega BiCGModel.l_crit BiCGModel.l_calls BiCGModel.l_iter] in *.
  assert (HX : forall p, p < N -> holds X p (x p)) by (intros p Hp; apply (HV p Hp)).
  assert (HRr : forall p, p < N -> holds R p (r p)) by (intros p Hp; apply (HV p Hp)).
  assert (HP : forall p, p < N -> holds P p (pp p)) by (intros p Hp; apply (HV p Hp)).
  assert (HVv : forall p, p < N -> holds V p (v p)) by (intros p Hp; apply (HV p Hp)).
  assert (HY : forall p, p < N -> holds Y p (y p)) by (intros p Hp; apply (HV p Hp)).
  clear HV. unfold firstHalf, BiCGModel.firstHalf.
  cbn [p_x p_r p_p p_v p_y p_z p_rho p_alpha p_omega p_crit p_calls p_iter BiCGModel.l_x BiCGModel.l_r BiCGModel.l_p BiCGModel.l_v
    BiCGModel.l_y BiCGModel.l_z BiCGModel.l_rho BiCGModel.l_alpha BiCGModel.l_omega BiCGModel.l_crit BiCGModel.l_calls BiCGModel.l_iter].
  destruct (dot_holds b r B R HB HRr) as (rho_i & R1 & E1).
  eapply stepsTo_phase; [exact R1|]. cbv beta.
  rewrite (small_eq rho srho Erho), (small_eq omega somega Eomega).
  destruct (BiCGModel.small eps srho || BiCGModel.small eps somega); [apply breakdown_steps|].
  set (beta := (rho_i / rho * (alpha / omega))%Q).
  set (SP := fun i => (R i + (V i * somega - P i) * - (globalDot n B R / srho * (salpha / somega)))%Q).
  set (p1 := fun p => tabulate (domSize (dom p)) (fun i => (nth i (r p) 0 + (nth i (v p) 0 * omega - nth i (pp p) 0) * - beta)%Q)).
  assert (HP1 : forall p, p < N -> holds SP p (p1 p)).
  { intros p Hp. apply holds_tab. intros i Hi. unfold SP, beta.
    rewrite (proj2 (HRr p Hp) i Hi), (proj2 (HVv p Hp) i Hi), (proj2 (HP p Hp) i Hi), E1, Erho, Ealpha, Eomega. reflexivity. }
  destruct (prec_holds calls y p1 Y SP HN HY HP1) as [(y1 & R2 & HY1)|[F R2]].
  2:{ right. split; [exact F|]. eapply phases; [exact R2|]. apply ar_nil. }
  eapply stepsTo_phase; [exact R2|]. cbv beta iota.
  destruct (operator_holds y1 (globalPrec calls Y SP) HY1) as (v1 & R3 & HV1).
  eapply stepsTo_phase; [exact R3|]. cbv beta iota.
  destruct (dot_holds b v1 B _ HB HV1) as (denom & R4 & E4).
  eapply stepsTo_phase; [exact R4|]. cbv beta.
  rewrite (small_eq denom _ E4).
  change (fun i : nat => (R i + (V i * somega - P i) * - (globalDot n B R / srho * (salpha / somega)))%Q) with SP.
  set (Y1 := globalPrec calls Y SP) in *. set (V1 := globalProduct N pt name native Y1) in *.
  destruct (BiCGModel.small eps (globalDot n B V1)); [apply breakdown_steps|].
  assert (E5 : (rho_i / denom == globalDot n B R / globalDot n B V1)%Q) by (rewrite E1, E4; reflexivity).
  rewrite (small_eq _ _ E5).
  destruct (BiCGModel.small eps (globalDot n B R / globalDot n B V1)); [apply breakdown_steps|].
  set (al := (rho_i / denom)%Q) in *. set (sal := (globalDot n B R / globalDot n B V1)%Q) in *.
  set (h := fun p => tabulate (domSize (dom p)) (fun i => (nth i (y1 p) 0 * al + nth i (x p) 0)%Q)).
  set (s := fun p => tabulate (domSize (dom p)) (fun i => (nth i (r p) 0 - nth i (v1 p) 0 * al)%Q)).
  set (SH := fun i => (Y1 i * sal + X i)%Q). set (SS := fun i => (R i - V1 i * sal)%Q).
  assert (HH : forall p, p < N -> holds SH p (h p)).
  { intros p Hp. apply holds_tab. intros i Hi. unfold SH. rewrite (proj2 (HY1 p Hp) i Hi), (proj2 (HX p Hp) i Hi), E5. reflexivity. }
  assert (HS : forall p, p < N -> holds SS p (s p)).
  { intros p Hp. apply holds_tab. intros i Hi. unfold SS. rewrite (proj2 (HRr p Hp) i Hi), (proj2 (HV1 p Hp) i Hi), E5. reflexivity. }
  destruct (update_holds c sc y1 s Y1 SS HN C HY1 HS) as (d & R6 & C6).
  eapply stepsTo_phase; [exact R6|]. cbv beta.
  cbn [BiCGModel.combinedCriterion BiCGModel.updateCrit BiCGModel.converged BiCGModel.failed].
  apply after_holds; [exact C6|exact HH|].
  exists h, s, p1, v1, y1, z, rho_i, al, omega, d.
  cbn [BiCGModel.l_x BiCGModel.l_r BiCGModel.l_p BiCGModel.l_v
    BiCGModel.l_y BiCGModel.l_z BiCGModel.l_rho BiCGModel.l_alpha BiCGModel.l_omega BiCGModel.l_crit BiCGModel.l_calls BiCGModel.l_iter].
  split; [reflexivity|]. split; [intros p Hp; auto 10|]. auto 10.
Qed.

Lemma second_steps : forall L l, simulates L l ->
  stepsTo (fun p => secondHalf p (fo p) (dom p) (bst p) (bufs p) (m p) (prec p) eps (domSize (dom p)) (L p)) (seqSecond l).
Proof.
  intros L l (x & r & pp & v & y & z & rho & alpha & omega & c & EL & HV & Erho & Ealpha & Eomega & C).
  apply (stepsTo_ext _ (fun p => secondHalf p (fo p) (dom p) (bst p) (bufs p) (m p) (prec p) eps (domSize (dom p))
     (mkPLoop (x p) (r p) (pp p) (v p) (y p) (z p) rho alpha omega c (BiCGModel.l_calls _ l) (BiCGModel.l_iter _ l)))).
  { intros p Hp. rewrite (EL p Hp). reflexivity. }
  clear EL L. destruct l as [X R P V Y Z srho salpha somega sc calls iter]. cbn [BiCGModel.l_x BiCGModel.l_r BiCGModel.l_p BiCGModel.l_v
    BiCGModel.l_y BiCGModel.l_rho BiCGModel.l_alpha BiCGModel.l_omega BiCGModel.l_crit BiCGModel.l_calls BiCGModel.l_iter] in *.
  assert (HX : forall p, p < N -> holds X p (x p)) by (intros p Hp; apply (HV p Hp)).
  assert (HRr : forall p, p < N -> holds R p (r p)) by (intros p Hp; apply (HV p Hp)).
  assert (HP : forall p, p < N -> holds P p (pp p)) by (intros p Hp; apply (HV p Hp)).
  assert (HVv : forall p, p < N -> holds V p (v p)) by (intros p Hp; apply (HV p Hp)).
  clear HV. unfold secondHalf, BiCGModel.secondHalf.
  cbn [p_x p_r p_p p_v p_y p_z p_rho p_alpha p_omega p_crit p_calls p_iter BiCGModel.l_x BiCGModel.l_r BiCGModel.l_p BiCGModel.l_v
    BiCGModel.l_y BiCGModel.l_z BiCGModel.l_rho BiCGModel.l_alpha BiCGModel.l_omega BiCGModel.l_crit BiCGModel.l_calls BiCGModel.l_iter].
  destruct (prec_holds calls r r R R HN HRr HRr) as [(z1 & R2 & HZ1)|[F R2]].
  2:{ right. split; [exact F|]. eapply phases; [exact R2|]. apply ar_nil. }
  eapply stepsTo_phase; [exact R2|]. cbv beta iota.
  set (Z1 := globalPrec calls R R) in *.
  destruct (operator_holds z1 Z1 HZ1) as (t & R3 & HT).
  eapply stepsTo_phase; [exact R3|]. cbv beta iota.
  set (T := globalProduct N pt name native Z1) in *.
  destruct (dot_holds t t T T HT HT) as (denom & R4 & E4).
  eapply stepsTo_phase; [exact R4|]. cbv beta.
  rewrite (small_eq denom _ E4).
  destruct (BiCGModel.small eps (globalDot n T T)); [apply breakdown_steps|].
  destruct (dot_holds t r T R HT HRr) as (ts & R5 & E5).
  eapply stepsTo_phase; [exact R5|]. cbv beta zeta.
  assert (E6 : (ts / denom == globalDot n T R / globalDot n T T)%Q) by (rewrite E4, E5; reflexivity).
  rewrite (small_eq _ _ E6).
  destruct (BiCGModel.small eps (globalDot n T R / globalDot n T T)); [apply breakdown_steps|].
  set (om := (ts / denom)%Q) in *. set (som := (globalDot n T R / globalDot n T T)%Q) in *.
  set (x1 := fun p => tabulate (domSize (dom p)) (fun i => (nth i (x p) 0 + om * nth i (z1 p) 0)%Q)).
  set (r1 := fun p => tabulate (domSize (dom p)) (fun i => (nth i (r p) 0 + (- om) * nth i (t p) 0)%Q)).
  assert (HX1 : forall p, p < N -> holds (BiCGModel.axpy som Z1 X) p (x1 p)).
  { intros p Hp. apply holds_tab. intros i Hi. unfold BiCGModel.axpy. rewrite (proj2 (HX p Hp) i Hi), (proj2 (HZ1 p Hp) i Hi), E6. reflexivity. }
  assert (HR1 : forall p, p < N -> holds (BiCGModel.axpy (- som) T R) p (r1 p)).
  { intros p Hp. apply holds_tab. intros i Hi. unfold BiCGModel.axpy. rewrite (proj2 (HRr p Hp) i Hi), (proj2 (HT p Hp) i Hi), E6. reflexivity. }
  destruct (update_holds c sc z1 r Z1 R HN C HZ1 HRr) as (d & R6 & C6).
  eapply stepsTo_phase; [exact R6|]. cbv beta.
  cbn [BiCGModel.combinedCriterion BiCGModel.updateCrit BiCGModel.converged BiCGModel.failed].
  apply after_holds; [exact C6|exact HX1|].
  exists x1, r1, pp, v, t, z1, rho, alpha, om, d.
  cbn [BiCGModel.l_x BiCGModel.l_r BiCGModel.l_p BiCGModel.l_v
    BiCGModel.l_y BiCGModel.l_z BiCGModel.l_rho BiCGModel.l_alpha BiCGModel.l_omega BiCGModel.l_crit BiCGModel.l_calls BiCGModel.l_iter].
  split; [reflexivity|]. split; [intros p Hp; auto 10|]. auto 10.
Qed.

(* ----- the whole loop ----- *)

Definition endsAs (f : nat -> proc (message Q) outcome) (r : BiCGModel.result BiCGModel.combined) : Prop :=
  (exists o, assuredRun (cfg N f noMsg) (cfg N (fun p => Ret (o p)) noMsg) /\ forall p, p < N -> outRel p (o p) r)
  \/ FAILS /\ assuredRun (cfg N f noMsg) (cfg N (fun _ => Ret PFailed) noMsg).

Lemma endsAs_phase : forall A (f : nat -> proc (message Q) A) K r s,
  assuredRun (cfg N f noMsg) (cfg N (fun p => Ret (r p)) noMsg) ->
  endsAs (fun p => K p (r p)) s -> endsAs (fun p => bind (f p) (K p)) s.
Proof.
  intros A f K r s R [(o & H & Ho)|[F H]].
  - left. exists o. split; [|exact Ho]. eapply phases; [exact R|exact H].
  - right. split; [exact F|]. eapply phases; [exact R|exact H].
Qed.

Lemma iterate_ends : forall k L l, simulates L l ->
  endsAs (fun p => iterate p (fo p) (dom p) (bst p) (bufs p) (m p) (prec p) (b p) eps (domSize (dom p)) k (L p))
    (BiCGModel.iterate _ (BiCGModel.combinedCriterion n) (globalProduct N pt name native) (globalDot n) globalPrec B eps k l).
Proof.
  induction k as [|k IH]; intros L l S; cbn [iterate BiCGModel.iterate].
  - left. exists (fun p => PReturned false (p_x (L p)) (p_crit (L p)) (p_iter (L p))). split; [apply ar_nil|].
    destruct S as (x & r & pp & v & y & z & rho & alpha & omega & c & EL & HV & Erho & Ealpha & Eomega & C).
    intros p Hp. rewrite (EL p Hp). cbn [p_x p_crit p_iter]. exists (x p), c. split; [reflexivity|].
    split; [apply (HV p Hp)|exact C].
  - destruct (first_steps L l S) as [H|[F R]].
    2:{ right. split; [exact F|]. eapply phases; [exact R|]. apply ar_nil. }
    destruct (seqFirst l) as [r|l1].
    { destruct H as (o & R & Ho). left. exists o. split; [|exact Ho]. eapply phases; [exact R|]. apply ar_nil. }
    destruct H as (L1 & R & S1). eapply endsAs_phase; [exact R|]. cbv beta iota.
    destruct (second_steps L1 l1 S1) as [H|[F R']].
    2:{ right. split; [exact F|]. eapply phases; [exact R'|]. apply ar_nil. }
    destruct (seqSecond l1) as [r|l2].
    { destruct H as (o & R' & Ho). left. exists o. split; [|exact Ho]. eapply phases; [exact R'|]. apply ar_nil. }
    destruct H as (L2 & R' & S2). eapply endsAs_phase; [exact R'|]. cbv beta iota. apply IH. exact S2.
Qed.

Lemma solve_ends : forall maxIter c0,
  endsAs (fun p => solve p (fo p) (dom p) (bst p) (bufs p) (m p) (prec p) (b p) eps maxIter c0)
    (BiCGModel.apply _ (BiCGModel.combinedCriterion n) (globalProduct N pt name native) (globalDot n) globalPrec B eps maxIter c0).
Proof.
  intros maxIter c0. unfold solve, BiCGModel.apply.
  assert (HZ : forall p, p < N -> holds BiCGModel.vzero p (tabulate (domSize (dom p)) (fun _ => 0%Q))).
  { intros p Hp. apply holds_tab. intros. reflexivity. }
  destruct (sync_again _ _ HZ) as (x1 & R1 & H1). destruct (sync_again _ _ H1) as (x2 & R2 & H2).
  destruct (sync_again _ _ HB) as (r & R3 & H3).
  eapply endsAs_phase with (r := fun p => inr (x2 p, r p)).
  { unfold precondPre. eapply phases; [apply agree_run; exact HN|]. cbv beta.
    assert (E : forallb (fun _ : nat => true) (seq 0 N) = true) by (apply forallb_forall; auto). rewrite E.
    eapply phases; [exact R1|]. cbv beta iota. eapply phases; [exact R2|]. cbv beta iota.
    eapply phases; [exact R3|]. apply ar_nil. }
  cbv beta iota zeta.
  destruct (initial_holds c0 c0 x2 r BiCGModel.vzero B HN (critRel_refl c0) H2 H3) as (c & R4 & C4).
  eapply endsAs_phase; [exact R4|]. cbv beta.
  cbn [BiCGModel.combinedCriterion BiCGModel.setInitial BiCGModel.converged].
  rewrite <- (conv_rel _ _ C4). destruct (BiCGModel.cc_converged c).
  - left. exists (fun p => PReturned true (x2 p) c 0). split; [apply ar_nil|].
    intros p Hp. exists (x2 p), c. split; [reflexivity|]. split; [apply H2; auto|exact C4].
  - apply iterate_ends.
    exists x2, r, (fun p => tabulate (domSize (dom p)) (fun _ => 0%Q)), (fun p => tabulate (domSize (dom p)) (fun _ => 0%Q)), x2, x2,
      1%Q, 1%Q, 1%Q, c.
    cbn [BiCGModel.l_x BiCGModel.l_r BiCGModel.l_p BiCGModel.l_v
    BiCGModel.l_y BiCGModel.l_z BiCGModel.l_rho BiCGModel.l_alpha BiCGModel.l_omega BiCGModel.l_crit BiCGModel.l_calls BiCGModel.l_iter].
    split; [reflexivity|]. split; [intros p Hp; auto 10|]. do 3 (split; [reflexivity|]). exact C4.
Qed.
End Whole.

Section Run.
Variable N : nat.
Variable pt : nat -> partition.
Variable d0 os : nat.
Variable name : nat -> nat -> nat.
Hypothesis DE : decomposition N pt d0 os name.
Variable pb : nat -> peerBlackLists.
Hypothesis PB : blackListsOf N pt name pb.
Variable maxDistance maxRank : nat.
Hypothesis HD : os <= maxDistance.
Hypothesis HR : N <= maxRank.

Notation fo := (PipelineProofs.fo pt d0 os).
Notation shared := (PipelineProofs.shared pt d0 os).
Notation dof := (PipelineProofs.dof pt name).
Notation dom := (PipelineRun.dom pt d0 os maxDistance maxRank).
Notation object := (PipelineRun.object pt d0 os pb maxDistance maxRank).
Notation theNumber := (PipelineRun.theNumber N pt d0 os name).
Notation bufs := (PipelineRun.bufs pt d0 os maxDistance maxRank).
Notation start_ := (PipelineRun.start_ pt d0 os maxDistance maxRank).

Variable ddof : nat -> nat -> nat.
Hypothesis SY : system N fo shared dof theNumber (offset fo N) ddof dom.

Variable native : nat -> nat -> list (nat * Q).
Hypothesis GR : onGraph N pt native.
Hypothesis ONCE : columnsOnce N pt name.
Hypothesis ALL : allUsable N pt d0 os name pb.
Hypothesis OS : 1 <= os.
Hypothesis OWN : d0 = 0 -> forall p n c, p < N -> isRow pt p n -> In c (columns (pt p) n) -> isRow pt p c.

Notation blk := (blacks pt d0 os pb maxDistance maxRank).
Notation nat_ := (nats pt).
Notation rows_ := (rowsN pt).
Notation kno := (knows_ pt d0 os pb maxDistance maxRank).
Notation NM := (native_matrices N pt d0 os name DE pb PB maxDistance maxRank HD HR ddof SY native GR ONCE).
Notation bst := (built fo shared dom nat_ blk rows_ (fun p => columns (pt p))).

Variable n : nat.
Hypothesis NR : forall x, x < n <-> exists p, p < N /\ hasRow pt name p x.
Hypothesis BORDER : N = 1 \/ forall p, p < N -> border (pt p) <> [].
Variable ready : nat -> structure -> @values Q -> bool.
Variable prec : nat -> structure -> @values Q -> nat -> list Q -> list Q -> option (nat -> Q).
Hypothesis SAME : forall p st m, p < N -> sameForEqual (prec p st m).
Variable eps : Q.
Variable maxIter : nat.
Variable c0 : BiCGModel.combined.
Variable v : nat -> list Q.

Lemma have_peers : N = 1 \/ forall p, p < N -> peerSet (fo p) <> [].
Proof.
  destruct BORDER as [E|H]; [left; exact E|right]. intros p Hp E.
  destruct (border (pt p)) as [|e l] eqn:Eb; [apply (H p Hp Eb)|].
  assert (K : In (peerRank e) (peerSet (fo p))); [|rewrite E in K; destruct K].
  destruct (result_spec N pt d0 os (de_borders _ _ _ _ _ DE) (de_common _ _ _ _ _ DE) p Hp) as (_ & _ & _ & _ & _ & P).
  cbn [PipelineProofs.fo asForeign peerSet]. apply P. left. apply neighbors_lists. exists (localIdx e), (peerIdx e), e.
  rewrite Eb. split; [left; reflexivity|auto].
Qed.

Definition theMatrix (m : nat -> @values Q) : Prop :=
  forall p, p < N -> forall i j, i < domSize (dom p) -> j < domSize (dom p) ->
  (m p i j == entrySum N fo dof nat_ native name kno (ddof p i) (ddof p j))%Q.

Definition precs (m : nat -> @values Q) (p : nat) := prec p (bst p) (m p).
Definition theK (m : nat -> @values Q) := globalPrec N pt d0 os name maxDistance maxRank ddof (precs m).

Definition native_ (p : nat) (o : outcome) : outcome :=
  match o with
  | PReturned ok x c it => PReturned ok (assignTo (fo p) 0%Q (numNative (pt p)) x) c it
  | r => r
  end.

Lemma solved_run : 0 < N -> exists m out,
  theMatrix m
  /\ assuredRun (cfg N (fun p => buildAndSolve p N (pt p) (pb p) maxDistance maxRank (native p) (ready p) (prec p) eps maxIter c0 (v p)) noMsg)
                (cfg N (fun p => Ret (mkSolved (object p) (bst p) (Some (m p)) (native_ p (out p)))) noMsg)
  /\ ((exists p, p < N /\ ready p (bst p) (m p) = false) /\ (forall p, p < N -> out p = PNotReady)
      \/ (forall p, p < N -> ready p (bst p) (m p) = true)
         /\ ((exists p k y d, p < N /\ prec p (bst p) (m p) k y d = None) /\ (forall p, p < N -> out p = PFailed)
             \/ forall p, p < N -> outRel pt d0 os maxDistance maxRank ddof p (out p)
                  (BiCGModel.apply _ (BiCGModel.combinedCriterion n) (globalProduct N pt name native) (globalDot n)
                     (theK m) (rowSum N pt name v) eps maxIter c0))).
Proof.
  intros HN.
  destruct (set_matrix_run N pt d0 os name DE pb PB maxDistance maxRank HD HR ddof SY native GR ONCE 0%Q Qplus) as (m0 & A & R).
  destruct (finite_choice (@values Q) (fun _ _ => 0%Q)
     (fun p m' => syncEntriesResult fo shared dom 0%Q nat_ blk rows_ (fun p => columns (pt p)) m0 Qplus p = Some m'
       /\ forall i j, i < domSize (dom p) -> j < domSize (dom p) ->
     (m' i j == entrySum N fo dof nat_ native name kno (ddof p i) (ddof p j))%Q) N) as (m & M).
  { intros p Hp. apply (summed_values N fo shared dof theNumber (offset fo N) ddof dom SY nat_ native name kno blk rows_ (fun p => columns (pt p)) NM m0 A p Hp). }
  assert (MV : theMatrix m) by (intros p Hp; apply (M p Hp)).
  destruct (finite_choice (list Q) [] (fun p y => syncAddResult fo 0%Q Qplus bufs (start_ 0%Q v) p = Some y
     /\ length y = domSize (dom p)
     /\ forall i, i < domSize (dom p) -> (nth i y 0 == rowSum N pt name v (ddof p i))%Q) N) as (b & HB).
  { intros p Hp. eapply (add_value N pt d0 os name maxDistance maxRank); eauto. }
  pose proof (bufs_ok N pt d0 os name maxDistance maxRank ddof SY) as BF.
  set (SOLVE := fun p => solve p (fo p) (dom p) (bst p) (bufs p) (m p) (precs m p) (b p) eps maxIter c0).
  assert (R1 : assuredRun (cfg N (fun p => buildAndSolve p N (pt p) (pb p) maxDistance maxRank (native p) (ready p) (prec p) eps maxIter c0 (v p)) noMsg)
     (cfg N (fun p => if forallb (fun p => ready p (bst p) (m p)) (seq 0 N) then
        bind (SOLVE p) (fun r => Ret (mkSolved (object p) (bst p) (Some (m p)) (native_ p r)))
        else Ret (mkSolved (object p) (bst p) (Some (m p)) PNotReady)) noMsg)).
  { unfold buildAndSolve. eapply phases; [apply (build_all N pt d0 os name DE pb PB maxDistance maxRank HD HR)|]. cbv beta.
    eapply phases; [apply (matrix_run N pt d0 os name DE pb PB maxDistance maxRank HD HR ddof SY native GR ONCE)|]. cbv beta.
    eapply phases; [apply (vector_run N pt d0 os name pb maxDistance maxRank ddof SY)|]. cbv beta.
    eapply phases.
    { unfold forValues. apply lift_run; [reflexivity|]. unfold assignAddBorder, ovAsForeign.
      apply (syncAdd_run N fo shared dof theNumber (offset fo N) ddof dom SY 0%Q Qplus bufs BF (start_ 0%Q v)). }
    cbv beta. eapply phases; [apply R|]. cbv beta.
    rewrite (cfg_ext _ N _ (fun p => bind (agree 6 (ready p (bst p) (m p))) (fun ok =>
       if ok then bind (SOLVE p) (fun r => Ret (mkSolved (object p) (bst p) (Some (m p)) (native_ p r)))
       else Ret (mkSolved (object p) (bst p) (Some (m p)) PNotReady))) noMsg noMsg).
    - eapply phases; [apply agree_run; exact HN|]. apply ar_nil.
    - intros p Hp. destruct (M p Hp) as [-> _]. destruct (HB p Hp) as (-> & _). reflexivity.
    - reflexivity. }
  destruct (forallb (fun p => ready p (bst p) (m p)) (seq 0 N)) eqn:RE.
  - destruct (solve_ends N pt d0 os name DE pb PB maxDistance maxRank HD HR ddof SY native GR ONCE ALL OS OWN m MV n NR
       (precs m) (fun p Hp => SAME p _ _ Hp) have_peers b (rowSum N pt name v)
       (fun p Hp => proj2 (HB p Hp)) eps HN maxIter c0) as [(out & R2 & H)|[F R2]].
    + exists m, out. split; [exact MV|]. split.
      * eapply ar_trans; [exact R1|]. eapply phases; [exact R2|]. apply ar_nil.
      * right. split; [|right; exact H]. intros p Hp. rewrite forallb_forall in RE. apply RE. apply in_seq. lia.
    + exists m, (fun _ => PFailed). split; [exact MV|]. split.
      * eapply ar_trans; [exact R1|]. eapply phases; [exact R2|]. apply ar_nil.
      * right. split; [|left; split; [exact F|reflexivity]]. intros p Hp. rewrite forallb_forall in RE. apply RE. apply in_seq. lia.
  - exists m, (fun _ => PNotReady). split; [exact MV|]. split; [exact R1|]. left. split; [|reflexivity].
    destruct (existsb (fun p => negb (ready p (bst p) (m p))) (seq 0 N)) eqn:X.
    + apply existsb_exists in X. destruct X as (p & Hp & Hr). apply in_seq in Hp. exists p. split; [lia|].
      apply negb_true_iff. exact Hr.
    + exfalso. assert (K : forallb (fun p => ready p (bst p) (m p)) (seq 0 N) = true); [|rewrite K in RE; discriminate].
      apply forallb_forall. intros p Hp. destruct (ready p (bst p) (m p)) eqn:E; [reflexivity|].
      assert (K : existsb (fun p => negb (ready p (bst p) (m p))) (seq 0 N) = true); [|rewrite K in X; discriminate].
      apply existsb_exists. exists p. rewrite E. auto.
Qed.
End Run.
