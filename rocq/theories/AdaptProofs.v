(** * Proofs about grid adaptation *)
From Coq Require Import QArith List Arith Bool Lia Lqa.
From Verif Require Import AdaptModel AdaptSpec.
Import ListNotations.

(** ** Marks *)
Open Scope Q_scope.
Lemma Qle_bool_f : forall a b, Qle_bool a b = false -> b < a.
Proof. intros a b H. apply Qnot_le_lt. intros K. apply Qle_bool_iff in K. congruence. Qed.
Lemma Qlt_bool_iff : forall a b, Qlt_bool a b = true <-> a < b.
Proof.
  intros. unfold Qlt_bool. destruct (Qle_bool b a) eqn:E; split; intros H; try discriminate; try reflexivity.
  - apply Qle_bool_iff in E. lra.
  - now apply Qle_bool_f.
Qed.

Lemma min_fold : forall l a, (exists y, In y (a :: l) /\ y == fold_left stdMin l a) /\
  forall y, In y (a :: l) -> fold_left stdMin l a <= y.
Proof.
  induction l as [|x l IH]; intros a; cbn [fold_left].
  - split; [exists a; split; [left; reflexivity|reflexivity]|]. intros y [<-|[]]. apply Qle_refl.
  - destruct (IH (stdMin a x)) as [(y & Hy & E) L]. split.
    + exists y. split; [|exact E]. destruct Hy as [<-|Hy]; [|right; right; exact Hy].
      unfold stdMin. destruct (Qle_bool a x); [left|right; left]; reflexivity.
    + assert (M : fold_left stdMin l (stdMin a x) <= stdMin a x) by (apply L; left; reflexivity).
      assert (N : stdMin a x <= a /\ stdMin a x <= x).
      { unfold stdMin. destruct (Qle_bool a x) eqn:B; [apply Qle_bool_iff in B|apply Qle_bool_f in B]; lra. }
      intros z [<-|[<-|Hz]]; [lra|lra|]. apply L. right. exact Hz.
Qed.
Lemma max_fold : forall l a, (exists y, In y (a :: l) /\ y == fold_left stdMax l a) /\
  forall y, In y (a :: l) -> y <= fold_left stdMax l a.
Proof.
  induction l as [|x l IH]; intros a; cbn [fold_left].
  - split; [exists a; split; [left; reflexivity|reflexivity]|]. intros y [<-|[]]. apply Qle_refl.
  - destruct (IH (stdMax a x)) as [(y & Hy & E) L]. split.
    + exists y. split; [|exact E]. destruct Hy as [<-|Hy]; [|right; right; exact Hy].
      unfold stdMax. destruct (Qle_bool x a); [left|right; left]; reflexivity.
    + assert (M : stdMax a x <= fold_left stdMax l (stdMax a x)) by (apply L; left; reflexivity).
      assert (N : a <= stdMax a x /\ x <= stdMax a x).
      { unfold stdMax. destruct (Qle_bool x a) eqn:B; [apply Qle_bool_iff in B|apply Qle_bool_f in B]; lra. }
      intros z [<-|[<-|Hz]]; [lra|lra|]. apply L. right. exact Hz.
Qed.
Lemma big : 1000 < inject_Z (10 ^ 100). Proof. reflexivity. Qed.
Lemma minSat_smallest : forall l, sane l -> smallest l (minSat l).
Proof.
  intros l [N S]. destruct (min_fold l (inject_Z (10 ^ 100))) as [(y & Hy & E) L]. pose proof big as B. split.
  - exists y. split; [|exact E]. destruct Hy as [<-|Hy]; [|exact Hy]. destruct l as [|x l]; [contradiction|].
    exfalso. assert (K : fold_left stdMin (x :: l) (inject_Z (10 ^ 100)) <= x) by (apply L; right; left; reflexivity).
    destruct (S x (or_introl eq_refl)). lra.
  - intros z Hz. apply L. right. exact Hz.
Qed.
Lemma maxSat_largest : forall l, sane l -> largest l (maxSat l).
Proof.
  intros l [N S]. destruct (max_fold l (- inject_Z (10 ^ 100))) as [(y & Hy & E) L]. pose proof big as B. split.
  - exists y. split; [|exact E]. destruct Hy as [<-|Hy]; [|exact Hy]. destruct l as [|x l]; [contradiction|].
    exfalso. assert (K : x <= fold_left stdMax (x :: l) (- inject_Z (10 ^ 100))) by (apply L; right; left; reflexivity).
    destruct (S x (or_introl eq_refl)). lra.
  - intros z Hz. apply L. right. exact Hz.
Qed.
Lemma largest_unique : forall l x y, largest l x -> largest l y -> x == y.
Proof. intros l x y [(a & A & E) U] [(b & B & F) W]. specialize (U b B). specialize (W a A). lra. Qed.
Lemma smallest_unique : forall l x y, smallest l x -> smallest l y -> x == y.
Proof. intros l x y [(a & A & E) U] [(b & B & F) W]. specialize (U b B). specialize (W a A). lra. Qed.
Lemma stdMax_if : forall a b, stdMax a b = if Qle_bool b a then a else b.
Proof. reflexivity. Qed.
Lemma indicator_variation : forall l hi lo, sane l -> largest l hi -> smallest l lo -> indicator l == variation hi lo.
Proof.
  intros l hi lo S A B. unfold indicator, variation.
  pose proof (largest_unique l _ _ (maxSat_largest l S) A) as E.
  pose proof (smallest_unique l _ _ (minSat_smallest l S) B) as F.
  rewrite stdMax_if. set (x := maxSat l) in *. set (y := minSat l) in *. clearbody x y.
  assert (G : Qle_bool (x + y) (1 # 100) = Qle_bool (hi + lo) (1 # 100)).
  { destruct (Qle_bool (hi + lo) (1 # 100)) eqn:K.
    - apply Qle_bool_iff in K. apply Qle_bool_iff. lra.
    - apply Qle_bool_f in K. destruct (Qle_bool (x + y) (1 # 100)) eqn:K'; [|reflexivity]. apply Qle_bool_iff in K'. lra. }
  rewrite G. destruct (Qle_bool (hi + lo) (1 # 100)); rewrite E, F; reflexivity.
Qed.

Definition lastMark (e : elem) : mark := last (map (markPhase (e_level e)) (e_sats e)) Keep.
Definition phaseCount (e : elem) : nat := list_sum (map (fun l => counts (markPhase (e_level e) l)) (e_sats e)).
Lemma last_cons_default : forall (A : Type) (l : list A) (x y d : A), last (x :: l) d = last l x.
Proof. intros A l. induction l as [|z l IH]; intros x y d; [reflexivity|]. cbn [last] in *. destruct l; [reflexivity|]. now apply IH. Qed.
Lemma markElement_eq : forall e num, markElement e num = mkMarking (lastMark e) (num + phaseCount e).
Proof.
  intros e num. unfold markElement, lastMark, phaseCount. generalize Keep as m0. revert num.
  induction (e_sats e) as [|l ls IH]; intros num m0; cbn [fold_left map list_sum fold_right].
  - cbn. now rewrite Nat.add_0_r.
  - cbn [m_num]. rewrite IH. rewrite (last_cons_default _ _ _ Keep). f_equal.
    unfold list_sum. cbn [fold_right]. lia.
Qed.
Lemma markElements_acc : forall es a n,
  fold_left (fun a e => let m := markElement e (snd a) in (fst a ++ [m_mark m], m_num m)) es (a, n) =
  (a ++ map lastMark es, (n + list_sum (map phaseCount es))%nat).
Proof.
  induction es as [|e es IH]; intros a n; cbn [fold_left map].
  - rewrite app_nil_r. cbn. now rewrite Nat.add_0_r.
  - cbn [fst snd]. rewrite markElement_eq. cbn [m_mark m_num]. rewrite IH, <- app_assoc. cbn [app]. f_equal.
    unfold list_sum. cbn [fold_right]. lia.
Qed.
Lemma markElements_eq : forall es, markElements es = (map lastMark es, list_sum (map phaseCount es)).
Proof. intros. unfold markElements. rewrite markElements_acc. reflexivity. Qed.
Lemma markForGridAdaptation_eq : forall ps,
  markForGridAdaptation ps = list_sum (map phaseCount (concat ps)).
Proof.
  intros ps. unfold markForGridAdaptation.
  assert (H : forall n, fold_left (fun a es => (a + snd (markElements es))%nat) ps n = (n + list_sum (map phaseCount (concat ps)))%nat).
  { induction ps as [|p ps IH]; intros n; cbn [fold_left concat]; [cbn; lia|].
    rewrite IH, markElements_eq, map_app, list_sum_app. cbn [snd]. lia. }
  now rewrite H.
Qed.
Lemma markPhase_refine : forall n l, markPhase n l = Refine -> (n < 2)%nat.
Proof.
  intros n l. unfold markPhase. destruct (Qlt_bool (2 # 10) (indicator l)); cbn [andb].
  - destruct (Nat.ltb_spec n 2) as [K|K]; [intros _; exact K|]. destruct (Qlt_bool _ _); discriminate.
  - destruct (Qlt_bool _ _); discriminate.
Qed.
Lemma last_In : forall (A : Type) (l : list A) d, l <> [] -> In (last l d) l.
Proof.
  intros A l d. induction l as [|x l IH]; [contradiction|]. intros _. destruct l as [|y l]; [left; reflexivity|].
  right. change (last (x :: y :: l) d) with (last (y :: l) d). apply IH. discriminate.
Qed.
Lemma lastMark_refine : forall e, lastMark e = Refine -> (e_level e < 2)%nat.
Proof.
  intros e H. unfold lastMark in H. destruct (map (markPhase (e_level e)) (e_sats e)) as [|x ls] eqn:E; [discriminate|].
  assert (K : In Refine (map (markPhase (e_level e)) (e_sats e))).
  { rewrite E, <- H. apply last_In. discriminate. }
  apply in_map_iff in K. destruct K as (l & K & _). now apply markPhase_refine in K.
Qed.
Lemma phaseCount_zero : forall e, phaseCount e = 0%nat -> lastMark e = Keep.
Proof.
  intros e. unfold phaseCount, lastMark.
  assert (G : forall l d, list_sum (map (fun l => counts (markPhase (e_level e) l)) l) = 0%nat ->
      d = Keep -> last (map (markPhase (e_level e)) l) d = Keep).
  { induction l as [|x l IH]; intros d H D; [exact D|]. cbn [map]. rewrite (last_cons_default _ _ _ Keep).
    unfold list_sum in H. cbn [map fold_right] in H. apply IH; [unfold list_sum; lia|].
    destruct (markPhase (e_level e) x); cbn [counts] in H; [lia|reflexivity|lia]. }
  intros H. now apply G.
Qed.
Lemma phaseCount_le : forall e, (phaseCount e <= length (e_sats e))%nat.
Proof.
  intros e. unfold phaseCount. induction (e_sats e) as [|l ls IH]; [apply Nat.le_refl|].
  unfold list_sum in *. cbn [map fold_right length]. destruct (markPhase (e_level e) l); cbn [counts]; lia.
Qed.

(** ** Elements of the hierarchy *)
Section TreeInd.
Variable P : tree -> Prop.
Hypothesis H : forall ks, Forall P ks -> P (T ks).
Fixpoint tree_rec' (t : tree) : P t :=
  match t with
  | T ks => H ks ((fix go (ks : list tree) : Forall P ks :=
                     match ks with [] => Forall_nil P | t :: ks => Forall_cons t (tree_rec' t) (go ks) end) ks)
  end.
End TreeInd.

(** The element reached from [t] by the relative path [d]. *)
Fixpoint subT (t : tree) (d : path) : option tree :=
  match d with
  | [] => Some t
  | i :: d => match subT t d with Some s => nth_error (kidsOf s) i | None => None end
  end.
Lemma subT_last : forall d t j, subT t (d ++ [j]) = match nth_error (kidsOf t) j with Some s => subT s d | None => None end.
Proof.
  induction d as [|i d IH]; intros t j; cbn [app subT].
  - destruct (nth_error (kidsOf t) j); reflexivity.
  - rewrite IH. destruct (nth_error (kidsOf t) j); reflexivity.
Qed.
Lemma below_subT : forall d t, below t d = subT t (rev d).
Proof.
  induction d as [|i d IH]; intros t; [reflexivity|]. cbn [below rev]. rewrite subT_last.
  destruct (nth_error (kidsOf t) i); [apply IH|reflexivity].
Qed.
Lemma treeAt_subT : forall ts p, p <> [] -> treeAt ts p = subT (T ts) p.
Proof.
  intros ts p N. rewrite <- (rev_involutive p) at 2. rewrite <- below_subT. unfold treeAt.
  destruct (rev p) as [|i d] eqn:E; [|reflexivity]. exfalso. apply N. rewrite <- (rev_involutive p), E. reflexivity.
Qed.

Section G.
Variable numKids : nat.
Variable m : path -> mark.

Fixpoint adaptKids (p : path) (i : nat) (ks : list tree) : list tree :=
  match ks with [] => [] | t :: ks => adaptTree numKids m (i :: p) t :: adaptKids p (S i) ks end.
Lemma adaptTree_T : forall p k ks, adaptTree numKids m p (T (k :: ks)) =
  if allVanish m p 0 (k :: ks) then T [] else T (adaptKids p 0 (k :: ks)).
Proof.
  intros p k ks. cbn [adaptTree]. destruct (allVanish m p 0 (k :: ks)); [reflexivity|]. f_equal. cbn [adaptKids]. f_equal.
  generalize 1%nat as i. induction ks as [|t ks IH]; intros i; [reflexivity|]. cbn [adaptKids]. f_equal. apply IH.
Qed.
Lemma adaptTree_nil : forall p, adaptTree numKids m p (T []) = if isRefine (m p) then T (repeat (T []) numKids) else T [].
Proof. reflexivity. Qed.
Lemma adaptForest_kids : forall ts i, adaptForest numKids m i ts = adaptKids [] i ts.
Proof. induction ts as [|t ts IH]; intros i; [reflexivity|]. cbn [adaptForest adaptKids]. f_equal. apply IH. Qed.
Lemma nth_adaptKids : forall p ks i j, nth_error (adaptKids p i ks) j =
  match nth_error ks j with Some t => Some (adaptTree numKids m ((i + j)%nat :: p) t) | None => None end.
Proof.
  intros p. induction ks as [|t ks IH]; intros i j; destruct j as [|j]; try reflexivity.
  - cbn. now rewrite Nat.add_0_r.
  - cbn [adaptKids nth_error]. rewrite IH. now rewrite Nat.add_succ_comm.
Qed.
Lemma allVanish_kid : forall p ks i j t, allVanish m p i ks = true -> nth_error ks j = Some t ->
  t = T [] /\ m ((i + j)%nat :: p) = Coarsen.
Proof.
  intros p. induction ks as [|s ks IH]; intros i j t H N; [destruct j; discriminate|].
  cbn [allVanish] in H. apply andb_true_iff in H. destruct H as [H1 H2]. destruct j as [|j]; cbn [nth_error] in N.
  - injection N as ->. rewrite Nat.add_0_r. unfold mightVanish in H1. apply andb_true_iff in H1. destruct H1 as [L C].
    split; [destruct t as [[|]]; [reflexivity|discriminate]|]. destruct (m (i :: p)); try discriminate. reflexivity.
  - rewrite <- Nat.add_succ_comm. now apply (IH (S i) j t).
Qed.
Variable pos : (0 < numKids)%nat.
Lemma repeat_kid : forall j t, nth_error (repeat (T []) numKids) j = Some t -> t = T [] /\ (j < numKids)%nat.
Proof.
  intros j t H. split.
  - apply nth_error_In, repeat_spec in H. exact H.
  - rewrite <- (repeat_length (T []) numKids). apply nth_error_Some. congruence.
Qed.

(** Every element of the new hierarchy was there before or is a child of a refined leaf. *)
Lemma adapt_inv : forall ts p t, p <> [] -> subT (T (adaptForest numKids m 0 ts)) p = Some t ->
  (exists s, subT (T ts) p = Some s /\ t = adaptTree numKids m p s) \/
  (exists i q, p = i :: q /\ q <> [] /\ subT (T ts) q = Some (T []) /\ m q = Refine /\ (i < numKids)%nat /\ t = T []).
Proof.
  intros ts p. induction p as [|i q IH]; [contradiction|]. intros t _ H. cbn [subT] in H.
  destruct q as [|j q].
  - cbn [subT] in H. cbn [kidsOf] in H. rewrite adaptForest_kids, nth_adaptKids in H. left.
    destruct (nth_error ts i) as [s|] eqn:E; [|discriminate]. exists s. cbn [subT kidsOf]. split; [exact E|].
    cbn [Nat.add] in H. congruence.
  - destruct (subT (T (adaptForest numKids m 0 ts)) (j :: q)) as [s'|] eqn:E; [|discriminate].
    specialize (IH s' ltac:(discriminate) eq_refl). destruct IH as [(s & S1 & S2)|(i' & q' & _ & _ & _ & _ & _ & S)].
    + destruct s as [[|k ks]].
      * rewrite adaptTree_nil in S2. destruct (m (j :: q)) eqn:M; cbn [isRefine] in S2; subst s'; cbn [kidsOf] in H.
        -- apply repeat_kid in H. destruct H as [-> H]. right. exists i, (j :: q).
           split; [reflexivity|]. split; [discriminate|]. split; [exact S1|]. split; [exact M|]. split; [exact H|reflexivity].
        -- destruct i; discriminate.
        -- destruct i; discriminate.
      * rewrite adaptTree_T in S2. destruct (allVanish m (j :: q) 0 (k :: ks)); subst s'; cbn [kidsOf] in H.
        -- destruct i; discriminate.
        -- rewrite nth_adaptKids in H. left. cbn [subT]. cbn [subT] in S1. rewrite S1. cbn [kidsOf].
           destruct (nth_error (k :: ks) i) as [s|]; [|discriminate]. exists s. split; [reflexivity|]. cbn [Nat.add] in H. congruence.
    + subst s'. destruct i; discriminate.
Qed.
(** The elements which are there before and after. *)
Lemma adapt_keeps : forall ts p s, p <> [] -> subT (T ts) p = Some s ->
  (forall i q ks, p = i :: q -> q <> [] -> subT (T ts) q = Some (T ks) -> allVanish m q 0 ks = false) ->
  subT (T (adaptForest numKids m 0 ts)) p = Some (adaptTree numKids m p s).
Proof.
  intros ts p. induction p as [|i q IH]; [contradiction|]. intros s _ H K. destruct q as [|j q].
  - cbn [subT kidsOf] in *. rewrite adaptForest_kids, nth_adaptKids, H. reflexivity.
  - cbn [subT] in H. change (subT (T ts) (j :: q)) with (subT (T ts) (j :: q)) in H.
    assert (E : exists r, subT (T ts) (j :: q) = Some r) by (cbn [subT]; destruct (match subT (T ts) q with Some s0 => nth_error (kidsOf s0) j | None => None end) as [r|]; [exists r; reflexivity|discriminate]).
    destruct E as [[ks] E]. cbn [subT] in E. rewrite E in H. cbn [kidsOf] in H.
    pose proof (K i (j :: q) ks eq_refl ltac:(discriminate) E) as V.
    destruct ks as [|k ks]; [destruct i; discriminate|].
    change (subT (T (adaptForest numKids m 0 ts)) (i :: j :: q)) with
      (match subT (T (adaptForest numKids m 0 ts)) (j :: q) with Some s0 => nth_error (kidsOf s0) i | None => None end).
    rewrite (IH (T (k :: ks)) ltac:(discriminate) E).
    + rewrite adaptTree_T, V. cbn [kidsOf]. rewrite nth_adaptKids, H. reflexivity.
    + intros i' q' ks' Q Nq S. injection Q as <- <-. destruct (allVanish m q 0 ks') eqn:A; [|reflexivity]. exfalso.
      cbn [subT] in E. rewrite S in E. cbn [kidsOf] in E. destruct (allVanish_kid q ks' 0 j _ A E) as [Y _]. discriminate.
Qed.
End G.
