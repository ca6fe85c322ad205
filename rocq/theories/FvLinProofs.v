(** Proofs about the linearizer of the finite volume discretizations. *)
From Coq Require Import List Bool Arith QArith Lia Lqa.
Import ListNotations.
From Verif Require Import TpfaModel TpfaSpec TpfaProofs FvLinModel FvLinSpec.
Open Scope Q_scope.

Definition val_ (m : matrix) (i j q p : nat) : Q := match m i j with Some b => b q p | None => 0 end.
Definition sameBlocks (a b : matrix) : Prop := forall i j, a i j = None <-> b i j = None.

Lemma sameBlocks_refl a : sameBlocks a a.
Proof. intros i j. tauto. Qed.
Lemma sameBlocks_trans a b c : sameBlocks a b -> sameBlocks b c -> sameBlocks a c.
Proof. intros H K i j. rewrite (H i j). apply K. Qed.
Lemma sameBlocks_sym a b : sameBlocks a b -> sameBlocks b a.
Proof. intros H i j. symmetry. apply H. Qed.

(** One block. *)
Lemma addToBlock_result i j b m m' : addToBlock i j b m = Some m' ->
  sameBlocks m' m /\ m i j <> None /\
  forall r c q p, val_ m' r c q p == val_ m r c q p + (if ((r =? i) && (c =? j))%nat%bool then b q p else 0).
Proof.
  unfold addToBlock. destruct (m i j) as [x|] eqn:X; [|discriminate]. intros H. injection H as <-.
  split; [|split; [congruence|]].
  - intros r c. destruct ((r =? i)%nat && (c =? j)%nat)%bool eqn:B; [|tauto].
    apply andb_true_iff in B. destruct B as (B1 & B2). apply Nat.eqb_eq in B1, B2. subst. rewrite X. split; discriminate.
  - intros r c q p. unfold val_. destruct ((r =? i)%nat && (c =? j)%nat)%bool eqn:B.
    + apply andb_true_iff in B. destruct B as (B1 & B2). apply Nat.eqb_eq in B1, B2. subst. rewrite X. reflexivity.
    + lra.
Qed.

Lemma addToBlock_succeeds i j b m : m i j <> None -> exists m', addToBlock i j b m = Some m'.
Proof. unfold addToBlock. destruct (m i j); [eauto|congruence]. Qed.

(** One column of an element. *)
Lemma addColumn_result L k I l : forall m m', addColumn L k I l m = Some m' ->
  sameBlocks m' m /\
  forall r c q p, val_ m' r c q p == val_ m r c q p
    + (if (c =? I)%nat then total (fun ld => if (snd ld =? r)%nat then locJacobian L (fst ld) k q p else 0) l else 0).
Proof.
  induction l as [|(d, J) l IH]; intros m m' H; cbn [addColumn] in H.
  - injection H as <-. split; [apply sameBlocks_refl|]. intros. cbn. destruct (c =? I)%nat; lra.
  - destruct (addToBlock J I (locJacobian L d k) m) as [m1|] eqn:A; [|discriminate].
    destruct (addToBlock_result _ _ _ _ _ A) as (S & _ & V). destruct (IH _ _ H) as (S' & V').
    split; [eapply sameBlocks_trans; eauto|]. intros r c q p. rewrite V', V.
    rewrite total_cons. cbn [fst snd]. rewrite (Nat.eqb_sym r J).
    destruct (J =? r)%nat, (c =? I)%nat; cbn [andb]; lra.
Qed.

Lemma addColumn_succeeds L k I l : forall m, (forall d J, In (d, J) l -> m J I <> None) ->
  exists m', addColumn L k I l m = Some m'.
Proof.
  induction l as [|(d, J) l IH]; intros m H; cbn [addColumn]; [eauto|].
  destruct (addToBlock_succeeds J I (locJacobian L d k) m (H d J (or_introl eq_refl))) as (m1 & A). rewrite A.
  apply IH. intros d' J' I'. destruct (addToBlock_result _ _ _ _ _ A) as (S & _). rewrite (S J' I). apply (H d'). now right.
Qed.

(** One element. *)
Lemma addPrimaries_result L all ks : forall mr mr', addPrimaries L all ks mr = Some mr' ->
  sameBlocks (fst mr') (fst mr) /\
  (forall i q, snd mr' i q == snd mr i q
     + total (fun kd => if (snd kd =? i)%nat then locResidual L (fst kd) q else 0) ks) /\
  (forall r c q p, val_ (fst mr') r c q p == val_ (fst mr) r c q p
     + total (fun kd => if (snd kd =? c)%nat
                        then total (fun ld => if (snd ld =? r)%nat then locJacobian L (fst ld) (fst kd) q p else 0) all
                        else 0) ks).
Proof.
  induction ks as [|(k, I) ks IH]; intros mr mr' H; cbn [addPrimaries] in H.
  - injection H as <-. split; [apply sameBlocks_refl|]. split; intros; cbn; lra.
  - destruct (addColumn L k I all (fst mr)) as [m1|] eqn:A; [|discriminate].
    destruct (addColumn_result _ _ _ _ _ _ A) as (S & V). destruct (IH _ _ H) as (S' & R' & V'). cbn [fst snd] in *.
    split; [eapply sameBlocks_trans; eauto|]. split.
    + intros i q. rewrite R', total_cons. unfold at_. cbn [fst snd]. rewrite (Nat.eqb_sym I i).
      destruct (Nat.eqb_spec i I) as [->|N]; unfold addV; lra.
    + intros r c q p. rewrite V', V, total_cons. cbn [fst snd]. rewrite (Nat.eqb_sym I c).
      destruct (c =? I)%nat; lra.
Qed.

Lemma addPrimaries_succeeds L all ks : forall mr : matrix * (nat -> vec),
  (forall k I d J, In (k, I) ks -> In (d, J) all -> fst mr J I <> None) ->
  exists mr', addPrimaries L all ks mr = Some mr'.
Proof.
  induction ks as [|(k, I) ks IH]; intros mr H; cbn [addPrimaries]; [eauto|].
  destruct (addColumn_succeeds L k I all (fst mr)) as (m1 & A).
  { intros d J K. eapply H; [left; reflexivity|exact K]. }
  rewrite A. apply IH. cbn [fst]. intros k' I' d J K K'.
  destruct (addColumn_result _ _ _ _ _ _ A) as (S & _). rewrite (S J I'). eapply H; [right; exact K|exact K'].
Qed.

(** Clearing rows. *)
Lemma clearRowTo_blocks d m r : sameBlocks (clearRowTo d m r) m.
Proof. intros i j. unfold clearRowTo. destruct (i =? r)%nat; [|tauto]. destruct (m i j); split; congruence. Qed.

Lemma clearRowTo_other d m r i j q p : i <> r -> val_ (clearRowTo d m r) i j q p = val_ m i j q p.
Proof. intros N. unfold val_, clearRowTo. destruct (Nat.eqb_spec i r); [contradiction|reflexivity]. Qed.

Lemma diagonal_zero q p : diagonal 0 q p = 0.
Proof. unfold diagonal. destruct (q =? p)%nat; reflexivity. Qed.

Lemma clearRowTo_own m r j q p : val_ (clearRowTo 0 m r) r j q p = 0.
Proof.
  unfold val_, clearRowTo. rewrite Nat.eqb_refl. destruct (m r j); [|reflexivity].
  destruct (j =? r)%nat; [apply diagonal_zero|reflexivity].
Qed.

Lemma clearRows_result l : forall m,
  sameBlocks (fold_left (clearRowTo 0) l m) m /\
  forall i j q p, val_ (fold_left (clearRowTo 0) l m) i j q p == (if existsb (Nat.eqb i) l then 0 else val_ m i j q p).
Proof.
  induction l as [|r l IH]; intros m; cbn [fold_left existsb].
  - split; [apply sameBlocks_refl|]. reflexivity.
  - destruct (IH (clearRowTo 0 m r)) as (S & V). split; [eapply sameBlocks_trans; [exact S|apply clearRowTo_blocks]|].
    intros i j q p. rewrite V. destruct (Nat.eqb_spec i r) as [->|N]; cbn [orb].
    + rewrite clearRowTo_own. destruct (existsb _ l); reflexivity.
    + rewrite clearRowTo_other by exact N. reflexivity.
Qed.

Section Sec.
Context {PV : Type}.
Variable numElements : nat.
Variable numTotal : nat.
Variable dofs : nat -> list nat.
Variable primaries : nat -> nat.
Variable interior : nat -> bool.
Variable nonLocal : bool.
Variable enableConstraints : bool.
Notation rows := (rowSum dofs primaries).
Notation blocks := (blockSum dofs primaries).

Lemma numbered_same e : numberedDofs dofs e = numbered (dofs e).
Proof. reflexivity. Qed.

Lemma fvReset_result elems m r :
  sameBlocks (fst (fvReset numTotal dofs primaries elems m r)) m /\
  (forall i q, snd (fvReset numTotal dofs primaries elems m r) i q ==
     if ((length elems =? numTotal)%nat || existsb (Nat.eqb i) (flat_map (primaryDofs dofs primaries) elems))%bool
     then 0 else r i q) /\
  (forall i j q p, val_ (fst (fvReset numTotal dofs primaries elems m r)) i j q p ==
     if ((length elems =? numTotal)%nat || existsb (Nat.eqb i) (flat_map (primaryDofs dofs primaries) elems))%bool
     then 0 else val_ m i j q p).
Proof.
  unfold fvReset. destruct (length elems =? numTotal)%nat; cbn [fst snd orb].
  - split; [|split; [reflexivity|]].
    + intros i j. unfold clearAll. destruct (m i j); split; congruence.
    + intros i j q p. unfold val_, clearAll. destruct (m i j); reflexivity.
  - destruct (clearRows_result (flat_map (primaryDofs dofs primaries) elems) m) as (S & V).
    split; [exact S|]. split; [|exact V].
    intros i q. rewrite clear_residual. destruct (existsb _ _); reflexivity.
Qed.

Lemma existsb_owned elems i :
  existsb (Nat.eqb i) (flat_map (primaryDofs dofs primaries) elems) = true <-> owned dofs primaries elems i.
Proof.
  rewrite <- in_existsb, in_flat_map. unfold owned, primaryOf, primaryDofs. reflexivity.
Qed.

(** The loop. *)
Definition res (E : fvEnv PV) (u v : nat -> PV) (e : nat) : local :=
  match localOf E u v e with Some L => L | None => mkLocal (fun _ => zeroV) (fun _ _ => zeroM) end.

Lemma elementLoop_blocks (E : fvEnv PV) u v elems : forall (mr mr' : matrix * (nat -> vec)) o,
  elementLoop dofs primaries interior nonLocal E u v elems mr = (mr', o) -> sameBlocks (fst mr') (fst mr).
Proof.
  induction elems as [|e elems IH]; intros mr mr' o H; cbn [elementLoop] in H.
  - injection H as <- <-. apply sameBlocks_refl.
  - destruct (negb nonLocal && negb (interior e))%bool; [eapply IH; eauto|].
    destruct (localOf E u v e) as [L|]; [|injection H as <- <-; apply sameBlocks_refl].
    destruct (addPrimaries L _ _ mr) as [m1|] eqn:A; [|injection H as <- <-; apply sameBlocks_refl].
    destruct (addPrimaries_result _ _ _ _ _ A) as (S & _). eapply sameBlocks_trans; [eapply IH; eauto|exact S].
Qed.

Lemma elementLoop_result (E : fvEnv PV) u v elems : forall mr mr' : matrix * (nat -> vec),
  elementLoop dofs primaries interior nonLocal E u v elems mr = (mr', Some true) ->
  let els := filter (fun e => nonLocal || interior e)%bool elems in
  (forall e, In e els -> localOf E u v e <> None) /\
  (forall i q, snd mr' i q == snd mr i q + rows (res E u v) els i q) /\
  (forall r c q p, val_ (fst mr') r c q p == val_ (fst mr) r c q p + blocks (res E u v) els r c q p).
Proof.
  induction elems as [|e elems IH]; intros mr mr' H els; cbn [elementLoop] in H.
  - injection H as <-. split; [intros e []|]. subst els; cbn. split; intros; lra.
  - subst els. cbn [filter]. rewrite <- negb_orb in H. destruct (nonLocal || interior e)%bool; cbn [negb] in H.
    + destruct (localOf E u v e) as [L|] eqn:EL; [|discriminate].
      destruct (addPrimaries L _ _ mr) as [m1|] eqn:A; [|discriminate].
      destruct (addPrimaries_result _ _ _ _ _ A) as (_ & R & V). destruct (IH _ _ H) as (F & R' & V').
      assert (RE : res E u v e = L) by (unfold res; now rewrite EL).
      split; [|split].
      * intros e' [<-|I]; [congruence|auto].
      * intros i q. rewrite R', R. unfold rowSum. rewrite total_cons, RE. unfold numberedPrimaries.
        rewrite numbered_same. lra.
      * intros r c q p. rewrite V', V. unfold blockSum. rewrite total_cons, RE. unfold numberedPrimaries.
        rewrite numbered_same. lra.
    + apply IH. exact H.
Qed.

Lemma in_numbered (l : list nat) d J : In (d, J) (numbered l) -> In J l.
Proof. intros H. apply in_combine_r in H. exact H. Qed.

Lemma in_numbered_prim e k I : In (k, I) (firstn (primaries e) (numbered (dofs e))) -> primaryOf dofs primaries e I.
Proof.
  unfold numbered, primaryOf. rewrite combine_firstn. intros H. apply in_combine_r in H. exact H.
Qed.

Definition covers (m : matrix) : Prop :=
  forall e i j, (e < numElements)%nat -> primaryOf dofs primaries e i -> In j (dofs e) -> m j i <> None.

Lemma elementLoop_progress (E : fvEnv PV) u v elems : forall mr : matrix * (nat -> vec),
  Forall (fun e => (e < numElements)%nat) elems -> covers (fst mr) ->
  exists mr' b, elementLoop dofs primaries interior nonLocal E u v elems mr = (mr', Some b).
Proof.
  induction elems as [|e elems IH]; intros mr F C; cbn [elementLoop]; [eauto|].
  inversion F as [|? ? F1 F2]; subst.
  destruct (negb nonLocal && negb (interior e))%bool; [auto|].
  destruct (localOf E u v e) as [L|]; [|eauto].
  destruct (addPrimaries_succeeds L (numberedDofs dofs e) (numberedPrimaries dofs primaries e) mr) as (m1 & A).
  { intros k I d J K K'. unfold numberedPrimaries in K. rewrite numbered_same in *. apply (C e I J F1).
    - eapply in_numbered_prim; eauto.
    - eapply in_numbered; eauto. }
  rewrite A. destruct (addPrimaries_result _ _ _ _ _ A) as (S & _). apply IH; [assumption|].
  intros e' i j X Y Z. rewrite (S j i). eapply C; eauto.
Qed.

(** Constraints. *)
Lemma applyToSystem_result (cm : list (nat * PV)) : forall mr : matrix * (nat -> vec),
  sameBlocks (fst (applyToSystem cm mr)) (fst mr) /\
  (forall i, ~ In i (map fst cm) ->
     (forall q, snd (applyToSystem cm mr) i q = snd mr i q) /\
     (forall j q p, val_ (fst (applyToSystem cm mr)) i j q p = val_ (fst mr) i j q p)) /\
  (forall i, In i (map fst cm) ->
     (forall q, snd (applyToSystem cm mr) i q = 0) /\
     (forall j q p, j <> i -> val_ (fst (applyToSystem cm mr)) i j q p = 0) /\
     (fst mr i i <> None -> forall q p, val_ (fst (applyToSystem cm mr)) i i q p = if (q =? p)%nat then 1 else 0)).
Proof.
  induction cm as [|(k, v) cm IH]; intros mr.
  - split; [apply sameBlocks_refl|]. split; [intros i _; split; reflexivity|intros i []].
  - unfold applyToSystem. cbn [fold_left fst snd map].
    set (mr1 := (clearRowTo 1 (fst mr) k, at_ (snd mr) k zeroV)).
    destruct (IH mr1) as (S & O & P). unfold applyToSystem in S, O, P.
    assert (S1 : sameBlocks (fst mr1) (fst mr)) by apply clearRowTo_blocks.
    split; [eapply sameBlocks_trans; [exact S|exact S1]|]. split.
    + intros i N. destruct (O i) as (A & B); [intros I; apply N; now right|]. split.
      * intros q. rewrite A. unfold mr1, at_. cbn [snd]. destruct (Nat.eqb_spec i k) as [->|_]; [|reflexivity].
        exfalso. apply N. now left.
      * intros j q p. rewrite B. unfold mr1. cbn [fst]. apply clearRowTo_other. intros ->. apply N. now left.
    + intros i I. destruct (in_dec Nat.eq_dec i (map fst cm)) as [J|J].
      * destruct (P i J) as (A & B & C). split; [exact A|]. split; [exact B|]. intros D. apply C.
        rewrite (S1 i i). exact D.
      * destruct I as [<-|I]; [|contradiction]. destruct (O k J) as (A & B). split; [|split].
        -- intros q. rewrite A. unfold mr1, at_. cbn [snd]. rewrite Nat.eqb_refl. reflexivity.
        -- intros j q p N. rewrite B. unfold mr1, val_, clearRowTo. cbn [fst]. rewrite Nat.eqb_refl.
           destruct (fst mr k j); [|reflexivity]. destruct (Nat.eqb_spec j k); [contradiction|reflexivity].
        -- intros D q p. rewrite B. unfold mr1, val_, clearRowTo. cbn [fst]. rewrite Nat.eqb_refl.
           destruct (fst mr k k); [|contradiction]. reflexivity.
Qed.

Lemma applyToSolution_other (cm : list (nat * PV)) : forall sol i, ~ In i (map fst cm) -> applyToSolution cm sol i = sol i.
Proof.
  induction cm as [|(k, v) cm IH]; intros sol i N; [reflexivity|]. unfold applyToSolution in *. cbn [fold_left fst snd].
  rewrite IH by (intros I; apply N; now right). unfold at_. destruct (Nat.eqb_spec i k) as [->|_]; [|reflexivity].
  exfalso. apply N. now left.
Qed.

Lemma applyToSolution_in (cm : list (nat * PV)) : NoDup (map fst cm) -> forall sol i v, In (i, v) cm -> applyToSolution cm sol i = v.
Proof.
  induction cm as [|(k, w) cm IH]; intros D sol i v I; [destruct I|]. cbn [map fst] in D. inversion D as [|? ? D1 D2]; subst.
  unfold applyToSolution in *. cbn [fold_left fst snd]. destruct I as [I|I]; [|apply IH; assumption].
  injection I as -> ->. pose proof (applyToSolution_other cm (at_ sol i v) i D1) as X. unfold applyToSolution in X.
  rewrite X. unfold at_. now rewrite Nat.eqb_refl.
Qed.

Lemma putKey_keys k (v : PV) m : forall x, In x (map fst (putKey k v m)) <-> x = k \/ In x (map fst m).
Proof.
  induction m as [|(k', v') m IH]; intros x; cbn [putKey]; [cbn; intuition|].
  destruct (Nat.eqb_spec k k') as [->|N]; cbn [map fst In]; [intuition congruence|]. rewrite IH. intuition congruence.
Qed.

Lemma putKey_nodup k (v : PV) m : NoDup (map fst m) -> NoDup (map fst (putKey k v m)).
Proof.
  induction m as [|(k', v') m IH]; intros D; cbn [putKey]; [constructor; [intros []|constructor]|].
  cbn [map fst] in D. inversion D as [|? ? D1 D2]; subst.
  destruct (Nat.eqb_spec k k') as [->|N]; cbn [map fst]; [assumption|].
  constructor; [|auto]. rewrite putKey_keys. intros [->|I]; [congruence|contradiction].
Qed.

Lemma putKey_in k (v : PV) m : NoDup (map fst m) -> forall x w,
  In (x, w) (putKey k v m) <-> (x = k /\ w = v) \/ (x <> k /\ In (x, w) m).
Proof.
  induction m as [|(k', v') m IH]; intros D x w; cbn [putKey].
  - cbn. split; [intros [H|[]]; injection H as <- <-; auto|]. intros [(-> & ->)|(_ & [])]. auto.
  - cbn [map fst] in D. inversion D as [|? ? D1 D2]; subst.
    destruct (Nat.eqb_spec k k') as [->|N]; cbn [In].
    + split.
      * intros [H|H]; [injection H as <- <-; auto|]. right. split; [|auto].
        intros ->. apply D1. apply in_map_iff. exists (k', w). auto.
      * intros [(-> & ->)|(X & [H|H])]; [auto|injection H as <- <-; congruence|auto].
    + rewrite (IH D2). split.
      * intros [H|[H|H]]; [injection H as <- <-; right; split; [congruence|auto]|auto|]. right. tauto.
      * intros [(-> & ->)|(X & [H|H])]; auto.
Qed.

(** The map of the constraints. *)
Section Fold.
Variable E : fvEnv PV.
Let step (m : list (nat * PV)) (ek : nat * nat) :=
  match constraintOf E (fst ek) (snd ek) with
  | Some v => putKey (nth (snd ek) (dofs (fst ek)) 0%nat) v m
  | None => m
  end.

Lemma fold_nodup l : forall m, NoDup (map fst m) -> NoDup (map fst (fold_left step l m)).
Proof.
  induction l as [|x l IH]; intros m D; cbn [fold_left]; [assumption|]. apply IH. unfold step.
  destruct (constraintOf _ _ _); [apply putKey_nodup|]; assumption.
Qed.

Lemma fold_keys l : forall m i, In i (map fst (fold_left step l m)) <->
  In i (map fst m) \/ exists e k, In (e, k) l /\ constraintOf E e k <> None /\ nth k (dofs e) 0%nat = i.
Proof.
  induction l as [|(e, k) l IH]; intros m i; cbn [fold_left].
  - split; [auto|]. intros [H|(e & k & [] & _)]. exact H.
  - rewrite IH. unfold step at 1. cbn [fst snd]. destruct (constraintOf E e k) as [v|] eqn:C.
    + rewrite putKey_keys. split.
      * intros [[->|H]|(e' & k' & I & X)]; [|auto|]; right.
        -- exists e, k. split; [now left|]. split; [congruence|reflexivity].
        -- exists e', k'. split; [now right|exact X].
      * intros [H|(e' & k' & [I|I] & X & Y)]; [auto| |].
        -- injection I as <- <-. left. left. symmetry. exact Y.
        -- right. exists e', k'. auto.
    + split.
      * intros [H|(e' & k' & I & X)]; [auto|]. right. exists e', k'. split; [now right|exact X].
      * intros [H|(e' & k' & [I|I] & X & Y)]; [auto| |].
        -- injection I as <- <-. congruence.
        -- right. exists e', k'. auto.
Qed.

Lemma fold_values l : forall m i v, NoDup (map fst m) -> In (i, v) (fold_left step l m) ->
  In (i, v) m \/ exists e k, In (e, k) l /\ constraintOf E e k = Some v /\ nth k (dofs e) 0%nat = i.
Proof.
  induction l as [|(e, k) l IH]; intros m i v D I; cbn [fold_left] in I; [auto|].
  assert (D' : NoDup (map fst (step m (e, k)))) by (unfold step; cbn [fst snd]; destruct (constraintOf E e k); [apply putKey_nodup|]; assumption).
  destruct (IH _ _ _ D' I) as [H|(e' & k' & J & X)]; [|right; exists e', k'; split; [now right|exact X]].
  unfold step in H. cbn [fst snd] in H. destruct (constraintOf E e k) as [w|] eqn:C; [|auto].
  apply (putKey_in _ _ _ D) in H. destruct H as [(-> & ->)|(_ & H)]; [|auto].
  right. exists e, k. split; [now left|]. auto.
Qed.
End Fold.

Lemma newConstraints_nodup E : NoDup (map fst (newConstraints (PV := PV) numElements dofs primaries E)).
Proof. unfold newConstraints. apply fold_nodup. constructor. Qed.

Lemma places e k : In (e, k) (flat_map (fun e => map (pair e) (seq 0 (primaries e))) (seq 0 numElements)) <->
  (e < numElements)%nat /\ (k < primaries e)%nat.
Proof.
  rewrite in_flat_map. split.
  - intros (e' & I & J). apply in_map_iff in J. destruct J as (k' & K & L). injection K as <- <-.
    apply in_seq in I, L. lia.
  - intros (A & B). exists e. split; [apply in_seq; lia|]. apply in_map. apply in_seq. lia.
Qed.

Lemma newConstraints_keys (E : fvEnv PV) i : In i (map fst (newConstraints numElements dofs primaries E)) <->
  exists e k, (e < numElements)%nat /\ (k < primaries e)%nat /\ constraintOf E e k <> None /\ nth k (dofs e) 0%nat = i.
Proof.
  unfold newConstraints. rewrite (fold_keys E). split.
  - intros [[]|(e & k & I & X)]. apply places in I. exists e, k. tauto.
  - intros (e & k & A & B & X). right. exists e, k. split; [apply places; auto|exact X].
Qed.

Lemma newConstraints_values (E : fvEnv PV) i v : In (i, v) (newConstraints numElements dofs primaries E) ->
  exists e k, (e < numElements)%nat /\ (k < primaries e)%nat /\ constraintOf E e k = Some v /\ nth k (dofs e) 0%nat = i.
Proof.
  intros I. destruct (fold_values E _ [] i v (NoDup_nil _) I) as [[]|(e & k & J & X)].
  apply places in J. exists e, k. tauto.
Qed.

(** The whole call. *)
Notation lin := (fvLinearizeDomain (PV := PV) numElements numTotal dofs primaries interior nonLocal enableConstraints).

Definition startMatrix (E : fvEnv PV) (s : fvLin PV) : matrix :=
  match fvMatrix s with
  | Some m => m
  | None => fun i j => if pattern numElements numTotal dofs primaries E i j then Some zeroM else None
  end.
Definition startResidual (s : fvLin PV) (i q : nat) : Q :=
  match fvMatrix s with Some _ => fvResidual s i q | None => 0 end.
Definition mapAfter (E : fvEnv PV) (s : fvLin PV) : list (nat * PV) :=
  if enableConstraints
  then if (newtonIteration E =? 0)%nat then newConstraints numElements dofs primaries E else constraintsMap s
  else constraintsMap s.
Definition solAfter (cm : list (nat * PV)) (u : nat -> PV) : nat -> PV :=
  if enableConstraints then applyToSolution cm u else u.

Lemma lin_unfold E d s :
  lin E d s =
  let cm := mapAfter E s in
  let u := solAfter cm (solution0 s) in let v := solAfter cm (solution1 s) in
  match elementLoop dofs primaries interior nonLocal E u v (elementsOf numElements d)
          (fvReset numTotal dofs primaries (elementsOf numElements d) (startMatrix E s)
             (match fvMatrix s with Some _ => fvResidual s | None => fun _ => zeroV end)) with
  | (_, None) => BadAccess
  | ((m', r'), Some false) => Problem (mkFvLin (Some m') r' cm u v)
  | ((m', r'), Some true) =>
      let '(m2, r2) := if enableConstraints then applyToSystem cm (m', r') else (m', r') in
      Done (mkFvLin (Some m2) r2 cm u v)
  end.
Proof.
  unfold fvLinearizeDomain, startMatrix, mapAfter, solAfter. destruct (fvMatrix s) as [m|] eqn:M.
  - rewrite M. reflexivity.
  - reflexivity.
Qed.

Lemma pattern_iff E i j : pattern numElements numTotal dofs primaries E i j = true <->
  (i < numTotal)%nat /\
  ((exists e, (e < numElements)%nat /\ primaryOf dofs primaries e i /\ In j (dofs e)) \/ In j (auxBlocks (PV := PV) E i)).
Proof.
  unfold pattern. rewrite andb_true_iff, orb_true_iff, Nat.ltb_lt, existsb_exists, <- in_existsb.
  split; intros (A & B); (split; [exact A|]); (destruct B as [B|B]; [left|right; exact B]).
  - destruct B as (e & I & X). apply andb_true_iff in X. rewrite <- !in_existsb in X. apply in_seq in I.
    exists e. split; [lia|]. exact X.
  - destruct B as (e & I & X & Y). exists e. split; [apply in_seq; lia|]. apply andb_true_iff. rewrite <- !in_existsb. auto.
Qed.

Lemma start_covers E s : fvGrid numElements numTotal dofs primaries ->
  (forall m, fvMatrix s = Some m -> covers m) -> covers (startMatrix E s).
Proof.
  intros G C. unfold startMatrix. destruct (fvMatrix s) as [m|] eqn:M; [auto|].
  intros e i j H P J. destruct (G e i j H P J) as (_ & e' & H' & P' & I').
  assert (X : pattern numElements numTotal dofs primaries E j i = true).
  { apply pattern_iff. split.
    - destruct (G e' j i H' P' I') as (L & _). exact L.
    - left. exists e'. auto. }
  rewrite X. discriminate.
Qed.

Lemma reset_covers els m r : covers m -> covers (fst (fvReset numTotal dofs primaries els m r)).
Proof. intros C e i j H P J. destruct (fvReset_result els m r) as (S & _). rewrite (S j i). eapply C; eauto. Qed.

(** Nothing bad happens, and the blocks stay. *)
Lemma lin_progress E d s : fvGrid numElements numTotal dofs primaries -> fvDomain numElements d ->
  (forall m, fvMatrix s = Some m -> covers m) ->
  exists s', (lin E d s = Done s' \/ lin E d s = Problem s') /\
    (exists m', fvMatrix s' = Some m' /\ covers m' /\ sameBlocks m' (startMatrix E s)) /\
    constraintsMap s' = mapAfter E s /\
    ((forall e, In e (linearized numElements interior nonLocal d) -> localOf E (solution0 s') (solution1 s') e <> None) ->
     lin E d s = Done s').
Proof.
  intros G D C. rewrite lin_unfold. cbv zeta.
  set (cm := mapAfter E s). set (u := solAfter cm (solution0 s)). set (v := solAfter cm (solution1 s)).
  set (r0 := match fvMatrix s with Some _ => fvResidual s | None => fun _ => zeroV end).
  set (mr := fvReset numTotal dofs primaries (elementsOf numElements d) (startMatrix E s) r0).
  assert (CS : covers (startMatrix E s)) by (apply start_covers; assumption).
  assert (CM : covers (fst mr)) by (apply reset_covers; exact CS).
  destruct (elementLoop_progress E u v (elementsOf numElements d) mr D CM) as (mr' & b & L). rewrite L.
  pose proof (elementLoop_blocks _ _ _ _ _ _ _ L) as SB.
  assert (S0 : sameBlocks (fst mr) (startMatrix E s)) by (apply fvReset_result).
  assert (S1 : sameBlocks (fst mr') (startMatrix E s)) by (eapply sameBlocks_trans; eassumption).
  assert (C1 : forall m, sameBlocks m (startMatrix E s) -> covers m).
  { intros m S e i j X Y Z. rewrite (S j i). eapply CS; eauto. }
  destruct mr' as (m', r'). cbn [fst] in *. destruct b.
  - destruct (if enableConstraints then applyToSystem cm (m', r') else (m', r')) as (m2, r2) eqn:A.
    eexists. split; [left; reflexivity|]. cbn [fvMatrix constraintsMap].
    assert (S2 : sameBlocks m2 (startMatrix E s)).
    { destruct enableConstraints.
      - destruct (applyToSystem_result cm (m', r')) as (S & _). rewrite A in S. eapply sameBlocks_trans; [exact S|exact S1].
      - injection A as <- <-. exact S1. }
    split; [eauto|]. split; [reflexivity|]. reflexivity.
  - eexists. split; [right; reflexivity|]. cbn [fvMatrix constraintsMap solution0 solution1]. split; [eauto|].
    split; [reflexivity|]. intros F. exfalso. clearbody mr. clear -L F. unfold linearized in F.
    revert mr L. induction (elementsOf numElements d) as [|e l IH]; intros mr L; cbn [elementLoop] in L; [discriminate|].
    cbn [filter] in F. rewrite <- negb_orb in L. destruct (nonLocal || interior e)%bool; cbn [negb] in L.
    + destruct (localOf E u v e) eqn:X; [|apply (F e); [now left|exact X]].
      destruct (addPrimaries _ _ _ mr); [|discriminate]. eapply IH; [|exact L]. intros e' I. apply F. now right.
    + eapply IH; eauto.
Qed.

Lemma lin_result E d s a : lin E d s = Done a ->
  constraintsMap a = mapAfter E s /\
  solution0 a = solAfter (mapAfter E s) (solution0 s) /\ solution1 a = solAfter (mapAfter E s) (solution1 s) /\
  (forall e, In e (linearized numElements interior nonLocal d) -> localOf E (solution0 a) (solution1 a) e <> None) /\
  exists m, fvMatrix a = Some m /\ sameBlocks m (startMatrix E s) /\
  (forall i, enableConstraints = false \/ ~ In i (map fst (mapAfter E s)) ->
    let keep := ((length (elementsOf numElements d) =? numTotal)%nat ||
                 existsb (Nat.eqb i) (flat_map (primaryDofs dofs primaries) (elementsOf numElements d)))%bool in
    (forall q, fvResidual a i q == (if keep then 0 else startResidual s i q)
                                   + rows (results E a) (linearized numElements interior nonLocal d) i q) /\
    (forall j q p, val_ m i j q p == (if keep then 0 else val_ (startMatrix E s) i j q p)
                                     + blocks (results E a) (linearized numElements interior nonLocal d) i j q p)) /\
  (enableConstraints = true -> forall i, In i (map fst (mapAfter E s)) ->
    (forall q, fvResidual a i q = 0) /\ (forall j q p, j <> i -> val_ m i j q p = 0) /\
    (m i i <> None -> forall q p, val_ m i i q p = if (q =? p)%nat then 1 else 0)).
Proof.
  rewrite lin_unfold. cbv zeta.
  set (cm := mapAfter E s). set (u := solAfter cm (solution0 s)). set (v := solAfter cm (solution1 s)).
  set (r0 := match fvMatrix s with Some _ => fvResidual s | None => fun _ => zeroV end).
  destruct (elementLoop _ _ _ _ E u v _ _) as ((m', r') & o) eqn:L. intros H.
  destruct o as [[|]|]; try discriminate H.
  destruct (if enableConstraints then applyToSystem cm (m', r') else (m', r')) as (m2, r2) eqn:A.
  injection H as <-. cbn [constraintsMap solution0 solution1 fvMatrix fvResidual].
  pose proof (elementLoop_blocks _ _ _ _ _ _ _ L) as SB.
  destruct (elementLoop_result _ _ _ _ _ _ L) as (F & R & V). cbn [fst snd] in *.
  destruct (fvReset_result (elementsOf numElements d) (startMatrix E s) r0) as (S0 & R0 & V0).
  split; [reflexivity|]. split; [reflexivity|]. split; [reflexivity|]. split; [exact F|].
  exists m2. split; [reflexivity|].
  assert (RR : forall i q, (match fvMatrix s with Some _ => fvResidual s | None => fun _ => zeroV end) i q = startResidual s i q).
  { intros i q. unfold startResidual. destruct (fvMatrix s); reflexivity. }
  assert (SS : sameBlocks m' (startMatrix E s)) by (eapply sameBlocks_trans; [exact SB|exact S0]).
  assert (VALS : forall i,
    let keep := ((length (elementsOf numElements d) =? numTotal)%nat ||
                 existsb (Nat.eqb i) (flat_map (primaryDofs dofs primaries) (elementsOf numElements d)))%bool in
    (forall q, r' i q == (if keep then 0 else startResidual s i q)
                         + rows (res E u v) (linearized numElements interior nonLocal d) i q) /\
    (forall j q p, val_ m' i j q p == (if keep then 0 else val_ (startMatrix E s) i j q p)
                         + blocks (res E u v) (linearized numElements interior nonLocal d) i j q p)).
  { intros i keep. split.
    - intros q. rewrite R, R0. fold keep. unfold r0. rewrite RR. reflexivity.
    - intros j q p. rewrite V, V0. fold keep. reflexivity. }
  unfold results. cbn [solution0 solution1]. change (fun e => match localOf E u v e with Some L0 => L0 | None => mkLocal (fun _ => zeroV) (fun _ _ => zeroM) end) with (res E u v).
  destruct enableConstraints.
  - destruct (applyToSystem_result cm (m', r')) as (S & O & P). rewrite A in S, O, P. cbn [fst snd] in S, O, P.
    split; [eapply sameBlocks_trans; [exact S|exact SS]|]. split.
    + intros i [X|N]; [discriminate X|]. destruct (O i N) as (O1 & O2). destruct (VALS i) as (W1 & W2). split.
      * intros q. rewrite O1. apply W1.
      * intros j q p. rewrite O2. apply W2.
    + intros _ i I. destruct (P i I) as (P1 & P2 & P3). split; [exact P1|]. split; [exact P2|].
      intros X. apply P3. rewrite <- (S i i). exact X.
  - injection A as <- <-. split; [exact SS|]. split; [intros i _; apply VALS|discriminate].
Qed.

(** Histories. *)
Definition wellFormed (s : fvLin PV) : Prop :=
  (forall m, fvMatrix s = Some m -> covers m) /\ NoDup (map fst (constraintsMap s)).

Lemma mapAfter_nodup E s : NoDup (map fst (constraintsMap s)) -> NoDup (map fst (mapAfter E s)).
Proof.
  intros D. unfold mapAfter. destruct enableConstraints; [|exact D].
  destruct (newtonIteration E =? 0)%nat; [apply newConstraints_nodup|exact D].
Qed.

Lemma aux_fold l : forall m m',
  fold_left (fun om ijb => match om with
                           | Some m => addToBlock (fst (fst ijb)) (snd (fst ijb)) (snd ijb) m
                           | None => None
                           end) l (Some m) = Some m' -> sameBlocks m' m.
Proof.
  induction l as [|(ij, b) l IH]; intros m m' H; cbn [fold_left] in H; [injection H as <-; apply sameBlocks_refl|].
  cbn [fst snd] in H. destruct (addToBlock (fst ij) (snd ij) b m) as [m1|] eqn:A.
  - destruct (addToBlock_result _ _ _ _ _ A) as (S & _). eapply sameBlocks_trans; [apply IH; exact H|exact S].
  - exfalso. clear -H. induction l as [|x l IH]; cbn [fold_left] in H; [discriminate|auto].
Qed.

Lemma reached_wellFormed us : forall s t, fvGrid numElements numTotal dofs primaries ->
  fvReaches numElements numTotal dofs primaries interior nonLocal enableConstraints s us t ->
  wellFormed s -> wellFormed t.
Proof.
  intros s t G R. induction R as [s|s E d us s' t D L R IH|s E us s' t L R IH|s us t R IH|s u v us t R IH]; intros W.
  - exact W.
  - apply IH. destruct W as (W1 & W2).
    destruct (lin_progress E d s G D W1) as (s2 & A & (m' & M & C & _) & K & _).
    assert (s2 = s') by (destruct A, L; congruence). subst s2. split.
    + intros m X. rewrite M in X. injection X as <-. exact C.
    + rewrite K. now apply mapAfter_nodup.
  - apply IH. destruct W as (W1 & W2). unfold fvLinearizeAux in L.
    destruct (fvMatrix s) as [m|] eqn:M; [|discriminate].
    destruct (fold_left _ (auxJacobian E) (Some m)) as [m'|] eqn:F; [|discriminate]. injection L as <-.
    unfold withSystem. split; cbn [fvMatrix constraintsMap]; [|exact W2].
    intros m0 X. injection X as <-. pose proof (aux_fold _ _ _ F) as S. intros e i j A B D. rewrite (S j i).
    eapply (W1 m eq_refl); eauto.
  - apply IH. destruct W as (W1 & W2). split; cbn; [discriminate|exact W2].
  - apply IH. destruct W as (W1 & W2). split; cbn; [exact W1|exact W2].
Qed.

Lemma new_wellFormed u v : wellFormed (fvNew u v).
Proof. split; cbn; [discriminate|constructor]. Qed.

(** Sums. *)
Lemma filter_all {A} (f : A -> bool) l : incl (filter f l) l.
Proof. intros x I. apply filter_In in I. tauto. Qed.

Lemma numbered_snd k J (l : list nat) : In (k, J) (numbered l) -> In J l.
Proof. apply in_combine_r. Qed.

(** Only elements which have [i] as a primary degree of freedom contribute to its row, and to
    its column. *)
Lemma element_row R e i q : ~ primaryOf dofs primaries e i ->
  total (fun kd => if (snd kd =? i)%nat then locResidual (R e) (fst kd) q else 0)
        (firstn (primaries e) (numbered (dofs e))) == 0.
Proof.
  intros N. apply total_zero. intros (k, I) H. cbn [snd]. destruct (Nat.eqb_spec I i) as [->|_]; [|reflexivity].
  exfalso. apply N. eapply in_numbered_prim; eauto.
Qed.

Lemma element_block (R : nat -> local) e r c q p : ~ primaryOf dofs primaries e c ->
  total (fun kd => if (snd kd =? c)%nat
                   then total (fun ld => if (snd ld =? r)%nat then locJacobian (R e) (fst ld) (fst kd) q p else 0) (numbered (dofs e))
                   else 0)
        (firstn (primaries e) (numbered (dofs e))) == 0.
Proof.
  intros N. apply total_zero. intros (k, I) H. cbn [snd]. destruct (Nat.eqb_spec I c) as [->|_]; [|reflexivity].
  exfalso. apply N. eapply in_numbered_prim; eauto.
Qed.

Lemma block_none (m : matrix) R els r c q p : Forall (fun e => (e < numElements)%nat) els -> covers m ->
  m r c = None -> blocks R els r c q p == 0.
Proof.
  intros F C N. apply total_zero. intros e I. apply total_zero. intros (k, J) H. cbn [fst snd].
  destruct (Nat.eqb_spec J c) as [->|_]; [|reflexivity]. apply total_zero. intros (l, K) H'. cbn [fst snd].
  destruct (Nat.eqb_spec K r) as [->|_]; [|reflexivity]. exfalso.
  rewrite Forall_forall in F. apply (C e c r (F e I)); [eapply in_numbered_prim; eauto|eapply in_numbered; eauto|exact N].
Qed.

(** A sum over the elements of a domain that contains all elements which matter. *)
Lemma total_subset (f : nat -> Q) (l m : list nat) : NoDup l -> NoDup m -> incl l m ->
  (forall e, In e m -> ~ In e l -> f e == 0) -> total f l == total f m.
Proof.
  revert m. induction l as [|x l IH]; intros m D D' S Z.
  - cbn. symmetry. apply total_zero. intros e I. apply Z; auto.
  - inversion D as [|? ? D1 D2]; subst.
    destruct (in_split x m (S x (or_introl eq_refl))) as (m1 & m2 & ->).
    rewrite total_cons, total_app, total_cons.
    assert (X : total f l == total f (m1 ++ m2)).
    { apply IH; auto.
      - eapply NoDup_remove_1; eauto.
      - intros e I. assert (e <> x) by (intros ->; contradiction). specialize (S e (or_intror I)).
        apply in_app_iff in S. apply in_app_iff. destruct S as [S|[S|S]]; auto. congruence.
      - intros e I N. apply Z.
        + apply in_app_iff in I. apply in_app_iff. destruct I; [left|right; right]; assumption.
        + intros [->|J]; [|contradiction]. apply NoDup_remove_2 in D'. contradiction. }
    rewrite X, total_app. lra.
Qed.

End Sec.
