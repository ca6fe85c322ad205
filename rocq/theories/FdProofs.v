(** Proofs on numeric differentiation. *)
From Coq Require Import List Bool ZArith QArith Lia.
From Coq Require Import Lqa.
Import ListNotations.
From Verif Require Import FdModel FdSpec.
Open Scope Q_scope.

Lemma put_length : forall A k (x : A) l, length (put k x l) = length l.
Proof. intros A k x l; revert k; induction l; intros [|k]; cbn; auto. Qed.

Lemma put_same : forall A k (x : A) l z, (k < length l)%nat -> nth k (put k x l) z = x.
Proof. intros A k x l; revert k; induction l; intros [|k] z H; cbn in *; try lia; auto.
  apply IHl; lia. Qed.

Lemma put_other : forall A k j (x : A) l z, j <> k -> nth j (put k x l) z = nth j l z.
Proof. intros A k j x l; revert k j; induction l; intros [|k] [|j] z H; cbn in *; try lia; auto. Qed.

Lemma put_put : forall A k (x y : A) l, put k x (put k y l) = put k x l.
Proof. intros A k x y l; revert k; induction l; intros [|k]; cbn; auto. f_equal; auto. Qed.

Lemma put_nth : forall A k (l : list A) z, put k (nth k l z) l = l.
Proof. intros A k l z; revert k; induction l; intros [|k]; cbn; auto. f_equal; auto. Qed.

Lemma put_error : forall A k (l : list A) x, nth_error l k = Some x -> put k x l = l.
Proof. intros A k l; revert k; induction l; intros [|k] x H; cbn in *; try congruence.
  f_equal; auto. Qed.

Lemma put_map : forall A B (f : A -> B) k x l, map f (put k x l) = put k (f x) (map f l).
Proof. intros A B f k x l; revert k; induction l; intros [|k]; cbn; auto. f_equal; auto. Qed.

Lemma put_combine : forall A B k (x : B) (a : list A) (b : list B) z,
  length a = length b -> (k < length b)%nat ->
  combine a (put k x b) = put k (nth k a z, x) (combine a b).
Proof.
  intros A B k x a; revert k; induction a as [|u a IH]; intros k b z HL HK;
    destruct b as [|v b]; cbn in *; try lia.
  destruct k; cbn; auto. f_equal. apply IH; lia.
Qed.

Section Proofs.
Variables (IQ EQ : Type).
Variable iqUpdate : nat -> list Q -> IQ.
Variable eqUpdate : list IQ -> list EQ.
Variable evalResidual : list (list Q) -> list IQ -> list EQ -> nat -> nat -> Q.
Variable solution : nat -> list Q.
Variable cached : nat -> option IQ.
Variable spaceIndex : list nat.
Variable method : Z.
Variable baseEpsilon : Q.
Variable weight : nat -> nat -> Q.
Variable numEq : nat.
Variable numPrimaryDof : nat.

Notation F := (F IQ EQ iqUpdate eqUpdate evalResidual).
Notation iqsOf := (iqsOf IQ iqUpdate).
Notation N := (length spaceIndex).
Notation eps := (epsilon spaceIndex baseEpsilon weight).
Notation primaryVars := (primaryVars IQ EQ solution).
Notation allPrimaryVars := (allPrimaryVars IQ EQ solution).
Notation deflect := (deflect IQ EQ iqUpdate eqUpdate).
Notation evalLocal := (evalLocal IQ EQ evalResidual solution).
Notation evalPartialDerivative :=
  (evalPartialDerivative IQ EQ iqUpdate eqUpdate evalResidual solution spaceIndex method baseEpsilon weight).
Notation linearize :=
  (linearize IQ EQ iqUpdate eqUpdate evalResidual solution cached spaceIndex method baseEpsilon weight
     numEq numPrimaryDof).

(** The primary variables of the degrees of freedom of the element. *)
Definition here : list (list Q) := map solution spaceIndex.

Lemma here_length : length here = N.
Proof. unfold here. apply map_length. Qed.

Lemma iqsOf_length : forall x, length (iqsOf x) = length x.
Proof. intros. unfold FdSpec.iqsOf. rewrite map_length, combine_length, seq_length. lia. Qed.

Lemma iqsOf_put : forall x d pv, (d < length x)%nat ->
  iqsOf (put d pv x) = put d (iqUpdate d pv) (iqsOf x).
Proof.
  intros x d pv H. unfold FdSpec.iqsOf. rewrite put_length.
  rewrite (put_combine _ _ d pv (seq 0 (length x)) x 0%nat) by (rewrite ?seq_length; auto).
  rewrite put_map, seq_nth by lia. cbn [fst snd]. now rewrite Nat.add_0_l.
Qed.

(** The state of the context before and after the differentiation with regard to a variable
    of degree of freedom [k]. *)
Definition inv (k : nat) (c : context IQ EQ) : Prop :=
  intQuants c = iqsOf here /\
  length (slot c) = N /\
  (forall j, (k < j < N)%nat -> nth j (slot c) AtStack = AtSolution (nth j spaceIndex 0%nat)) /\
  nth k (slot c) AtStack <> AtStack /\
  (forall s, primaryVars c s k = nth k here []).

Lemma nth_here : forall j, (j < N)%nat -> nth j here [] = solution (nth j spaceIndex 0%nat).
Proof.
  intros j H. unfold here. rewrite (nth_indep _ [] (solution 0%nat)) by (rewrite map_length; auto).
  apply map_nth.
Qed.

Lemma primaryVars_all : forall c s x, length (slot c) = length x ->
  (forall j, (j < length x)%nat -> primaryVars c s j = nth j x []) -> allPrimaryVars c s = x.
Proof.
  intros c s x HL H. apply (nth_ext _ _ [] []).
  - unfold FdModel.allPrimaryVars. now rewrite map_length.
  - intros j Hj. unfold FdModel.allPrimaryVars in *. rewrite map_length in Hj.
    rewrite (nth_indep _ [] (deref IQ EQ solution c s AtStack)) by (rewrite map_length; auto).
    rewrite map_nth. apply H. lia.
Qed.

(** The residual in a deflected context. *)
Lemma deflected : forall c d p v i e, inv d c -> (d < N)%nat ->
  throughQuantities IQ EQ evalResidual \/ d = 0%nat ->
  evalLocal (deflect c d (put p v (nth d here []))) (put p v (nth d here [])) i e
  = F (replaced here d p v) i e.
Proof.
  intros c d p v i e (H1 & H2 & H3 & H4 & H5) Hd HT.
  unfold FdModel.evalLocal, FdSpec.F, replaced. cbn [FdModel.deflect intQuants extQuants].
  rewrite iqsOf_put by (now rewrite here_length). rewrite H1.
  destruct HT as [HT|HT].
  - apply HT.
  - subst d. f_equal. f_equal. f_equal. f_equal.
    apply primaryVars_all.
    + cbn [FdModel.deflect slot]. rewrite !put_length, here_length. auto.
    + rewrite put_length, here_length. intros j Hj.
      unfold FdModel.primaryVars. cbn [FdModel.deflect slot].
      destruct (Nat.eq_dec j 0) as [->|Hj0].
      * rewrite put_same by lia. cbn [deref]. rewrite put_same; auto. rewrite here_length; auto.
      * rewrite !put_other by lia. rewrite H3 by lia. cbn [deref]. now rewrite nth_here.
Qed.

Lemma inv_stash : forall c d, inv d c -> (d < N)%nat ->
  inv d (stash IQ EQ solution c d).
Proof.
  intros c d (H1 & H2 & H3 & H4 & H5) Hd. unfold inv, FdModel.stash; cbn [intQuants slot].
  do 4 (split; [auto|]). intros s. unfold FdModel.primaryVars in *; cbn [slot].
  destruct (nth d (slot c) AtStack) eqn:E; cbn [deref stashPv] in *; auto; try congruence.
Qed.

Lemma inv_deflect : forall c d pv, intQuants c = iqsOf here -> (d < N)%nat ->
  put d (nth d (iqsOf here) (iqUpdate d [])) (intQuants (deflect c d pv)) = iqsOf here.
Proof.
  intros c d pv H Hd. cbn [FdModel.deflect intQuants]. rewrite H, put_put. apply put_nth.
Qed.

Lemma iqs_error : forall d, (d < N)%nat ->
  nth_error (iqsOf here) d = Some (nth d (iqsOf here) (iqUpdate d [])).
Proof. intros. apply nth_error_nth'. rewrite iqsOf_length, here_length; auto. Qed.

(** What a context looks like after deflecting degree of freedom [d] any number of times. *)
Definition mid (d : nat) (c c3 : context IQ EQ) : Prop :=
  (intQuants c3 = intQuants c \/ exists q, intQuants c3 = put d q (intQuants c)) /\
  length (slot c3) = length (slot c) /\
  (forall j, j <> d -> nth j (slot c3) AtStack = nth j (slot c) AtStack) /\
  stashPv c3 = stashPv c /\ stashIq c3 = stashIq c.

Lemma mid_refl : forall d c, mid d c c.
Proof. intros. repeat split; auto. Qed.

Lemma mid_deflect : forall d c c2 pv, mid d c c2 -> mid d c (deflect c2 d pv).
Proof.
  intros d c c2 pv (H1 & H2 & H3 & H4 & H5).
  unfold mid; cbn [FdModel.deflect intQuants slot stashPv stashIq].
  split.
  - right. exists (iqUpdate d pv). destruct H1 as [->|[q ->]]; auto. now rewrite put_put.
  - rewrite put_length. split; [auto|]. split; [|auto].
    intros j Hj. rewrite put_other by auto. auto.
Qed.

Lemma inv_restore : forall c d c3, inv d c -> (d < N)%nat ->
  mid d (stash IQ EQ solution c d) c3 ->
  inv d (restore IQ EQ c3 d) /\ stashedDof (restore IQ EQ c3 d) = None /\
  nth d (slot (restore IQ EQ c3 d)) AtStack = AtStash /\
  stashPv (restore IQ EQ c3 d) = nth d here [] /\
  (forall j, j <> d -> nth j (slot (restore IQ EQ c3 d)) AtStack = nth j (slot c) AtStack).
Proof.
  intros c d c3 (H1 & H2 & H3 & H4 & H5) Hd (M1 & M2 & M3 & M4 & M5).
  cbn [FdModel.stash intQuants slot stashPv stashIq] in *.
  unfold inv, FdModel.restore; cbn [intQuants slot stashPv stashIq stashedDof].
  assert (S : nth d (put d AtStash (slot c3)) AtStack = AtStash) by (apply put_same; lia).
  assert (O : forall j, j <> d ->
              nth j (put d AtStash (slot c3)) AtStack = nth j (slot c) AtStack).
  { intros j Hj. rewrite put_other by auto. apply M3; auto. }
  assert (V : stashPv c3 = nth d here []) by (rewrite M4; apply H5).
  rewrite M5, H1, iqs_error by auto.
  assert (I : put d (nth d (iqsOf here) (iqUpdate d [])) (intQuants c3) = iqsOf here).
  { rewrite H1 in M1. destruct M1 as [->|[q ->]]; rewrite ?put_put; apply put_nth. }
  split; [|auto].
  split; [exact I|]. split; [rewrite put_length; lia|]. split; [intros j Hj; rewrite O by lia; auto|].
  split; [rewrite S; discriminate|].
  intros s. unfold FdModel.primaryVars. cbn [slot]. rewrite S. exact V.
Qed.

(** The three ways of forming the difference. *)
Lemma partial_derivative : forall c res d p, inv d c -> (d < N)%nat -> (p < numEq)%nat ->
  throughQuantities IQ EQ evalResidual \/ d = 0%nat ->
  (forall g, length (solution g) = numEq) ->
  exists c3, mid d (stash IQ EQ solution c d) c3 /\
    fst (evalPartialDerivative c res d p) = restore IQ EQ c3 d /\
    forall i e,
    snd (evalPartialDerivative c res d p) i e =
      if (0 <? method)%Z
      then (F (replaced here d p (at_ here d p + eps d p)) i e - res i e) / (0 + eps d p)
      else if (method <? 0)%Z
      then (res i e - F (replaced here d p (at_ here d p - (0 + eps d p))) i e) / (0 + eps d p)
      else (F (replaced here d p (at_ here d p + eps d p)) i e
            - F (replaced here d p (at_ here d p + eps d p - (0 + eps d p + eps d p))) i e)
           / (0 + eps d p + eps d p).
Proof.
  intros c res d p HI Hd Hp HT HL.
  assert (HI1 := inv_stash c d HI Hd).
  assert (HP : primaryVars (stash IQ EQ solution c d) [] d = nth d here []).
  { destruct HI1 as (_ & _ & _ & _ & H). apply H. }
  assert (HLen : length (nth d here []) = numEq) by (rewrite nth_here; auto).
  unfold FdModel.evalPartialDerivative. rewrite HP. unfold setVar.
  destruct (0 <? method)%Z eqn:E1; [|destruct (method <? 0)%Z eqn:E2].
  - rewrite (proj2 (Z.leb_le 0 method)) by lia. rewrite (proj2 (Z.leb_gt method 0)) by lia.
    eexists; split; [|split; [reflexivity|]].
    + apply mid_deflect, mid_refl.
    + intros i e. cbn [snd]. rewrite deflected by auto. reflexivity.
  - rewrite (proj2 (Z.leb_gt 0 method)) by lia. rewrite (proj2 (Z.leb_le method 0)) by lia.
    eexists; split; [|split; [reflexivity|]].
    + apply mid_deflect, mid_refl.
    + intros i e. cbn [snd]. rewrite deflected by auto. reflexivity.
  - rewrite (proj2 (Z.leb_le 0 method)) by lia. rewrite (proj2 (Z.leb_le method 0)) by lia.
    eexists; split; [|split; [reflexivity|]].
    + apply mid_deflect, mid_deflect, mid_refl.
    + intros i e. cbn [snd]. rewrite deflected by auto.
      rewrite put_put. rewrite put_same by lia.
      f_equal. f_equal. f_equal.
      (* the second deflection starts from the deflected context *)
      assert (HX : forall pv pv2, deflect (deflect (stash IQ EQ solution c d) d pv) d pv2
                         = deflect (stash IQ EQ solution c d) d pv2).
      { intros. unfold FdModel.deflect; cbn [slot intQuants extQuants stashPv stashIq stashedDof].
        now rewrite !put_put. }
      rewrite HX. apply deflected; auto.
Qed.

(** One column of the matrix. *)
Definition entry (d p i e : nat) : Q :=
  if (0 <? method)%Z
  then (F (replaced here d p (at_ here d p + eps d p)) i e - F here i e) / (0 + eps d p)
  else if (method <? 0)%Z
  then (F here i e - F (replaced here d p (at_ here d p - (0 + eps d p))) i e) / (0 + eps d p)
  else (F (replaced here d p (at_ here d p + eps d p)) i e
        - F (replaced here d p (at_ here d p + eps d p - (0 + eps d p + eps d p))) i e)
       / (0 + eps d p + eps d p).

Notation column := (column IQ EQ iqUpdate eqUpdate evalResidual solution spaceIndex method
                      baseEpsilon weight numEq).

Definition touched (k : nat) (c : context IQ EQ) : Prop :=
  forall j, (j < k)%nat -> nth j (slot c) AtStack = AtStash.

Lemma column_step : forall res c J d p,
  (forall i e, res i e = F here i e) ->
  inv d c -> touched d c -> (d < N)%nat -> (p < numEq)%nat ->
  throughQuantities IQ EQ evalResidual \/ d = 0%nat ->
  (forall g, length (solution g) = numEq) ->
  let s := column res (c, J) (d, p) in
  inv d (fst s) /\ touched (S d) (fst s) /\ stashedDof (fst s) = None /\
  stashPv (fst s) = nth d here [] /\
  forall i f e q, snd s i f e q
    = if ((i <? N) && (e <? numEq) && (f =? d) && (q =? p))%nat%bool
      then entry d p i e else J i f e q.
Proof.
  intros res c J d p HR HI HT Hd Hp HQ HL s.
  destruct (partial_derivative c res d p HI Hd Hp HQ HL) as (c3 & HM & E1 & E2).
  destruct (inv_restore c d c3 HI Hd HM) as (R1 & R2 & R3 & R4 & R5).
  unfold s, FdModel.column. cbn [fst snd].
  destruct (evalPartialDerivative c res d p) as [c' deriv] eqn:E. cbn [fst snd] in *. subst c'.
  split; [auto|]. split.
  - intros j Hj. destruct (Nat.eq_dec j d) as [->|Hn]; auto. rewrite R5 by auto. apply HT. lia.
  - split; [exact R2|]. split; [exact R4|]. intros i f e q. unfold updateLocalJacobian, numDof.
    destruct ((i <? N) && (e <? numEq) && (f =? d) && (q =? p))%nat%bool; auto.
    rewrite E2. unfold entry. rewrite HR. reflexivity.
Qed.

Lemma row_of_columns : forall res c J d ps,
  (forall i e, res i e = F here i e) ->
  (forall p, In p ps -> (p < numEq)%nat) -> ps <> [] ->
  inv d c -> touched d c -> (d < N)%nat ->
  throughQuantities IQ EQ evalResidual \/ d = 0%nat ->
  (forall g, length (solution g) = numEq) ->
  let s := fold_left (column res) (map (pair d) ps) (c, J) in
  inv d (fst s) /\ touched (S d) (fst s) /\ stashedDof (fst s) = None /\
  stashPv (fst s) = nth d here [] /\
  forall i f e q, snd s i f e q
    = if ((i <? N) && (e <? numEq) && (f =? d) && existsb (Nat.eqb q) ps)%nat%bool
      then entry d q i e else J i f e q.
Proof.
  intros res c J d ps HR Hps Hne HI HT Hd HQ HL. revert c J HI HT.
  induction ps as [|p ps IH]; intros c J HI HT; [congruence|].
  destruct (column_step res c J d p HR HI HT Hd (Hps p (or_introl eq_refl)) HQ HL)
    as (A1 & A2 & A3 & A4 & A5).
  cbn [map fold_left].
  destruct (column res (c, J) (d, p)) as [c1 J1] eqn:E. cbn [fst snd] in *.
  destruct ps as [|p2 ps].
  - cbn [map fold_left fst snd]. do 4 (split; [auto|]). intros. rewrite A5. cbn [existsb].
    rewrite orb_false_r. destruct (q =? p)%nat eqn:Eq; [apply Nat.eqb_eq in Eq; subst q|]; auto.
    now rewrite !andb_false_r.
  - destruct (IH (fun q Hq => Hps q (or_intror Hq)) ltac:(discriminate) c1 J1 A1)
      as (B1 & B2 & B3 & B4 & B5).
    { intros j Hj. apply A2; lia. }
    do 4 (split; [auto|]). intros. rewrite B5, A5. cbn [existsb].
    destruct (i <? N)%nat, (e <? numEq)%nat, (f =? d)%nat; cbn [andb]; auto.
    destruct (q =? p)%nat eqn:Eq; cbn [orb andb]; auto.
    apply Nat.eqb_eq in Eq; subst q.
    destruct ((p =? p2)%nat || existsb (Nat.eqb p) ps); auto.
Qed.

Lemma inv_next : forall d c, inv d c -> (S d < N)%nat -> inv (S d) c.
Proof.
  intros d c (H1 & H2 & H3 & H4 & H5) Hd.
  assert (HS : nth (S d) (slot c) AtStack = AtSolution (nth (S d) spaceIndex 0%nat))
    by (apply H3; lia).
  do 2 (split; [auto|]). split; [intros j Hj; apply H3; lia|]. split; [rewrite HS; discriminate|].
  intros s. unfold FdModel.primaryVars. rewrite HS. cbn [deref]. rewrite nth_here; auto.
Qed.

Lemma existsb_seq : forall q n, existsb (Nat.eqb q) (seq 0 n) = (q <? n)%nat.
Proof.
  intros q n. destruct (q <? n)%nat eqn:E.
  - apply existsb_exists. exists q. apply Nat.ltb_lt in E. split; [apply in_seq; lia|apply Nat.eqb_refl].
  - apply Bool.not_true_iff_false. intro H. apply existsb_exists in H. destruct H as (x & H1 & H2).
    apply in_seq in H1. apply Nat.eqb_eq in H2. apply Nat.ltb_ge in E. lia.
Qed.

Lemma all_columns : forall res c J m k,
  (forall i e, res i e = F here i e) ->
  (0 < numEq)%nat -> (0 < m)%nat -> (k + m <= N)%nat ->
  throughQuantities IQ EQ evalResidual \/ (k + m <= 1)%nat ->
  (forall g, length (solution g) = numEq) ->
  inv k c -> touched k c ->
  let s := fold_left (column res) (flat_map (fun d => map (pair d) (seq 0 numEq)) (seq k m)) (c, J) in
  inv (k + m - 1) (fst s) /\ touched (k + m) (fst s) /\ stashedDof (fst s) = None /\
  stashPv (fst s) = nth (k + m - 1) here [] /\
  forall i f e q, snd s i f e q
    = if ((i <? N) && (e <? numEq) && (k <=? f) && (f <? k + m) && (q <? numEq))%nat%bool
      then entry f q i e else J i f e q.
Proof.
  intros res c J m. revert c J. induction m as [|m IH]; intros c J k HR Hq Hm HN HT HL HI HTo; [lia|].
  cbn [seq flat_map]. rewrite fold_left_app.
  assert (HT1 : throughQuantities IQ EQ evalResidual \/ k = 0%nat) by (destruct HT; [auto|right; lia]).
  destruct (row_of_columns res c J k (seq 0 numEq) HR ltac:(intros p Hp; apply in_seq in Hp; lia)
              ltac:(destruct numEq; [lia|discriminate]) HI HTo ltac:(lia) HT1 HL)
    as (A1 & A2 & A3 & A4 & A5).
  destruct (fold_left (column res) (map (pair k) (seq 0 numEq)) (c, J)) as [c1 J1] eqn:E.
  cbn [fst snd] in *.
  destruct m as [|m].
  - cbn [seq flat_map fold_left fst snd]. replace (k + 1 - 1)%nat with k by lia.
    split; [auto|]. split; [intros j Hj; apply A2; lia|]. do 2 (split; [auto|]).
    intros. rewrite A5, existsb_seq.
    destruct (i <? N)%nat, (e <? numEq)%nat; cbn [andb]; auto.
    destruct (f =? k)%nat eqn:Ef.
    + apply Nat.eqb_eq in Ef; subst f. rewrite Nat.leb_refl, (proj2 (Nat.ltb_lt k (k + 1))) by lia.
      reflexivity.
    + apply Nat.eqb_neq in Ef. destruct (k <=? f)%nat eqn:E1; cbn [andb]; auto.
      apply Nat.leb_le in E1. rewrite (proj2 (Nat.ltb_ge f (k + 1))) by lia. reflexivity.
  - destruct (IH c1 J1 (S k) HR Hq ltac:(lia) ltac:(lia)
                ltac:(destruct HT; [auto|right; lia]) HL (inv_next k c1 A1 ltac:(lia)) A2)
      as (B1 & B2 & B3 & B4 & B5).
    replace (S k + S m)%nat with (k + S (S m))%nat in * by lia.
    do 4 (split; [auto|]). intros. rewrite B5, A5, existsb_seq.
    destruct (i <? N)%nat, (e <? numEq)%nat; cbn [andb]; auto.
    destruct (f =? k)%nat eqn:Ef.
    + apply Nat.eqb_eq in Ef; subst f. rewrite (proj2 (Nat.leb_gt (S k) k)) by lia.
      rewrite Nat.leb_refl, (proj2 (Nat.ltb_lt k (k + S (S m)))) by lia. reflexivity.
    + apply Nat.eqb_neq in Ef. cbn [andb].
      destruct (k <=? f)%nat eqn:E1.
      * apply Nat.leb_le in E1. rewrite (proj2 (Nat.leb_le (S k) f)) by lia. reflexivity.
      * apply Nat.leb_gt in E1. rewrite (proj2 (Nat.leb_gt (S k) f)) by lia. reflexivity.
Qed.

(** The context right after [updateAll]. *)
Lemma updateAll_iqs : forall c,
  (forall d q, (d < N)%nat -> cached (nth d spaceIndex 0%nat) = Some q ->
     q = iqUpdate d (solution (nth d spaceIndex 0%nat))) ->
  intQuants (updateAll IQ EQ iqUpdate eqUpdate solution cached spaceIndex c) = iqsOf here.
Proof.
  intros c HC. cbn [updateAll intQuants]. unfold FdSpec.iqsOf, numDof. rewrite here_length.
  unfold here.
  assert (G : forall l k, (forall d q, (d < length l)%nat -> cached (nth d l 0%nat) = Some q ->
                q = iqUpdate (k + d) (solution (nth d l 0%nat))) ->
     map (fun dg => freshIq IQ iqUpdate solution cached (fst dg) (snd dg))
         (combine (seq k (length l)) l)
     = map (fun dp => iqUpdate (fst dp) (snd dp)) (combine (seq k (length l)) (map solution l))).
  { induction l as [|g l IH]; intros k H; cbn [length seq combine map fst snd]; auto. f_equal.
    - unfold freshIq. destruct (cached g) eqn:E; auto.
      assert (X := H 0%nat i ltac:(cbn; lia) E). now rewrite Nat.add_0_r in X.
    - apply IH. intros d q Hd E. replace (S k + d)%nat with (k + S d)%nat by lia.
      apply (H (S d)); cbn; auto; lia. }
  apply G. intros d q Hd E. cbn [Nat.add]. apply HC; auto.
Qed.

Lemma updateAll_slot : forall c j, (j < N)%nat ->
  nth j (slot (updateAll IQ EQ iqUpdate eqUpdate solution cached spaceIndex c)) AtStack
  = AtSolution (nth j spaceIndex 0%nat).
Proof.
  intros c j H. cbn [updateAll slot].
  rewrite (nth_indep _ AtStack (AtSolution 0%nat)) by (rewrite map_length; auto).
  apply map_nth.
Qed.

Lemma updateAll_pv : forall c s,
  allPrimaryVars (updateAll IQ EQ iqUpdate eqUpdate solution cached spaceIndex c) s = here.
Proof.
  intros. unfold FdModel.allPrimaryVars, here. cbn [updateAll slot]. rewrite map_map. reflexivity.
Qed.

Lemma linearize_residual : forall c,
  (forall d q, (d < N)%nat -> cached (nth d spaceIndex 0%nat) = Some q ->
     q = iqUpdate d (solution (nth d spaceIndex 0%nat))) ->
  forall i e, snd (fst (linearize c)) i e = F here i e.
Proof.
  intros c HC i e. unfold FdModel.linearize.
  destruct (fold_left _ _ _) as [c' J]. cbn [fst snd].
  unfold FdModel.evalLocal. rewrite updateAll_pv. cbn [updateAll extQuants].
  pose proof (updateAll_iqs c HC) as E. rewrite E. cbn [updateAll intQuants] in E.
  unfold FdSpec.F. now rewrite E.
Qed.

Lemma linearize_result : forall c,
  (forall d q, (d < N)%nat -> cached (nth d spaceIndex 0%nat) = Some q ->
     q = iqUpdate d (solution (nth d spaceIndex 0%nat))) ->
  (0 < numEq)%nat -> (0 < numPrimaryDof <= N)%nat ->
  throughQuantities IQ EQ evalResidual \/ numPrimaryDof = 1%nat ->
  (forall g, length (solution g) = numEq) ->
  let c' := fst (fst (linearize c)) in
  inv (numPrimaryDof - 1) c' /\ touched numPrimaryDof c' /\ stashedDof c' = None /\
  stashPv c' = nth (numPrimaryDof - 1) here [] /\
  forall i f e q, (i < N)%nat -> (f < numPrimaryDof)%nat -> (e < numEq)%nat -> (q < numEq)%nat ->
    snd (linearize c) i f e q = entry f q i e.
Proof.
  intros c HC Hq Hm HT HL c'. pose proof (linearize_residual c HC) as HR.
  unfold c' in *. clear c'. unfold FdModel.linearize in *.
  set (c0 := updateAll IQ EQ iqUpdate eqUpdate solution cached spaceIndex c) in *.
  assert (HI : inv 0 c0).
  { assert (S0 := updateAll_slot c). fold c0 in S0.
    split; [apply updateAll_iqs; auto|].
    split; [unfold c0; cbn [updateAll slot]; apply map_length|].
    split; [intros j Hj; apply S0; lia|].
    split; [rewrite S0 by lia; discriminate|].
    intros s. unfold FdModel.primaryVars. rewrite S0 by lia. cbn [deref]. rewrite nth_here by lia. auto. }
  destruct (all_columns (evalLocal c0 []) c0 (fun _ _ _ _ => 0) numPrimaryDof 0)
    as (A1 & A2 & A3 & A4 & A5); auto; try lia.
  { intros i e. specialize (HR i e).
    destruct (fold_left _ _ _) as [c' J] in HR. exact HR. }
  { destruct HT; [auto|right; lia]. }
  { intros j Hj; lia. }
  cbn [Nat.add] in *. unfold columns.
  destruct (fold_left _ _ _) as [c' J]. cbn [fst snd] in *.
  do 4 (split; [auto|]). intros i f e q Hi Hf He Hq'. rewrite A5.
  rewrite (proj2 (Nat.ltb_lt i N)), (proj2 (Nat.ltb_lt e numEq)), (proj2 (Nat.ltb_lt f numPrimaryDof)),
    (proj2 (Nat.ltb_lt q numEq)) by auto. reflexivity.
Qed.

End Proofs.
