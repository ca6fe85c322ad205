From Verif Require Import RateModel RateSpec.

Lemma set_same v i q : set v i q i = q.
Proof. unfold set. rewrite Nat.eqb_refl. reflexivity. Qed.
Lemma set_other v i q j : j <> i -> set v i q j = v j.
Proof. intros H. unfold set. destruct (Nat.eqb_spec j i); [contradiction|reflexivity]. Qed.

Lemma assign_range (f : nat -> Q) o n : forall b v j,
  fold_left (fun v c => set v (o + c) (f c)) (seq b n) v j =
  if ((o + b <=? j) && (j <? o + (b + n)))%nat then f (j - o)%nat else v j.
Proof.
  induction n; intros b v j; cbn [seq fold_left].
  - replace ((o + b <=? j) && (j <? o + (b + 0)))%nat with false; [reflexivity|].
    symmetry. apply andb_false_iff. destruct (Nat.leb_spec (o + b) j); [right; apply Nat.ltb_ge; lia|left; reflexivity].
  - rewrite IHn. destruct (Nat.leb_spec (o + S b) j); destruct (Nat.ltb_spec j (o + (S b + n))); cbn [andb].
    + replace ((o + b <=? j) && (j <? o + (b + S n)))%nat with true; [reflexivity|].
      symmetry. apply andb_true_iff. split; [apply Nat.leb_le|apply Nat.ltb_lt]; lia.
    + rewrite set_other by lia. replace ((o + b <=? j) && (j <? o + (b + S n)))%nat with false; [reflexivity|].
      symmetry. apply andb_false_iff. right. apply Nat.ltb_ge. lia.
    + destruct (Nat.eq_dec j (o + b)).
      * subst j. rewrite set_same. replace ((o + b <=? o + b) && (o + b <? o + (b + S n)))%nat with true; [f_equal; lia|].
        symmetry. apply andb_true_iff. split; [apply Nat.leb_le|apply Nat.ltb_lt]; lia.
      * rewrite set_other by assumption. replace ((o + b <=? j) && (j <? o + (b + S n)))%nat with false; [reflexivity|].
        symmetry. apply andb_false_iff. left. apply Nat.leb_gt. lia.
    + rewrite set_other by lia. replace ((o + b <=? j) && (j <? o + (b + S n)))%nat with false; [reflexivity|].
      symmetry. apply andb_false_iff. left. apply Nat.leb_gt. lia.
Qed.
Lemma assign_comp l f v c : (c < l_comps l)%nat -> assignComps l f v (l_conti0 l + c)%nat = f c.
Proof.
  intros L. unfold assignComps. rewrite assign_range.
  replace ((l_conti0 l + 0 <=? l_conti0 l + c) && (l_conti0 l + c <? l_conti0 l + (0 + l_comps l)))%nat with true; [f_equal; lia|].
  symmetry. apply andb_true_iff. split; [apply Nat.leb_le|apply Nat.ltb_lt]; lia.
Qed.
Lemma assign_other l f v e : otherEntry l e -> assignComps l f v e = v e.
Proof.
  intros O. unfold assignComps. rewrite assign_range.
  replace ((l_conti0 l + 0 <=? e) && (e <? l_conti0 l + (0 + l_comps l)))%nat with false; [reflexivity|].
  symmetry. apply andb_false_iff. destruct O; [left; apply Nat.leb_gt|right; apply Nat.ltb_ge]; lia.
Qed.
Lemma enthalpy_comp l f a q v c : energyApart l -> (c < l_comps l)%nat ->
  setEnthalpy l f a q v (l_conti0 l + c)%nat = v (l_conti0 l + c)%nat.
Proof.
  intros E L. unfold setEnthalpy. destruct (l_energy l) as [e|] eqn:H; [|reflexivity].
  apply set_other. destruct (E e H); lia.
Qed.
Lemma enthalpy_energy l f a q v e : l_energy l = Some e -> setEnthalpy l f a q v e = q * f_rho f a * f_h f a.
Proof. intros H. unfold setEnthalpy. rewrite H. apply set_same. Qed.
Lemma enthalpy_other l f a q v e : l_energy l <> Some e -> setEnthalpy l f a q v e = v e.
Proof. intros H. unfold setEnthalpy. destruct (l_energy l) as [e'|]; [|reflexivity]. apply set_other. congruence. Qed.

(** ** Black-oil *)
Lemma scale_range (f : nat -> Q) n : forall b v j,
  fold_left (fun v c => scaleEntry v c (f c)) (seq b n) v j =
  if ((b <=? j) && (j <? b + n))%nat then v j * f j else v j.
Proof.
  induction n; intros b v j; cbn [seq fold_left].
  - replace ((b <=? j) && (j <? b + 0))%nat with false; [reflexivity|].
    symmetry. apply andb_false_iff. destruct (Nat.leb_spec b j); [right; apply Nat.ltb_ge; lia|left; reflexivity].
  - rewrite IHn. unfold scaleEntry. destruct (Nat.leb_spec (S b) j); destruct (Nat.ltb_spec j (S b + n)); cbn [andb].
    + rewrite set_other by lia. replace ((b <=? j) && (j <? b + S n))%nat with true; [reflexivity|].
      symmetry. apply andb_true_iff. split; [apply Nat.leb_le|apply Nat.ltb_lt]; lia.
    + rewrite set_other by lia. replace ((b <=? j) && (j <? b + S n))%nat with false; [reflexivity|].
      symmetry. apply andb_false_iff. right. apply Nat.ltb_ge. lia.
    + destruct (Nat.eq_dec j b).
      * subst j. rewrite set_same. replace ((b <=? b) && (b <? b + S n))%nat with true; [reflexivity|].
        symmetry. apply andb_true_iff. split; [apply Nat.leb_le|apply Nat.ltb_lt]; lia.
      * rewrite set_other by assumption. replace ((b <=? j) && (j <? b + S n))%nat with false; [reflexivity|].
        symmetry. apply andb_false_iff. left. apply Nat.leb_gt. lia.
    + rewrite set_other by lia. replace ((b <=? j) && (j <? b + S n))%nat with false; [reflexivity|].
      symmetry. apply andb_false_iff. left. apply Nat.leb_gt. lia.
Qed.

Lemma surface_fold (b : boModel) e l v : (forall c, In c l -> b_active b c = true -> b_index b c <> e) ->
  fold_left (fun v c => if b_active b c then divEntry v (b_index b c) (b_refRho b c) else v) l v e = v e.
Proof.
  revert v. induction l as [|c l IH]; intros v H; cbn [fold_left]; [reflexivity|].
  rewrite IH by (intros d I A; apply H; [right; exact I|exact A]).
  destruct (b_active b c) eqn:A; [|reflexivity]. apply set_other. intros E. apply (H c); [left; reflexivity|exact A|symmetry; exact E].
Qed.
Lemma surface_hit (b : boModel) c l v : b_active b c = true -> In c l -> NoDup l ->
  (forall d, b_active b d = true -> b_index b c = b_index b d -> c = d) ->
  fold_left (fun v c => if b_active b c then divEntry v (b_index b c) (b_refRho b c) else v) l v (b_index b c) = v (b_index b c) / b_refRho b c.
Proof.
  revert v. induction l as [|d l IH]; intros v A I N J; cbn [fold_left]; [destruct I|].
  inversion N as [|? ? NI N']; subst. destruct I as [->|I].
  - rewrite A. rewrite surface_fold.
    + unfold divEntry. apply set_same.
    + intros d Id Ad E. assert (c = d) by (apply J; [exact Ad|symmetry; exact E]). subst. contradiction.
  - rewrite IH by assumption. destruct (b_active b d) eqn:Ad; [|reflexivity]. unfold divEntry. rewrite set_other; [reflexivity|].
    intros E. assert (c = d) by (apply J; assumption). subst. contradiction.
Qed.
Lemma boComps_nodup : NoDup boComps.
Proof. unfold boComps. repeat constructor; cbn; intuition discriminate. Qed.
Lemma boComps_all c : In c boComps.
Proof. destruct c; cbn; auto. Qed.

Lemma surface_comp b v c : boEntries b -> b_active b c = true ->
  toSurface b v (b_index b c) = if b_surface b then v (b_index b c) / b_refRho b c else v (b_index b c).
Proof.
  intros [J [S _]] A. unfold toSurface. destruct (b_surface b); [|reflexivity]. cbv zeta.
  assert (H : fold_left (fun v c => if b_active b c then divEntry v (b_index b c) (b_refRho b c) else v) boComps v (b_index b c) = v (b_index b c) / b_refRho b c).
  { apply surface_hit; [exact A|apply boComps_all|apply boComps_nodup|]. intros d Ad E. exact (J c d A Ad E). }
  destruct (b_solvent b) as [i|] eqn:SI; [|exact H].
  unfold divEntry at 1. rewrite set_other; [exact H|]. exact (S i eq_refl c A).
Qed.
Lemma surface_solvent b v i : boEntries b -> b_solvent b = Some i ->
  toSurface b v i = if b_surface b then v i / b_solventRefRho b else v i.
Proof.
  intros [J [S _]] SI. unfold toSurface. destruct (b_surface b); [|reflexivity]. cbv zeta. rewrite SI.
  unfold divEntry at 1. rewrite set_same, surface_fold; [reflexivity|]. intros c _ A. exact (S i SI c A).
Qed.
Lemma surface_other b v e : boOther b e -> toSurface b v e = v e.
Proof.
  intros [S O]. unfold toSurface. destruct (b_surface b); [|reflexivity]. cbv zeta.
  assert (H : fold_left (fun v c => if b_active b c then divEntry v (b_index b c) (b_refRho b c) else v) boComps v e = v e)
    by (apply surface_fold; intros c _ A; exact (O c A)).
  destruct (b_solvent b) as [i|]; [|exact H]. unfold divEntry at 1. rewrite set_other; [exact H|]. congruence.
Qed.
