(** Proofs about the BiCGStab solver. *)
From Verif Require Import Num BiCGModel BiCGSpec.
Open Scope Q_scope.

Section Solver.
Variable St : Type.
Variable crit : criterion St.
Variable A : vec -> vec.
Variable dot : vec -> vec -> Q.
Variable K : nat -> vec -> vec -> vec.
Variable b : vec.
Variable eps : Q.
Hypothesis L : linear A.

Lemma A_axpy : forall a u v, same (A (fun i => v i + a * u i)) (fun i => A v i + a * A u i).
Proof.
  intros a u v i. rewrite (lin_add A L v (fun i => a * u i) i). rewrite (lin_scale A L a u i). reflexivity.
Qed.
Lemma A_zero : same (A vzero) vzero.
Proof.
  intro i. assert (E : same vzero (fun i => 0 * vzero i)) by (intro; unfold vzero; ring).
  rewrite (lin_same A L _ _ E i), (lin_scale A L 0 vzero i). unfold vzero. ring.
Qed.

Notation loop := (loop St).
Notation firstHalf := (firstHalf St crit A dot K b eps).
Notation secondHalf := (secondHalf St crit A dot K eps).

Definition good (l : loop) := same (l_r _ l) (residual A b (l_x _ l)).

Inductive half_outcome (l : loop) : step St -> Prop :=
| ho_break : half_outcome l (Done St Breakdown)
| ho_stop : forall h y s c (ok : bool), same s (residual A b h) -> c = updateCrit crit (l_crit _ l) h y s ->
    (if ok then converged crit c = true else converged crit c = false /\ failed crit c = true) ->
    half_outcome l (Done St (Returned ok h c (l_iter _ l)))
| ho_next : forall h y s c l', same s (residual A b h) -> c = updateCrit crit (l_crit _ l) h y s ->
    converged crit c = false -> failed crit c = false ->
    l_x _ l' = h -> l_r _ l' = s -> l_crit _ l' = c -> l_iter _ l' = l_iter _ l ->
    half_outcome l (Next St l').
Lemma firstHalf_outcome : forall l, good l -> half_outcome l (firstHalf l).
Proof.
  intros l G. unfold BiCGModel.firstHalf.
  destruct (small _ _ || small _ _); [constructor|].
  destruct (small _ _); [constructor|].
  destruct (small _ (_ / _)); [constructor|].
  match goal with |- context [K ?k ?y ?p] => generalize (K k y p) end. intro y.
  match goal with |- context [?r / ?d] => match r with dot b (l_r _ l) => generalize (r / d) end end. intro alpha.
  assert (T : same (fun i => l_r St l i - A y i * alpha) (residual A b (fun i => y i * alpha + l_x St l i))).
  { intro i. unfold residual.
    assert (E : same (fun i => y i * alpha + l_x St l i) (fun i => l_x St l i + alpha * y i)) by (intro; ring).
    rewrite (lin_same A L _ _ E i), (A_axpy alpha y (l_x St l) i), (G i). unfold residual. ring. }
  destruct (converged crit _) eqn:C; [eapply ho_stop with (ok := true); eauto|].
  destruct (failed crit _) eqn:F; [eapply ho_stop with (ok := false); eauto|].
  eapply ho_next; eauto.
Qed.

Inductive full_outcome (l : loop) : step St -> Prop :=
| fo_break : full_outcome l (Done St Breakdown)
| fo_stop : forall x z c (ok : bool), c = updateCrit crit (l_crit _ l) x z (l_r _ l) ->
    (if ok then converged crit c = true else converged crit c = false /\ failed crit c = true) ->
    full_outcome l (Done St (Returned ok x c (l_iter _ l)))
| fo_next : forall x z c l', c = updateCrit crit (l_crit _ l) x z (l_r _ l) ->
    converged crit c = false -> failed crit c = false ->
    l_x _ l' = x -> good l' -> l_crit _ l' = c -> l_iter _ l' = S (l_iter _ l) ->
    full_outcome l (Next St l').
Lemma secondHalf_outcome : forall l, good l -> full_outcome l (secondHalf l).
Proof.
  intros l G. unfold BiCGModel.secondHalf.
  destruct (small _ _); [constructor|].
  destruct (small _ (_ / _)); [constructor|].
  match goal with |- context [?r / ?d] => generalize (r / d) end. intro omega.
  match goal with |- context [K ?k ?y ?p] => generalize (K k y p) end. intro z.
  destruct (converged crit _) eqn:C; [eapply fo_stop with (ok := true); eauto|].
  destruct (failed crit _) eqn:F; [eapply fo_stop with (ok := false); eauto|].
  eapply fo_next; [reflexivity| exact C|exact F|reflexivity| |reflexivity|reflexivity].
  unfold good, axpy. cbn. intro i. unfold residual. rewrite (A_axpy omega z (l_x St l) i), (G i). unfold residual. ring.
Qed.

Lemma start_good : forall c, good (mkLoop St vzero b vzero vzero vzero vzero 1 1 1 c 0 0).
Proof. intros c i. cbn. unfold residual. rewrite (A_zero i). unfold vzero. ring. Qed.

(** ** Criteria which depend on the residual only. *)
Section Residual.
Variable c0 : St.
Variable f : vec -> vec -> bool.
Hypothesis f_same : forall r s, same r s -> f b r = f b s.
Variable inv : St -> vec -> Prop.
Hypothesis inv_start : forall x b, inv (setInitial crit c0 x b) b /\ (converged crit (setInitial crit c0 x b) = true -> f b b = true).
Hypothesis inv_step : forall c b x d r, inv c b -> inv (updateCrit crit c x d r) b /\ converged crit (updateCrit crit c x d r) = f b r.

Lemma iterate_residual : forall n l x c it, good l -> inv (l_crit _ l) b ->
  iterate St crit A dot K b eps n l = Returned true x c it -> f b (residual A b x) = true.
Proof.
  induction n; intros l x c it G I; cbn [iterate]; [discriminate|].
  destruct (firstHalf_outcome l G) as [|h y s c1 ok T Ec Ok|h y s c1 l1 T Ec C F Ex Er Ecr Ei]; [discriminate| |].
  - intro E. injection E as -> <- <- <-. subst c1. destruct (inv_step _ b h y s I) as [_ Cv].
    rewrite Cv in Ok. rewrite <- (f_same _ _ T). exact Ok.
  - assert (I1 : inv (l_crit _ l1) b) by (rewrite Ecr, Ec; exact (proj1 (inv_step _ b h y s I))).
    assert (N : f b s = false) by (rewrite Ec, (proj2 (inv_step _ b h y s I)) in C; exact C).
    assert (G1 : good l1) by (unfold good; rewrite Er, Ex; exact T).
    destruct (secondHalf_outcome l1 G1) as [|x2 z c2 ok Ec2 Ok|x2 z c2 l2 Ec2 C2 F2 Ex2 G2 Ecr2 Ei2]; [discriminate| |].
    + intro E. injection E as -> <- <- <-. subst c2. exfalso.
      rewrite (proj2 (inv_step _ b x2 z _ I1)), Er, N in Ok. discriminate.
    + apply IHn; [exact G2|]. rewrite Ecr2, Ec2. apply inv_step. exact I1.
Qed.
Lemma apply_residual : forall n x c it, BiCGModel.apply St crit A dot K b eps n c0 = Returned true x c it -> f b (residual A b x) = true.
Proof.
  intros n x c it. unfold BiCGModel.apply. destruct (inv_start vzero b) as [I Cv].
  destruct (converged crit _) eqn:C.
  - intro E. injection E as <- <- <-. rewrite <- (f_same b). + exact (Cv eq_refl).
    + intro i. unfold residual. rewrite (A_zero i). unfold vzero. ring.
  - apply iterate_residual; [apply start_good|exact I].
Qed.
End Residual.
End Solver.

(** ** What an arbitrary criterion gets to see. *)
Lemma firstn_app_le : forall {X} k (l m : list X), (k <= length l)%nat -> firstn k (l ++ m) = firstn k l.
Proof. intros X k l m E. rewrite firstn_app. replace (k - length l)%nat with 0%nat by lia. cbn. apply app_nil_r. Qed.

Section Log.
Variables (conv fail : vec -> list seen -> bool) (A : vec -> vec) (dot : vec -> vec -> Q) (K : nat -> vec -> vec -> vec) (b : vec) (eps : Q).
Hypothesis L : linear A.
Notation crit := (observer conv fail).

Definition logged (log : list seen) (x : vec) : Prop :=
  trueResiduals A b log /\ staleResiduals A b log /\ lastSolution log = x.
Definition undecided (log : list seen) : Prop :=
  conv b log = false /\ (log <> [] -> fail b log = false).

Lemma last_snoc : forall log e, lastSolution (log ++ [e]) = s_solution e.
Proof. intros. unfold lastSolution. rewrite map_app. cbn. apply last_last. Qed.

Lemma log_half : forall log x e n, logged log x -> length log = (2 * n)%nat -> same (s_residual e) (residual A b (s_solution e)) ->
  logged (log ++ [e]) (s_solution e).
Proof.
  intros log x e n (T & S & _) Len G. split; [|split].
  - intros k e' H. destruct (Nat.lt_ge_cases (2 * k) (length log)) as [B|B].
    + rewrite nth_error_app1 in H by exact B. exact (T k e' H).
    + rewrite nth_error_app2 in H by exact B. destruct (2 * k - length log)%nat as [|q] eqn:Q; cbn in H; [injection H as <-; exact G|destruct q; discriminate].
  - intros k e1 e2 H1 H2. assert (B : (2 * k + 1 < length log)%nat).
    { assert (2 * k + 1 < length (log ++ [e]))%nat by (apply nth_error_Some; congruence). rewrite app_length in H. cbn in H. lia. }
    rewrite nth_error_app1 in H1, H2 by lia. exact (S k e1 e2 H1 H2).
  - apply last_snoc.
Qed.
Lemma log_full : forall log e e' n, logged (log ++ [e]) (s_solution e) -> length log = (2 * n)%nat ->
  s_residual e' = s_residual e ->
  logged ((log ++ [e]) ++ [e']) (s_solution e').
Proof.
  intros log e e' n (T & S & _) Len R. split; [|split].
  - intros k e1 H. assert (B : (2 * k < length (log ++ [e]))%nat).
    { assert (X : (2 * k < length ((log ++ [e]) ++ [e']))%nat) by (apply nth_error_Some; congruence). rewrite !app_length in *. cbn in *. lia. }
    rewrite nth_error_app1 in H by exact B. exact (T k e1 H).
  - intros k e1 e2 H1 H2. assert (X : (2 * k + 1 < length ((log ++ [e]) ++ [e']))%nat) by (apply nth_error_Some; congruence).
    rewrite !app_length in X. cbn in X.
    rewrite nth_error_app1 in H1 by (rewrite app_length; cbn; lia).
    destruct (Nat.lt_ge_cases (2 * k + 1) (length (log ++ [e]))) as [B|B].
    + rewrite nth_error_app1 in H2 by exact B. exact (S k e1 e2 H1 H2).
    + rewrite nth_error_app2 in H2 by exact B. rewrite app_length in B, H2. cbn [length] in B, H2.
      replace (2 * k + 1 - (length log + 1))%nat with 0%nat in H2 by lia. injection H2 as <-. rewrite R.
      assert (Y : e1 = e). { rewrite nth_error_app2 in H1 by lia. replace (2 * k - length log)%nat with 0%nat in H1 by lia. cbn [nth_error] in H1. congruence. }
      subst e1. exact (T k e H1).
  - apply last_snoc.
Qed.

Lemma undecided_snoc : forall log e, undecidedBefore conv fail b log -> undecided log -> undecidedBefore conv fail b (log ++ [e]).
Proof.
  intros log e U (C & F) k B. rewrite app_length in B. cbn in B. rewrite firstn_app_le by lia.
  destruct (Nat.eq_dec k (length log)) as [->|N].
  - rewrite firstn_all. split; [exact C|]. intro Z. apply F. intros ->. apply Z. reflexivity.
  - apply U. lia.
Qed.

Lemma iterate_log : forall n l log ok x b' log' it,
  good _ A b l -> l_crit _ l = (b, log) -> logged log (l_x _ l) -> length log = (2 * l_iter _ l)%nat ->
  undecidedBefore conv fail b log -> undecided log ->
  iterate _ crit A dot K b eps n l = Returned ok x (b', log') it ->
  b' = b /\ logged log' x /\ undecidedBefore conv fail b log' /\
  (length log' <= 2 * (l_iter _ l + n))%nat /\ (if ok then conv b log' = true else conv b log' = false) /\
  (ok = false -> (log' <> [] /\ fail b log' = true) \/ length log' = (2 * (l_iter _ l + n))%nat) /\
  it = ((length log' - (if conv b log' || (negb (Nat.eqb (length log') 0) && fail b log') then 1 else 0)) / 2)%nat.
Proof.
  induction n; intros l log ok x b' log' it G Ec Lg Len U UU; cbn [iterate].
  - rewrite Ec. intro E. injection E as <- <- <- <- <-.
    repeat (split; [solve [auto]|]). split; [rewrite Len; lia|]. split; [exact (proj1 UU)|]. split; [right; rewrite Len; lia|].
    rewrite (proj1 UU). cbn [orb]. destruct log as [|e log].
    + cbn. cbn in Len. lia.
    + rewrite (proj2 UU) by discriminate. rewrite andb_false_r. rewrite Len, Nat.sub_0_r, Nat.mul_comm, Nat.div_mul; lia.
  - destruct (firstHalf_outcome _ crit A dot K b eps L l G) as [|h y s c1 ok1 T Ec1 Ok|h y s c1 l1 T Ec1 C F Ex Er Ecr Ei]; [discriminate| |].
    + intro E. injection E as Eo Exx H2 <-. subst ok1. subst x. rewrite Ec1, Ec in H2. cbn in H2. injection H2 as <- <-.
      subst c1. rewrite Ec in Ok. cbn in Ok.
      split; [reflexivity|]. split; [eapply (log_half log _ (mkSeen h y s)); eauto|].
      split; [apply undecided_snoc; auto|]. rewrite !app_length, Len. cbn [length Nat.add].
      split; [lia|]. split; [destruct ok; intuition|].
      split; [destruct ok; [discriminate|]; intros _; left; split; [destruct log; discriminate|intuition]|].
      replace (conv b _ || _) with true.
      2: { symmetry. replace (Nat.eqb (2 * l_iter _ l + 1) 0) with false by (symmetry; apply Nat.eqb_neq; lia). cbn [negb andb].
           destruct ok; [rewrite Ok; reflexivity|rewrite (proj2 Ok); apply orb_true_r]. }
      replace (2 * l_iter _ l + 1 - 1)%nat with (l_iter _ l * 2)%nat by lia. rewrite Nat.div_mul; lia.
    + set (log1 := log ++ [mkSeen h y s]).
      assert (E1 : l_crit _ l1 = (b, log1)) by (rewrite Ecr, Ec1, Ec; reflexivity).
      assert (Lg1 : logged log1 h) by (apply (log_half log _ (mkSeen h y s) _ Lg Len T)).
      assert (U1 : undecidedBefore conv fail b log1) by (apply undecided_snoc; auto).
      assert (UU1 : undecided log1).
      { rewrite Ec1, Ec in C, F. cbn in C, F. split; [exact C|intros _; exact F]. }
      assert (Len1 : length log1 = (2 * l_iter _ l + 1)%nat) by (unfold log1; rewrite app_length; cbn; lia).
      assert (G1 : good _ A b l1) by (unfold good; rewrite Er, Ex; exact T).
      destruct (secondHalf_outcome _ crit A dot K b eps L l1 G1) as [|x2 z c2 ok2 Ec2 Ok|x2 z c2 l2 Ec2 C2 F2 Ex2 G2 Ecr2 Ei2]; [discriminate| |].
      * intro E. injection E as Eo Exx H2 <-. subst ok2. subst x. rewrite Ec2, E1 in H2. cbn in H2. injection H2 as <- <-.
        subst c2. rewrite E1 in Ok. cbn in Ok.
        split; [reflexivity|]. split; [eapply (log_full log (mkSeen h y s) (mkSeen x2 z (l_r _ l1))); eauto|].
        split; [apply undecided_snoc; auto|]. rewrite !app_length, Len1. cbn [length Nat.add].
        split; [lia|]. split; [destruct ok; intuition|].
        split; [destruct ok; [discriminate|]; intros _; left; split; [destruct log1; discriminate|intuition]|].
        replace (conv b _ || _) with true.
        2: { symmetry. replace (Nat.eqb (2 * l_iter _ l + 1 + 1) 0) with false by (symmetry; apply Nat.eqb_neq; lia). cbn [negb andb].
             destruct ok; [rewrite Ok; reflexivity|rewrite (proj2 Ok); apply orb_true_r]. }
        replace (2 * l_iter _ l + 1 + 1 - 1)%nat with (1 + l_iter _ l * 2)%nat by lia. rewrite Ei. rewrite Nat.div_add by lia. reflexivity.
      * set (log2 := log1 ++ [mkSeen x2 z (l_r _ l1)]).
        assert (E2 : l_crit _ l2 = (b, log2)) by (rewrite Ecr2, Ec2, E1; reflexivity).
        assert (Lg2 : logged log2 (l_x _ l2)).
        { rewrite Ex2. apply (log_full log (mkSeen h y s) (mkSeen x2 z (l_r _ l1)) _ Lg1 Len). cbn. exact Er. }
        intro E. specialize (IHn l2 log2 ok x b' log' it G2 E2 Lg2).
        rewrite Ei2, Ei in IHn. replace (S (l_iter _ l) + n)%nat with (l_iter _ l + S n)%nat in IHn by lia.
        apply IHn; auto.
        -- unfold log2. rewrite app_length, Len1. cbn. lia.
        -- apply undecided_snoc; auto.
        -- rewrite Ec2, E1 in C2, F2. cbn in C2, F2. split; [exact C2|intros _; exact F2].
Qed.

Lemma apply_log : forall n c0 ok x b' log it,
  BiCGModel.apply _ crit A dot K b eps n c0 = Returned ok x (b', log) it ->
  b' = b /\ logged log x /\ undecidedBefore conv fail b log /\ (length log <= 2 * n)%nat /\
  (if ok then conv b log = true else conv b log = false) /\
  (ok = false -> (log <> [] /\ fail b log = true) \/ length log = (2 * n)%nat) /\
  it = ((length log - (if conv b log || (negb (Nat.eqb (length log) 0) && fail b log) then 1 else 0)) / 2)%nat.
Proof.
  intros n c0 ok x b' log it. unfold BiCGModel.apply.
  assert (L0 : logged [] vzero).
  { split; [|split; [|reflexivity]].
    - intros k e H. destruct (2 * k)%nat; discriminate.
    - intros k e e' H. destruct (2 * k)%nat; discriminate. }
  assert (U0 : undecidedBefore conv fail b []) by (intros k B; cbn in B; lia).
  destruct (converged crit _) eqn:C.
  - intro E. injection E as <- <- <- <- <-. cbn in C.
    repeat (split; [solve [auto]|]). split; [cbn; lia|]. split; [exact C|]. split; [discriminate|]. cbn. reflexivity.
  - cbn in C. intro E.
    apply (iterate_log n _ [] ok x b' log it (start_good _ A b L _) eq_refl L0 eq_refl U0 (conj C (fun H => False_ind _ (H eq_refl))) E).
Qed.
End Log.
