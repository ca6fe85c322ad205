From Verif Require Import TimeIntegModel TimeIntegSpec.
From Coq Require Import Lqa Qfield.
Open Scope Q_scope.

Lemma Qltb_t a b : Qltb a b = true -> a < b.
Proof. unfold Qltb. intros H. apply Qnot_le_lt. intros L. apply Qle_bool_iff in L. rewrite L in H. discriminate. Qed.
Lemma Qltb_f a b : Qltb a b = false -> b <= a.
Proof. unfold Qltb. intros H. apply Qle_bool_iff. destruct (Qle_bool b a); auto; discriminate. Qed.

Lemma halving_snoc m l a b : halving m (l ++ [a]) -> b == Qmax m (a / 2) -> halving m (l ++ [a; b]).
Proof.
  induction l as [|x l IH]; cbn; intros H Hb.
  - constructor; auto. constructor.
  - destruct l as [|y l]; cbn in *.
    + inversion H; subst. constructor; auto.
    + inversion H; subst. constructor; auto.
Qed.

Section TI.
  Variables (minDt : Q) (cont : bool) (solver : list Q -> Q -> bool).

  Definition fails (tried : list Q) : Prop := forall before d after, rev tried = before ++ d :: after -> solver (rev before) d = false.

  Lemma fails_cons tried d : fails tried -> solver tried d = false -> fails (d :: tried).
  Proof.
    intros H Hd before x after E. cbn in E. destruct after as [|y after] using rev_ind.
    - apply app_inj_tail in E. destruct E as [E1 E2]. subst x. rewrite <- E1, rev_involutive. auto.
    - rewrite app_comm_cons, app_assoc in E. apply app_inj_tail in E. destruct E as [E _]. eapply H; eauto.
  Qed.

  Lemma next_is_max dt : (if Qltb (dt / 2) minDt then minDt else dt / 2) == Qmax minDt (dt / 2).
  Proof.
    destruct (Qltb (dt / 2) minDt) eqn:E.
    - apply Qltb_t in E. symmetry. apply Q.max_l. apply Qlt_le_weak; auto.
    - apply Qltb_f in E. symmetry. apply Q.max_r. auto.
  Qed.

  Lemma attempts_spec n tried dt res l d :
    attempts minDt cont solver n tried dt = (res, l, d) ->
    fails tried -> halving minDt (rev tried ++ [dt]) ->
    exists more, rev l = rev tried ++ more /\ (length more <= n)%nat /\
      (more <> [] -> exists q, more = dt :: q) /\
      halving minDt (rev l) /\ 
      match res with
      | Converged => last_succeeded solver (rev l) /\ all_but_last_failed solver (rev l) /\ (exists q, rev l = q ++ [d])
      | Continued => fails l /\ last_minimal minDt (rev l) /\ cont = true /\ more <> [] /\ (exists q, rev l = q ++ [d])
      | Raised => fails l /\ (length more = n \/ (last_minimal minDt (rev l) /\ cont = false))
      end.
  Proof.
    revert tried dt. induction n as [|n IH]; cbn; intros tried dt E F H.
    - inversion E; subst. exists []. rewrite app_nil_r. split; auto. split; auto. split; [congruence|].
      split; [|auto]. clear -H. induction (rev l) as [|x q IHq]; [constructor|].
      cbn in H. destruct q as [|y q]; [constructor|]. cbn in *. inversion H; subst. constructor; auto.
    - destruct (solver tried dt) eqn:S.
      + inversion E; subst. exists [d]. cbn [rev]. split; auto. split; [cbn; lia|]. split; [eauto|]. split; [auto|].
        split; [|split].
        * exists (rev tried), d. split; auto. rewrite rev_involutive. auto.
        * intros before x after E' Ha. destruct after as [|y after] using rev_ind; [congruence|].
          rewrite app_comm_cons, app_assoc in E'. apply app_inj_tail in E'. destruct E' as [E' _]. eapply F; eauto.
        * eauto.
      + pose proof (fails_cons _ _ F S) as F'.
        destruct (Qltb dt (minDt * (1 + (1 # 1000000000)))) eqn:M.
        * apply Qltb_t in M. destruct cont eqn:C.
          -- inversion E; subst. exists [d]. cbn [rev]. split; auto. split; [cbn; lia|]. split; [eauto|]. split; [auto|].
             split; auto. split; [exists (rev tried), d; auto|]. split; auto. split; [congruence|eauto].
          -- inversion E; subst. exists [d]. cbn [rev]. split; auto. split; [cbn; lia|]. split; [eauto|]. split; [auto|].
             split; auto. right. split; auto. exists (rev tried), d; auto.
        * set (nd := if Qltb (dt / 2) minDt then minDt else dt / 2) in *.
          destruct (IH _ _ E F') as (more & M1 & M2 & M3 & M4 & M5).
          { cbn [rev]. rewrite <- app_assoc. cbn [app]. apply halving_snoc; auto. apply next_is_max. }
          exists (dt :: more). cbn [rev] in M1. rewrite <- app_assoc in M1. cbn [app] in M1.
          split; auto. split; [cbn; lia|]. split; [eauto|]. split; auto.
          destruct res; auto.
          -- destruct M5 as (A & B & C & D & G). repeat split; auto. congruence.
          -- destruct M5 as (A & [B|B]); split; auto. left. cbn. lia.
  Qed.

  Lemma attempts_min n tried dt res l d : minDt <= dt -> Forall (fun x => minDt <= x) tried ->
    attempts minDt cont solver n tried dt = (res, l, d) -> Forall (fun x => minDt <= x) l /\ minDt <= d.
  Proof.
    revert tried dt. induction n as [|n IH]; cbn; intros tried dt Hd F E.
    - inversion E; subst. auto.
    - destruct (solver tried dt); [inversion E; subst; split; auto; constructor; auto|].
      destruct (Qltb _ _); [destruct cont; inversion E; subst; split; auto; constructor; auto|].
      apply (IH (dt :: tried) (if Qltb (dt / 2) minDt then minDt else dt / 2)); auto.
      + destruct (Qltb (dt / 2) minDt) eqn:B; [lra|]. apply Qltb_f in B. auto.
  Qed.
End TI.

Lemma min_cases a b : (Qmin a b == a /\ a <= b) \/ (Qmin a b == b /\ b <= a).
Proof. destruct (Q.min_spec a b) as [[H E]|[H E]]; [left|right]; split; auto; lra. Qed.

Lemma next_bound imposed maxDt sug M : imposed <= 0 -> 0 <= maxDt ->
  nextTimeStepSize imposed maxDt sug M <= maxDt * (101 # 100).
Proof.
  intros Hi Hm. unfold nextTimeStepSize. destruct (Qltb 0 imposed) eqn:E; [apply Qltb_t in E; lra|].
  assert (Hmin : Qmin maxDt sug <= maxDt) by apply Q.le_min_l.
  destruct (Qltb (Qmin maxDt sug) M && Qltb M (Qmin maxDt sug * 2)) eqn:B.
  - apply andb_true_iff in B. destruct B as [_ B]. apply Qltb_t in B.
    assert (M / 2 == M * (1 # 2)) as -> by field. lra.
  - lra.
Qed.

Lemma next_exact imposed maxDt sug M : imposed <= 0 -> M <= Qmin maxDt sug \/ 2 * Qmin maxDt sug <= M ->
  nextTimeStepSize imposed maxDt sug M = Qmin maxDt sug.
Proof.
  intros Hi Hm. unfold nextTimeStepSize. destruct (Qltb 0 imposed) eqn:E; [apply Qltb_t in E; lra|].
  destruct (Qltb (Qmin maxDt sug) M) eqn:A; cbn; auto. destruct (Qltb M (Qmin maxDt sug * 2)) eqn:B; auto.
  apply Qltb_t in A. apply Qltb_t in B. destruct Hm; lra.
Qed.

Lemma next_split imposed maxDt sug M : imposed <= 0 ->
  Qmin maxDt sug < M -> M < 2 * Qmin maxDt sug ->
  let d := nextTimeStepSize imposed maxDt sug M in 0 < d /\ d < M /\ M - d < d.
Proof.
  intros Hi H1 H2. unfold nextTimeStepSize. destruct (Qltb 0 imposed) eqn:E; [apply Qltb_t in E; lra|].
  assert (A : Qltb (Qmin maxDt sug) M = true).
  { destruct (Qltb (Qmin maxDt sug) M) eqn:A; auto. apply Qltb_f in A. lra. }
  assert (B : Qltb M (Qmin maxDt sug * 2) = true).
  { destruct (Qltb M (Qmin maxDt sug * 2)) eqn:B; auto. apply Qltb_f in B. lra. }
  rewrite A, B. cbn. assert (M / 2 == M * (1 # 2)) as -> by field. lra.
Qed.
