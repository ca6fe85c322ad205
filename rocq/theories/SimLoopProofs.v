From Verif Require Import SimLoopModel SimLoopSpec.
From Coq Require Import Qfield Lqa.
Open Scope Q_scope.

Arguments exec_all : simpl never.
Arguments finished : simpl never.
Arguments episodeIsOver : simpl never.
Arguments choose_dt : simpl never.

(** * Booleans on rationals *)
Lemma Qleb_t a b : Qle_bool a b = true -> a <= b. Proof. apply Qle_bool_iff. Qed.
Lemma Qleb_f a b : Qle_bool a b = false -> b < a.
Proof. intros H. apply Qnot_le_lt. intros L. apply Qle_bool_iff in L. congruence. Qed.

Lemma max_cases a b : (Qmax a b == a /\ b <= a) \/ (Qmax a b == b /\ a <= b).
Proof. destruct (Q.max_spec a b) as [[H E]|[H E]]; [right|left]; split; auto; lra. Qed.
Lemma min_cases a b : (Qmin a b == a /\ a <= b) \/ (Qmin a b == b /\ b <= a).
Proof. destruct (Q.min_spec a b) as [[H E]|[H E]]; [left|right]; split; auto; lra. Qed.

(** * Basic facts on the operations *)
Lemma running_out r : running r = true <-> r_out r = Running.
Proof. unfold running. destruct (r_out r); split; congruence. Qed.

Section P.
  Variable p : problem.

  Lemma call_hist k r : running r = true -> r_hist (call p k r) = mkEvent k (r_sim r) :: r_hist r.
  Proof. intros H. unfold call. rewrite H. destruct (p_call _ _ _ _); reflexivity. Qed.
  Lemma call_sim k r : running r = true ->
    r_sim (call p k r) = exec_all (fst (p_call p k (r_sim r) (r_hist r))) (r_sim r).
  Proof. intros H. unfold call. rewrite H. destruct (p_call _ _ _ _); reflexivity. Qed.
  Lemma call_epb k r : r_epb (call p k r) = r_epb r.
  Proof. unfold call. destruct (running r); [|reflexivity]. destruct (p_call _ _ _ _); reflexivity. Qed.
  Lemma call_dead k r : running r = false -> call p k r = r.
  Proof. intros H. unfold call. rewrite H. reflexivity. Qed.
  Lemma call_running k r : running (call p k r) = true -> running r = true.
  Proof. destruct (running r) eqn:E; auto. rewrite (call_dead _ _ E). congruence. Qed.

  (** ** Accounting *)
  Section Acc.
    Variables (t0 : Q) (i0 : Z) (h0 : list event).
    Hypothesis LC : leaves_clock_alone p.

    Fixpoint acc (l : list event) : Prop :=
      match l with
      | [] => True
      | e :: l => s_time (e_sim e) == t0 + qsum (completed l) /\
                  s_idx (e_sim e) = (i0 + Z.of_nat (length (completed l)))%Z /\ acc l
      end.

    Definition clock (s : sim) (l : list event) : Prop :=
      s_time s == t0 + qsum (completed l) /\ s_idx s = (i0 + Z.of_nat (length (completed l)))%Z.

    Definition AInv (r : rst) : Prop :=
      exists l, r_hist r = l ++ h0 /\ acc l /\
        (r_out r = Running \/ r_out r = Done -> clock (r_sim r) l).

    Lemma exec_clock k s h : s_time (exec_all (fst (p_call p k s h)) s) = s_time s /\
                             s_idx (exec_all (fst (p_call p k s h)) s) = s_idx s.
    Proof.
      pose proof (LC k s h) as H. revert H. generalize (fst (p_call p k s h)) as cs.
      intros cs. revert s. unfold exec_all. induction cs as [|c cs IH]; cbn; intros s H; auto.
      destruct (IH (exec c s)) as [E1 E2]; [intros c' Hc; apply H; auto|].
      rewrite E1, E2. pose proof (H c (or_introl eq_refl)) as Hc.
      destruct s; destruct c; cbn in *; auto; contradiction.
    Qed.

    Lemma AInv_call k r : k <> KAdvance -> AInv r -> AInv (call p k r).
    Proof.
      intros Hk (l & E & A & C). destruct (running r) eqn:Hr.
      2: { rewrite (call_dead _ _ Hr). exists l; auto. }
      exists (mkEvent k (r_sim r) :: l). rewrite (call_hist _ _ Hr), E.
      assert (C' : clock (r_sim r) l) by (apply C; left; apply running_out; auto).
      split; [reflexivity|]. split.
      - cbn. destruct C' as [C1 C2]. auto.
      - intros _. rewrite (call_sim _ _ Hr). destruct (exec_clock k (r_sim r) (r_hist r)) as [E1 E2].
        unfold clock. rewrite E1, E2. destruct C' as [C1 C2].
        destruct k; cbn; auto. congruence.
    Qed.

    Lemma AInv_epb b r : AInv r -> AInv (with_epb b r).
    Proof.
      intros (l & E & A & C). unfold with_epb. destruct (running r); exists l; auto.
    Qed.

    Lemma AInv_simfun f r : (forall s, s_time (f s) = s_time s /\ s_idx (f s) = s_idx s) ->
      AInv r -> AInv (with_sim f r).
    Proof.
      intros Hf (l & E & A & C). unfold with_sim. destruct (running r); exists l; auto.
      cbn. split; auto. split; auto. intros H. apply C in H. destruct (Hf (r_sim r)) as [E1 E2].
      unfold clock in *. rewrite E1, E2. auto.
    Qed.

    Lemma AInv_finish r : AInv r -> AInv (finish p r).
    Proof.
      intros H. apply (AInv_call KFinalize) in H; [|congruence].
      unfold finish, with_out. destruct (running (call p KFinalize r)) eqn:Hr; auto.
      destruct H as (l & E & A & C). exists l. cbn. split; auto. split; auto.
      intros _. apply C. left. apply running_out; auto.
    Qed.

    Lemma AInv_output r : AInv r -> AInv (maybe_output p r).
    Proof. intros H. unfold maybe_output. destruct (_ && _); auto. apply AInv_call; auto; congruence. Qed.
    Lemma AInv_serialize r : AInv r -> AInv (maybe_serialize p r).
    Proof. intros H. unfold maybe_serialize. destruct (_ && _); auto. apply AInv_call; auto; congruence. Qed.

    Lemma AInv_advance r : AInv r ->
      AInv (advance_step p r).
    Proof.
      unfold advance_step.
      intros (l & E & A & C). destruct (running r) eqn:Hr.
      2: { rewrite (call_dead _ _ Hr). unfold with_sim. rewrite Hr. exists l; auto. }
      assert (C' : clock (r_sim r) l) by (apply C; left; apply running_out; auto).
      set (r' := call p KAdvance r).
      assert (Eh : r_hist r' = mkEvent KAdvance (r_sim r) :: l ++ h0) by (unfold r'; rewrite (call_hist _ _ Hr), E; reflexivity).
      assert (Es : s_time (r_sim r') = s_time (r_sim r) /\ s_idx (r_sim r') = s_idx (r_sim r)).
      { unfold r'. rewrite (call_sim _ _ Hr). apply exec_clock. }
      assert (Ed : r_out r' <> Done).
      { unfold r', call. rewrite Hr. destruct (p_call _ _ _ _) as [cs []]; cbn; congruence. }
      exists (mkEvent KAdvance (r_sim r) :: l). destruct C' as [C1 C2]. destruct Es as [E1 E2].
      unfold with_sim. destruct (running r') eqn:Hr'; cbn.
      - split; auto. split; auto. intros _. split; cbn.
        + fold (completed l). rewrite E1, C1. ring.
        + fold (completed l). rewrite E2, C2. lia.
      - split; auto. split; auto. intros [H|H]; [|contradiction].
        apply running_out in H. congruence.
    Qed.

    Lemma AInv_after r : AInv r -> AInv (after_advance p r).
    Proof.
      intros H. unfold after_advance. destruct (episodeIsOver _).
      - apply AInv_epb, AInv_call; auto; congruence.
      - apply AInv_simfun; auto.
    Qed.

    Lemma AInv_do_step r : AInv r -> AInv (do_step p r).
    Proof.
      intros H. unfold do_step. apply AInv_serialize, AInv_after, AInv_advance, AInv_output.
      apply AInv_call, AInv_call; auto; congruence.
    Qed.

    Lemma AInv_begin_step r : AInv r -> AInv (begin_step p r).
    Proof.
      intros H. unfold begin_step.
      assert (H2 : AInv (call p KBeginStep (with_epb false r))).
      { apply AInv_call; [congruence|]. apply AInv_epb; auto. }
      unfold step_or_stop. destruct (finished _).
      - apply AInv_finish, AInv_call; [congruence|]. apply AInv_call; auto; congruence.
      - apply AInv_do_step; auto.
    Qed.

    Lemma AInv_iteration r : AInv r -> AInv (iteration p r).
    Proof.
      intros H. unfold iteration. destruct (negb _); auto.
      destruct (finished _); [apply AInv_finish; auto|].
      destruct (r_epb r); [|apply AInv_begin_step; auto].
      assert (H1 : AInv (call p KBeginEpisode r)) by (apply AInv_call; auto; congruence).
      unfold begin_or_stop. destruct (finished _); [|apply AInv_begin_step; auto].
      apply AInv_finish, AInv_call; auto; congruence.
    Qed.

    Lemma AInv_iterate n r : AInv r -> AInv (iterate p n r).
    Proof. revert r. induction n as [|n IH]; cbn; intros r H; auto. apply IH, AInv_iteration; auto. Qed.
  End Acc.

  Lemma completed_app a b : completed (a ++ b) = completed a ++ completed b.
  Proof. apply flat_map_app. Qed.
  Lemma qsum_app a b : qsum (a ++ b) == qsum a + qsum b.
  Proof. induction a as [|x a IH]; cbn; [ring|]. rewrite IH. ring. Qed.
  Lemma completed_rev_len l : length (completed (rev l)) = length (completed l).
  Proof.
    induction l as [|e l IH]; cbn; auto. rewrite completed_app, !app_length, IH. cbn.
    rewrite app_nil_r. fold (completed l). apply Nat.add_comm.
  Qed.
  Lemma completed_rev_sum l : qsum (completed (rev l)) == qsum (completed l).
  Proof.
    induction l as [|e l IH]; cbn; [reflexivity|]. rewrite completed_app, !qsum_app, IH. cbn.
    rewrite app_nil_r. fold (completed l). apply Qplus_comm.
  Qed.

  Lemma acc_accounting t0 i0 l : acc t0 i0 l -> accounting t0 i0 (rev l).
  Proof.
    intros A before e after E. assert (E' : l = rev after ++ e :: rev before).
    { rewrite <- (rev_involutive l), E, rev_app_distr. cbn. rewrite <- app_assoc. reflexivity. }
    subst l. clear E. rewrite <- (completed_rev_sum before), <- (completed_rev_len before).
    induction (rev after) as [|x q IH]; cbn in A.
    - destruct A as (A1 & A2 & _). auto.
    - destruct A as (_ & _ & A). auto.
  Qed.

  (** The history after the prologue. *)
  Lemma prologue_hist restored s :
    (exists pro, r_hist (prologue p restored s) = rev pro /\
      (match restored with
       | Some _ => map e_kind pro = [KDeserialize]
       | None => map e_kind pro = [KInitial] \/ map e_kind pro = [KInitial; KWriteOutput]
       end)) /\
    (leaves_clock_alone p ->
      s_time (r_sim (prologue p restored s)) = s_time (match restored with Some s' => s' | None => s end) /\
      (running (prologue p restored s) = true ->
       s_idx (r_sim (prologue p restored s)) = s_idx (match restored with Some s' => s' | None => s end))).
  Proof.
    unfold prologue. destruct restored as [s'|].
    - set (r := call p KDeserialize _).
      assert (Er : with_epb (episodeIsOver (r_sim r) || (s_idx (r_sim r) =? 0)%Z) r = r \/
        with_epb (episodeIsOver (r_sim r) || (s_idx (r_sim r) =? 0)%Z) r =
        mkRst (r_sim r) (r_hist r) (episodeIsOver (r_sim r) || (s_idx (r_sim r) =? 0)%Z) (r_out r)).
      { unfold with_epb. destruct (running r); auto. }
      assert (Hh : r_hist r = [mkEvent KDeserialize s']) by (unfold r; rewrite call_hist; reflexivity).
      assert (Hs : r_sim r = exec_all (fst (p_call p KDeserialize s' [])) s').
      { unfold r. rewrite call_sim; reflexivity. }
      split.
      + exists [mkEvent KDeserialize s']. split; auto. destruct Er as [-> | ->]; auto.
      + intros LC. destruct (exec_clock LC KDeserialize s' []) as [E1 E2].
        destruct Er as [-> | ->]; cbn [r_sim]; rewrite Hs; split; auto.
    - cbn [with_sim running r_out r_sim]. set (s1 := set_idx (-1) (set_dt 0 s)).
      change (with_sim _ (mkRst s [] false Running)) with (mkRst s1 [] false Running).
      set (r1 := call p KInitial _). set (r2 := maybe_output p r1).
      set (r3 := with_sim _ r2).
      assert (Er : forall b, with_epb b r3 = r3 \/ with_epb b r3 = mkRst (r_sim r3) (r_hist r3) b (r_out r3)).
      { intros b. unfold with_epb. destruct (running r3); auto. }
      assert (Hh1 : r_hist r1 = [mkEvent KInitial s1]) by (unfold r1; rewrite call_hist; reflexivity).
      assert (Hh : r_hist r2 = r_hist r1 \/ r_hist r2 = mkEvent KWriteOutput (r_sim r1) :: r_hist r1).
      { unfold r2, maybe_output. destruct (running r1) eqn:Hr; cbn; auto.
        destruct (p_output _ _ _); auto. right. apply call_hist; auto. }
      assert (Hh3 : r_hist r3 = r_hist r2) by (unfold r3, with_sim; destruct (running r2); reflexivity).
      split.
      + destruct (Er (episodeIsOver (r_sim r3) || (s_idx (r_sim r3) =? 0)%Z)) as [-> | ->]; cbn [r_hist]; rewrite Hh3.
        all: destruct Hh as [-> | ->]; rewrite Hh1;
          [exists [mkEvent KInitial s1]; auto | exists [mkEvent KInitial s1; mkEvent KWriteOutput (r_sim r1)]; auto].
      + intros LC.
        assert (T1 : s_time (r_sim r1) = s_time s).
        { unfold r1. rewrite call_sim by reflexivity.
          destruct (exec_clock LC KInitial s1 []) as [E1 _]. exact E1. }
        assert (T2 : s_time (r_sim r2) = s_time s).
        { unfold r2, maybe_output. destruct (running r1) eqn:Hr; cbn; auto.
          destruct (p_output _ _ _); auto. rewrite call_sim by auto.
          rewrite (proj1 (exec_clock LC KWriteOutput _ _)). auto. }
        assert (T3 : s_time (r_sim r3) = s_time s).
        { unfold r3, with_sim. destruct (running r2); auto. }
        assert (I3 : running r3 = true -> s_idx (r_sim r3) = s_idx s).
        { unfold r3, with_sim. destruct (running r2) eqn:Hr; cbn; auto. congruence. }
        destruct (Er (episodeIsOver (r_sim r3) || (s_idx (r_sim r3) =? 0)%Z)) as [-> | ->]; cbn [r_sim]; auto.
  Qed.

  Lemma call_not_done k r : r_out r <> Done -> r_out (call p k r) <> Done.
  Proof.
    intros H. unfold call. destruct (running r); auto.
    destruct (p_call _ _ _ _) as [cs []]; cbn; try congruence. destruct k; congruence.
  Qed.
  Lemma with_sim_out f r : r_out (with_sim f r) = r_out r.
  Proof. unfold with_sim. destruct (running r); reflexivity. Qed.
  Lemma with_epb_out b r : r_out (with_epb b r) = r_out r.
  Proof. unfold with_epb. destruct (running r); reflexivity. Qed.
  Lemma output_not_done r : r_out r <> Done -> r_out (maybe_output p r) <> Done.
  Proof. intros H. unfold maybe_output. destruct (_ && _); auto. apply call_not_done; auto. Qed.
  Lemma prologue_not_done restored s : r_out (prologue p restored s) <> Done.
  Proof.
    unfold prologue. rewrite with_epb_out. destruct restored.
    - apply call_not_done. rewrite with_sim_out. cbn. congruence.
    - rewrite with_sim_out. apply output_not_done, call_not_done. rewrite with_sim_out. cbn. congruence.
  Qed.

  Lemma time_and_index restored s n : leaves_clock_alone p ->
    let start := match restored with Some s' => s' | None => s end in
    let r := run p restored s n in
    exists pro rest, history r = pro ++ rest /\
      (match restored with
       | Some _ => map e_kind pro = [KDeserialize]
       | None => map e_kind pro = [KInitial] \/ map e_kind pro = [KInitial; KWriteOutput]
       end) /\
      accounting (s_time start) (s_idx start) rest /\
      (r_out r = Running \/ r_out r = Done ->
        s_time (r_sim r) == s_time start + qsum (completed rest) /\
        s_idx (r_sim r) = (s_idx start + Z.of_nat (length (completed rest)))%Z).
  Proof.
    intros LC start r. destruct (prologue_hist restored s) as [(pro & E & K) T].
    destruct (T LC) as [T1 T2]. fold start in T1, T2.
    assert (A : AInv (s_time start) (s_idx start) (rev pro) (prologue p restored s)).
    { exists []. rewrite E. split; auto. split; cbn; auto. intros H.
      assert (Hr : running (prologue p restored s) = true).
      { destruct H as [H|H]; [apply running_out; auto|]. exfalso. exact (prologue_not_done _ _ H). }
      split; [rewrite T1; cbn; ring | cbn; rewrite (T2 Hr); lia]. }
    apply (AInv_iterate _ _ _ LC n) in A. fold (run p restored s n) in A. fold r in A.
    destruct A as (l & El & Al & Cl). exists pro, (rev l). unfold history. rewrite El, rev_app_distr, rev_involutive.
    split; auto. split; auto. split; [apply acc_accounting; auto|].
    intros H. destruct (Cl H) as [C1 C2]. rewrite completed_rev_len, completed_rev_sum. auto.
  Qed.
End P.

(** * The order of the calls *)
Lemma kinds_cons e l r : r_hist r = e :: l -> forall r0, r_hist r0 = l -> kinds r = kinds r0 ++ [e_kind e].
Proof. intros H r0 H0. unfold kinds, history. rewrite H, H0. cbn. rewrite map_app. reflexivity. Qed.

Section Order.
  Variable p : problem.
  Definition quiet : Prop := forall k s h, snd (p_call p k s h) = false.
  Hypothesis Q : quiet.

  Lemma qcall_running k r : running (call p k r) = running r.
  Proof.
    unfold call. destruct (running r) eqn:E; auto. pose proof (Q k (r_sim r) (r_hist r)) as H.
    destruct (p_call _ _ _ _) as [cs t]; cbn in *. subst t. reflexivity.
  Qed.
  Lemma qcall_kinds k r : running r = true -> kinds (call p k r) = kinds r ++ [k].
  Proof. intros H. rewrite (kinds_cons _ _ _ (call_hist p k r H) r eq_refl). reflexivity. Qed.
  Lemma output_kinds r : running r = true ->
    exists b, kinds (maybe_output p r) = kinds r ++ optional b KWriteOutput.
  Proof.
    intros H. unfold maybe_output. rewrite H. cbn. destruct (p_output _ _ _).
    - exists true. apply qcall_kinds; auto.
    - exists false. cbn. rewrite app_nil_r. reflexivity.
  Qed.
  Lemma serialize_kinds r : running r = true ->
    exists b, kinds (maybe_serialize p r) = kinds r ++ optional b KSerialize.
  Proof.
    intros H. unfold maybe_serialize. rewrite H. cbn. destruct (p_restart _ _ _).
    - exists true. apply qcall_kinds; auto.
    - exists false. cbn. rewrite app_nil_r. reflexivity.
  Qed.
  Lemma output_running r : running (maybe_output p r) = running r.
  Proof. unfold maybe_output. destruct (_ && _); auto. apply qcall_running. Qed.
  Lemma serialize_running r : running (maybe_serialize p r) = running r.
  Proof. unfold maybe_serialize. destruct (_ && _); auto. apply qcall_running. Qed.
  Lemma output_epb r : r_epb (maybe_output p r) = r_epb r.
  Proof. unfold maybe_output. destruct (_ && _); auto. apply call_epb. Qed.
  Lemma serialize_epb r : r_epb (maybe_serialize p r) = r_epb r.
  Proof. unfold maybe_serialize. destruct (_ && _); auto. apply call_epb. Qed.
  Lemma with_sim_running f r : running (with_sim f r) = running r.
  Proof. unfold running. rewrite with_sim_out. reflexivity. Qed.
  Lemma with_epb_running b r : running (with_epb b r) = running r.
  Proof. unfold running. rewrite with_epb_out. reflexivity. Qed.
  Lemma with_sim_kinds f r : kinds (with_sim f r) = kinds r.
  Proof. unfold with_sim. destruct (running r); reflexivity. Qed.
  Lemma with_epb_kinds b r : kinds (with_epb b r) = kinds r.
  Proof. unfold with_epb. destruct (running r); reflexivity. Qed.
  Lemma with_epb_epb b r : running r = true -> r_epb (with_epb b r) = b.
  Proof. unfold with_epb. intros ->. reflexivity. Qed.
  Lemma with_sim_epb f r : r_epb (with_sim f r) = r_epb r.
  Proof. unfold with_sim. destruct (running r); reflexivity. Qed.

  Lemma finish_done r : running r = true -> r_out (finish p r) = Done /\ kinds (finish p r) = kinds r ++ [KFinalize].
  Proof.
    intros H. unfold finish, with_out. rewrite qcall_running, H. cbn.
    split; auto. apply qcall_kinds; auto.
  Qed.

  Definition cont (b : bool) (l : list kind) : Prop := if b then out_of_episode l else in_episode l \/ l = [KFinalize].

  Lemma do_step_kinds r : running r = true -> r_epb r = false ->
    running (do_step p r) = true /\
    exists o v, kinds (do_step p r) = kinds r ++ [KIntegrate; KEndStep] ++ optional o KWriteOutput ++ [KAdvance]
       ++ (if r_epb (do_step p r) then [KEndEpisode] else []) ++ optional v KSerialize.
  Proof.
    intros H Hb. unfold do_step.
    set (r1 := call p KEndStep (call p KIntegrate r)).
    assert (R1 : running r1 = true) by (unfold r1; rewrite !qcall_running; auto).
    assert (K1 : kinds r1 = kinds r ++ [KIntegrate; KEndStep]).
    { unfold r1. rewrite !qcall_kinds; auto; [rewrite <- app_assoc; reflexivity|rewrite qcall_running; auto]. }
    assert (B1 : r_epb r1 = false) by (unfold r1; rewrite !call_epb; auto).
    destruct (output_kinds r1 R1) as [o Ko]. set (r2 := maybe_output p r1) in *.
    assert (R2 : running r2 = true) by (unfold r2; rewrite output_running; auto).
    assert (B2 : r_epb r2 = false) by (unfold r2; rewrite output_epb; auto).
    set (r3 := advance_step p r2).
    assert (R3 : running r3 = true) by (unfold r3, advance_step; rewrite with_sim_running, qcall_running; auto).
    assert (B3 : r_epb r3 = false) by (unfold r3, advance_step; rewrite with_sim_epb, call_epb; auto).
    assert (K3 : kinds r3 = kinds r2 ++ [KAdvance]) by (unfold r3, advance_step; rewrite with_sim_kinds, qcall_kinds; auto).
    set (r4 := after_advance p r3).
    assert (H4 : running r4 = true /\ kinds r4 = kinds r3 ++ (if r_epb r4 then [KEndEpisode] else [])).
    { unfold r4, after_advance. destruct (episodeIsOver (r_sim r3)).
      - rewrite with_epb_running, qcall_running, with_epb_epb by (rewrite qcall_running; auto).
        rewrite with_epb_kinds, qcall_kinds; auto.
      - rewrite with_sim_running, with_sim_kinds, with_sim_epb, B3, app_nil_r; auto. }
    destruct H4 as [R4 K4]. rewrite serialize_running, serialize_epb. split; auto.
    destruct (serialize_kinds r4 R4) as [v Kv]. exists o, v.
    rewrite Kv, K4, K3, Ko, K1, <- !app_assoc. reflexivity.
  Qed.

  Definition GInv (L : list kind -> Prop) (r : rst) : Prop :=
    (running r = true -> forall l, cont (r_epb r) l -> L (kinds r ++ l)) /\
    (r_out r = Done -> L (kinds r)) /\ (r_out r = Running \/ r_out r = Done).

  Lemma GInv_fin (L : list kind -> Prop) r : running r = true -> L (kinds r ++ [KFinalize]) -> GInv L (finish p r).
  Proof.
    intros R' H'. destruct (finish_done r R') as [E1 E2]. split.
    - intros R. apply running_out in R. congruence.
    - rewrite E2. auto.
  Qed.

  Lemma GInv_begin_step (L : list kind -> Prop) r : running r = true ->
    (forall l, in_episode l -> L (kinds r ++ l)) -> GInv L (begin_step p r).
  Proof.
    intros R1 J1. unfold begin_step. set (r2 := call p KBeginStep (with_epb false r)).
    assert (R2 : running r2 = true) by (unfold r2; rewrite qcall_running, with_epb_running; auto).
    assert (K2 : kinds r2 = kinds r ++ [KBeginStep]).
    { unfold r2. rewrite qcall_kinds, with_epb_kinds; auto. rewrite with_epb_running; auto. }
    assert (B2 : r_epb r2 = false) by (unfold r2; rewrite call_epb, with_epb_epb; auto).
    unfold step_or_stop. destruct (finished (r_sim r2)) eqn:F2.
    { apply GInv_fin; [rewrite !qcall_running; auto|].
      rewrite !qcall_kinds, K2, <- !app_assoc by (try rewrite qcall_running; auto).
      apply J1. constructor. }
    destruct (do_step_kinds r2 R2 B2) as (R3 & o & v & K3).
    split; [|split; [intros H; apply running_out in R3; congruence | left; apply running_out; auto]].
    intros _ l Hl. rewrite K3, K2, <- !app_assoc.
    destruct (r_epb (do_step p r2)).
    - apply J1. pose proof (in_last_step o v l Hl) as X. unfold whole_step in X. rewrite <- !app_assoc in X. exact X.
    - apply J1. cbn in Hl. destruct Hl as [Hl| ->].
      + pose proof (in_step o v l Hl) as X. unfold whole_step in X. rewrite <- !app_assoc in X. exact X.
      + pose proof (in_end o v) as X. unfold whole_step in X. rewrite <- !app_assoc in X. exact X.
  Qed.

  Lemma GInv_iteration L r : GInv L r -> GInv L (iteration p r).
  Proof.
    intros (I1 & I2 & I3). unfold iteration. destruct (running r) eqn:Hr; cbn [negb].
    2: { split; auto. intros; congruence. }
    specialize (I1 eq_refl). 
    destruct (finished (r_sim r)) eqn:F0.
    { apply GInv_fin; auto. apply I1. destruct (r_epb r); cbn; auto using bt_end. }
    destruct (r_epb r) eqn:Eb.
    - set (r1 := call p KBeginEpisode r).
      assert (R1 : running r1 = true) by (unfold r1; rewrite qcall_running; auto).
      unfold begin_or_stop. destruct (finished (r_sim r1)).
      + apply GInv_fin; [rewrite qcall_running; auto|]. unfold r1.
        rewrite !qcall_kinds, <- !app_assoc by (try rewrite qcall_running; auto).
        apply I1. cbn. constructor.
      + apply GInv_begin_step; auto. intros l Hl. unfold r1.
        rewrite qcall_kinds, <- app_assoc by auto. apply I1. cbn. constructor; auto.
    - apply GInv_begin_step; auto. intros l Hl. apply I1. cbn; auto.
  Qed.

  Lemma GInv_iterate L n r : GInv L r -> GInv L (iterate p n r).
  Proof. revert r. induction n as [|n IH]; cbn; intros r H; auto. apply IH, GInv_iteration; auto. Qed.

  Lemma prologue_GInv restored s :
    (restored = None -> s_idx s = 0%Z) ->
    GInv (call_order (match restored with Some _ => true | None => false end)) (prologue p restored s).
  Proof.
    intros Hi. unfold prologue. destruct restored as [s'|].
    - set (r0 := with_sim _ _). assert (R0 : running r0 = true) by (unfold r0; rewrite with_sim_running; auto).
      set (r := call p KDeserialize r0).
      assert (R : running r = true) by (unfold r; rewrite qcall_running; auto).
      assert (K : kinds r = [KDeserialize]) by (unfold r; rewrite qcall_kinds; auto).
      split; [|split].
      + intros _ l Hl. rewrite with_epb_epb in Hl by auto. rewrite with_epb_kinds, K.
        destruct (_ || _); cbn in *.
        * apply co_resumed_between; auto.
        * apply co_resumed_inside; auto.
      + rewrite with_epb_out. intros H. apply running_out in R. congruence.
      + left. rewrite with_epb_out. apply running_out; auto.
    - specialize (Hi eq_refl). set (r0 := with_sim (fun s => set_idx (-1) (set_dt 0 s)) _). assert (R0 : running r0 = true) by (unfold r0; rewrite with_sim_running; auto).
      set (r1 := call p KInitial r0).
      assert (R1 : running r1 = true) by (unfold r1; rewrite qcall_running; auto).
      assert (K1 : kinds r1 = [KInitial]) by (unfold r1; rewrite qcall_kinds; auto).
      destruct (output_kinds r1 R1) as [o Ko]. set (r2 := maybe_output p r1) in *.
      assert (R2 : running r2 = true) by (unfold r2; rewrite output_running; auto).
      set (r3 := with_sim (fun a => set_idx (s_idx s) (set_dt (s_dt s) a)) r2).
      assert (R3 : running r3 = true) by (unfold r3; rewrite with_sim_running; auto).
      assert (I3 : s_idx (r_sim r3) = 0%Z) by (unfold r3, with_sim; rewrite R2; cbn; auto).
      rewrite I3. cbn [Z.eqb]. rewrite orb_true_r.
      split; [|split].
      + intros _ l Hl. rewrite with_epb_epb in Hl by auto. rewrite with_epb_kinds. unfold r3.
        rewrite with_sim_kinds, Ko, K1, <- app_assoc. apply (co_new o l Hl).
      + rewrite with_epb_out. intros H. apply running_out in R3. congruence.
      + left. rewrite with_epb_out. apply running_out; auto.
  Qed.
End Order.

(** ** Throwing call-backs only cut the run short *)
Definition silenced (p : problem) : problem :=
  mkProblem (fun k s h => (fst (p_call p k s h), false)) (p_output p) (p_restart p) (p_next p).

Lemma silenced_quiet p : quiet (silenced p).
Proof. intros k s h. reflexivity. Qed.

Definition ext (r r' : rst) : Prop := exists x, r_hist r' = x ++ r_hist r.
Lemma ext_refl r : ext r r. Proof. exists []. reflexivity. Qed.
Lemma ext_trans a b c : ext a b -> ext b c -> ext a c.
Proof. intros [x E] [y F]. exists (y ++ x). rewrite F, E, app_assoc. reflexivity. Qed.

Definition good (f f' : rst -> rst) : Prop :=
  (forall r, running r = false -> f r = r) /\ (forall r, ext r (f' r)) /\
  (forall r, (running (f r) = true \/ r_out (f r) = Done -> f r = f' r) /\ ext (f r) (f' r)).

Lemma good_comp f f' g g' : (forall r, r_out r = Done -> g' r = r) -> good f f' -> good g g' -> good (fun r => g (f r)) (fun r => g' (f' r)).
Proof.
  intros D (F1 & F2 & F3) (G1 & G2 & G3). split; [|split].
  - intros r H. rewrite (F1 r H). apply G1; auto.
  - intros r. eapply ext_trans; [apply F2|apply G2].
  - intros r. destruct (F3 r) as [A1 A2]. destruct (running (f r)) eqn:E.
    + rewrite <- (A1 (or_introl eq_refl)). apply G3.
    + rewrite (G1 _ E). split.
      * intros [H|H]; [congruence|]. rewrite <- (A1 (or_intror H)). symmetry. auto.
      * eapply ext_trans; [apply A2|apply G2].
Qed.

Lemma good_if (c : rst -> bool) f f' g g' : good f f' -> good g g' ->
  good (fun r => if c r then f r else g r) (fun r => if c r then f' r else g' r).
Proof.
  intros (F1 & F2 & F3) (G1 & G2 & G3). split; [|split]; intros r; destruct (c r); auto.
Qed.

Lemma good_id : good (fun r => r) (fun r => r).
Proof. split; [|split]; auto using ext_refl. Qed.

Lemma good_epb b : good (with_epb b) (with_epb b).
Proof.
  split; [|split].
  - intros r H. unfold with_epb. rewrite H. reflexivity.
  - intros r. unfold with_epb. destruct (running r); exists []; reflexivity.
  - intros r. split; auto using ext_refl.
Qed.
Lemma good_out o : good (with_out o) (with_out o).
Proof.
  split; [|split].
  - intros r H. unfold with_out. rewrite H. reflexivity.
  - intros r. unfold with_out. destruct (running r); exists []; reflexivity.
  - intros r. split; auto using ext_refl.
Qed.

Section Silence.
  Variable p : problem.
  Let p' := silenced p.

  Lemma scall k r : running r = true ->
    call p' k r = mkRst (exec_all (fst (p_call p k (r_sim r) (r_hist r))) (r_sim r)) (mkEvent k (r_sim r) :: r_hist r) (r_epb r) Running.
  Proof. intros H. unfold call, p'. rewrite H. reflexivity. Qed.

  Lemma done_not_running r : r_out r = Done -> running r = false.
  Proof. unfold running. intros ->. reflexivity. Qed.

  Lemma good_call k : good (call p k) (call p' k).
  Proof.
    split; [|split].
    - apply call_dead.
    - intros r. destruct (running r) eqn:H; [rewrite (scall _ _ H); exists [mkEvent k (r_sim r)]; reflexivity|].
      rewrite call_dead by auto. apply ext_refl.
    - intros r. destruct (running r) eqn:H.
      2: { rewrite !call_dead by auto. split; auto using ext_refl. }
      rewrite (scall _ _ H). unfold call. rewrite H. destruct (p_call _ _ _ _) as [cs t]. cbn.
      destruct t; cbn; split; try (exists []; reflexivity); try reflexivity.
      intros [F|F]; exfalso; revert F; unfold running; cbn; destruct k; congruence.
  Qed.

  Lemma good_finish : good (finish p) (finish p').
  Proof.
    unfold finish. refine (good_comp _ _ _ _ _ (good_call KFinalize) (good_out Done)).
    intros r H. unfold with_out. rewrite (done_not_running _ H). reflexivity.
  Qed.

  Lemma call_done k r : r_out r = Done -> call p' k r = r.
  Proof. intros H. apply call_dead, done_not_running; auto. Qed.

  Lemma good_output : good (maybe_output p) (maybe_output p').
  Proof.
    unfold maybe_output. apply (good_if (fun r => running r && p_output p (r_sim r) (r_hist r))).
    - apply good_call.
    - apply good_id.
  Qed.
  Lemma good_serialize : good (maybe_serialize p) (maybe_serialize p').
  Proof.
    unfold maybe_serialize. apply (good_if (fun r => running r && p_restart p (r_sim r) (r_hist r))).
    - apply good_call.
    - apply good_id.
  Qed.

  Lemma good_advance : good (advance_step p) (advance_step p').
  Proof.
    unfold advance_step.
    destruct (good_call KAdvance) as (C1 & C2 & C3). split; [|split].
    - intros r H. rewrite (C1 r H). unfold with_sim. rewrite H. reflexivity.
    - intros r. destruct (C2 r) as [x E]. exists x. rewrite <- E. unfold with_sim. destruct (running _); reflexivity.
    - intros r. destruct (C3 r) as [E1 [x E2]]. split.
      + rewrite with_sim_running, with_sim_out. intros H. rewrite (E1 H). reflexivity.
      + exists x. unfold with_sim. destruct (running (call p' KAdvance r)), (running (call p KAdvance r)); auto.
  Qed.

  Lemma good_choose : good (fun r => with_sim (fun s => set_dt (choose_dt p (r_hist r) s) s) r)
                           (fun r => with_sim (fun s => set_dt (choose_dt p' (r_hist r) s) s) r).
  Proof.
    split; [|split].
    - intros r H. unfold with_sim. rewrite H. reflexivity.
    - intros r. unfold with_sim. destruct (running r); exists []; reflexivity.
    - intros r. split; [reflexivity|]. unfold with_sim. destruct (running r); exists []; reflexivity.
  Qed.

  Lemma output_done r : r_out r = Done -> maybe_output p' r = r.
  Proof. intros H. unfold maybe_output. rewrite (done_not_running _ H). reflexivity. Qed.
  Lemma serialize_done r : r_out r = Done -> maybe_serialize p' r = r.
  Proof. intros H. unfold maybe_serialize. rewrite (done_not_running _ H). reflexivity. Qed.
  Lemma finish_done_id r : r_out r = Done -> finish p' r = r.
  Proof. intros H. unfold finish. rewrite call_done by auto. unfold with_out. rewrite (done_not_running _ H). reflexivity. Qed.
  Lemma with_sim_done f r : r_out r = Done -> with_sim f r = r.
  Proof. intros H. unfold with_sim. rewrite (done_not_running _ H). reflexivity. Qed.
  Lemma with_epb_done f r : r_out r = Done -> with_epb f r = r.
  Proof. intros H. unfold with_epb. rewrite (done_not_running _ H). reflexivity. Qed.

  Lemma good_after : good (after_advance p) (after_advance p').
  Proof.
    unfold after_advance. apply (good_if (fun r => episodeIsOver (r_sim r))).
    - exact (good_comp _ _ _ _ (with_epb_done true) (good_call KEndEpisode) (good_epb true)).
    - apply good_choose.
  Qed.

  Lemma after_done r : r_out r = Done -> after_advance p' r = r.
  Proof.
    intros H. unfold after_advance. destruct (episodeIsOver _).
    - rewrite call_done, with_epb_done; auto.
    - apply with_sim_done; auto.
  Qed.

  Lemma advance_done r : r_out r = Done -> advance_step p' r = r.
  Proof. intros H. unfold advance_step. rewrite call_done by auto. apply with_sim_done; auto. Qed.

  Lemma good_do_step : good (do_step p) (do_step p').
  Proof.
    unfold do_step.
    pose proof (good_comp _ _ _ _ (call_done KEndStep) (good_call KIntegrate) (good_call KEndStep)) as G1.
    pose proof (good_comp _ _ _ _ output_done G1 good_output) as G2.
    pose proof (good_comp _ _ _ _ advance_done G2 good_advance) as G3.
    pose proof (good_comp _ _ _ _ after_done G3 good_after) as G4.
    exact (good_comp _ _ _ _ serialize_done G4 good_serialize).
  Qed.

  Lemma do_step_done r : r_out r = Done -> do_step p' r = r.
  Proof.
    intros H. unfold do_step. rewrite (call_done KIntegrate) by auto. rewrite (call_done KEndStep) by auto.
    rewrite output_done by auto. rewrite advance_done, after_done by auto. apply serialize_done; auto.
  Qed.

  Lemma step_or_stop_done r : r_out r = Done -> step_or_stop p' r = r.
  Proof.
    intros H. unfold step_or_stop. destruct (finished _).
    - rewrite (call_done KEndStep), (call_done KEndEpisode), finish_done_id; auto.
    - apply do_step_done; auto.
  Qed.
  Lemma begin_step_done r : r_out r = Done -> begin_step p' r = r.
  Proof. intros H. unfold begin_step. rewrite with_epb_done, call_done by auto. apply step_or_stop_done; auto. Qed.
  Lemma begin_or_stop_done r : r_out r = Done -> begin_or_stop p' r = r.
  Proof.
    intros H. unfold begin_or_stop. destruct (finished _); [|apply begin_step_done; auto].
    rewrite call_done by auto. apply finish_done_id; auto.
  Qed.

  Lemma good_step_or_stop : good (step_or_stop p) (step_or_stop p').
  Proof.
    unfold step_or_stop. apply (good_if (fun r => finished (r_sim r))).
    - pose proof (good_comp _ _ _ _ (call_done KEndEpisode) (good_call KEndStep) (good_call KEndEpisode)) as G1.
      exact (good_comp _ _ _ _ finish_done_id G1 good_finish).
    - apply good_do_step.
  Qed.
  Lemma good_begin_step : good (begin_step p) (begin_step p').
  Proof.
    unfold begin_step.
    pose proof (good_comp _ _ _ _ (call_done KBeginStep) (good_epb false) (good_call KBeginStep)) as G1.
    exact (good_comp _ _ _ _ step_or_stop_done G1 good_step_or_stop).
  Qed.
  Lemma good_begin_or_stop : good (begin_or_stop p) (begin_or_stop p').
  Proof.
    unfold begin_or_stop. apply (good_if (fun r => finished (r_sim r))); auto using good_begin_step.
    exact (good_comp _ _ _ _ finish_done_id (good_call KEndEpisode) good_finish).
  Qed.

  Lemma good_iteration : good (iteration p) (iteration p').
  Proof.
    unfold iteration.
    apply (good_if (fun r => negb (running r))); [apply good_id|].
    apply (good_if (fun r => finished (r_sim r))); [apply good_finish|].
    apply (good_if r_epb); [|apply good_begin_step].
    exact (good_comp _ _ _ _ begin_or_stop_done (good_call KBeginEpisode) good_begin_or_stop).
  Qed.

  Lemma iteration_done r : r_out r = Done -> iteration p' r = r.
  Proof. intros H. unfold iteration. rewrite (done_not_running _ H). reflexivity. Qed.
  Lemma iterate_done n r : r_out r = Done -> iterate p' n r = r.
  Proof. revert r. induction n as [|n IH]; cbn; intros r H; auto. rewrite iteration_done by auto. apply IH; auto. Qed.

  Lemma good_iterate n : good (iterate p n) (iterate p' n).
  Proof.
    induction n as [|n IH]; [apply good_id|].
    exact (good_comp _ _ _ _ (iterate_done n) good_iteration IH).
  Qed.

  Definition pro_start (restored : option sim) (s : sim) : rst :=
    with_sim (fun s0 => match restored with Some s' => s' | None => set_idx (-1) (set_dt 0 s0) end) (mkRst s [] false Running).

  Lemma prologue_ahead restored s :
    (running (prologue p restored s) = true -> prologue p restored s = prologue p' restored s) /\
    ext (prologue p restored s) (prologue p' restored s).
  Proof.
    assert (G : good (fun r => with_epb (episodeIsOver (r_sim r) || (s_idx (r_sim r) =? 0)%Z) r)
                     (fun r => with_epb (episodeIsOver (r_sim r) || (s_idx (r_sim r) =? 0)%Z) r)).
    { split; [|split].
      - intros r H. unfold with_epb. rewrite H. reflexivity.
      - intros r. unfold with_epb. destruct (running r); exists []; reflexivity.
      - intros r. split; auto using ext_refl. }
    destruct restored as [s'|].
    - pose proof (good_comp _ _ _ _ (fun r H => with_epb_done _ _ H) (good_call KDeserialize) G) as (_ & _ & H).
      destruct (H (with_sim (fun _ => s') (mkRst s [] false Running))) as [H1 H2]. split; [|exact H2].
      intros R. apply H1. left. exact R.
    - assert (GS : good (with_sim (fun a => set_idx (s_idx s) (set_dt (s_dt s) a))) (with_sim (fun a => set_idx (s_idx s) (set_dt (s_dt s) a)))).
      { split; [|split].
        - intros r H. unfold with_sim. rewrite H. reflexivity.
        - intros r. unfold with_sim. destruct (running r); exists []; reflexivity.
        - intros r. split; auto using ext_refl. }
      pose proof (good_comp _ _ _ _ output_done (good_call KInitial) good_output) as G1.
      pose proof (good_comp _ _ _ _ (with_sim_done _) G1 GS) as G2.
      pose proof (good_comp _ _ _ _ (fun r H => with_epb_done _ _ H) G2 G) as (_ & _ & H).
      destruct (H (with_sim (fun s0 => set_idx (-1) (set_dt 0 s0)) (mkRst s [] false Running))) as [H1 H2]. split; [|exact H2].
      intros R. apply H1. left. exact R.
  Qed.

  Lemma run_ahead restored s n :
    (running (run p restored s n) = true \/ r_out (run p restored s n) = Done ->
      run p restored s n = run p' restored s n) /\
    ext (run p restored s n) (run p' restored s n).
  Proof.
    unfold run. destruct (prologue_ahead restored s) as [P1 P2].
    destruct (good_iterate n) as (I1 & I2 & I3).
    destruct (running (prologue p restored s)) eqn:E.
    - rewrite (P1 eq_refl). apply I3.
    - rewrite (I1 _ E). split.
      + intros [H|H]; [congruence|]. exfalso. exact (prologue_not_done p restored s H).
      + eapply ext_trans; [apply P2|apply I2].
  Qed.
End Silence.

Lemma calls_in_order p restored s n : (restored = None -> s_idx s = 0%Z) ->
  let resumed := match restored with Some _ => true | None => false end in
  (r_out (run p restored s n) = Done -> call_order resumed (kinds (run p restored s n))) /\
  exists rest, call_order resumed (kinds (run p restored s n) ++ rest).
Proof.
  intros Hi resumed. destruct (run_ahead p restored s n) as [A1 [x A2]].
  pose proof (prologue_GInv (silenced p) (silenced_quiet p) restored s Hi) as G.
  apply (GInv_iterate _ (silenced_quiet p) _ n) in G. fold (run (silenced p) restored s n) in G.
  destruct G as (G1 & G2 & G3). fold resumed in G1, G2. split.
  - intros H. pose proof (A1 (or_intror H)) as E. rewrite E. apply G2. rewrite <- E. exact H.
  - set (r := run p restored s n) in *. set (r' := run (silenced p) restored s n) in *.
    assert (E : kinds r' = kinds r ++ map e_kind (rev x)).
    { unfold kinds, history. rewrite A2, rev_app_distr, map_app. reflexivity. }
    destruct G3 as [G3|G3].
    + exists (map e_kind (rev x) ++ [KFinalize]). rewrite app_assoc, <- E. apply G1; [apply running_out; auto|].
      destruct (r_epb r'); cbn; auto using bt_end.
    + exists (map e_kind (rev x)). rewrite <- E. auto.
Qed.

(** * Limits of the time step size *)
Lemma max_step_nonneg s : 0 <= maxTimeStepSize s.
Proof.
  unfold maxTimeStepSize, episodeMaxTimeStepSize. destruct (finished s); [lra|].
  destruct (episodeIsOver s).
  - destruct (max_cases 0 (s_end s - s_time s)) as [[E1 ?]|[E1 ?]];
    destruct (min_cases 0 (Qmax 0 (s_end s - s_time s))) as [[E2 ?]|[E2 ?]]; rewrite E2; try rewrite E1; lra.
  - set (x := s_epstart s + s_eplen s - (s_time s + s_start s)). 
    destruct (max_cases 0 (s_end s - s_time s)) as [[E1 ?]|[E1 ?]];
    destruct (max_cases 0 x) as [[E3 ?]|[E3 ?]];
    destruct (min_cases (Qmax 0 x) (Qmax 0 (s_end s - s_time s))) as [[E2 ?]|[E2 ?]]; rewrite E2; try rewrite E1; try rewrite E3; lra.
Qed.

Lemma episode_max_le s : s_time s + episodeMaxTimeStepSize s <= Qmax (s_time s) (end_of_episode s).
Proof.
  unfold episodeMaxTimeStepSize, end_of_episode. set (e := s_epstart s + s_eplen s - s_start s).
  destruct (max_cases (s_time s) e) as [[E ?]|[E ?]]; rewrite E.
  all: destruct (episodeIsOver s); try lra.
  all: destruct (max_cases 0 (s_epstart s + s_eplen s - (s_time s + s_start s))) as [[F ?]|[F ?]]; rewrite F; unfold e in *; lra.
Qed.

Lemma max_step_le s :
  s_time s + maxTimeStepSize s <= Qmax (s_time s) (s_end s) /\
  s_time s + maxTimeStepSize s <= Qmax (s_time s) (end_of_episode s).
Proof.
  pose proof (episode_max_le s) as He.
  pose proof (Q.le_max_l (s_time s) (s_end s)) as L1.
  pose proof (Q.le_max_l (s_time s) (end_of_episode s)) as L2.
  pose proof (Q.le_max_r (s_time s) (s_end s)) as L3.
  unfold maxTimeStepSize. destruct (finished s); [split; lra|].
  destruct (min_cases (episodeMaxTimeStepSize s) (Qmax 0 (s_end s - s_time s))) as [[E ?]|[E ?]]; rewrite E;
  destruct (max_cases 0 (s_end s - s_time s)) as [[F ?]|[F ?]]; rewrite F in *; split; lra.
Qed.

Lemma eps3_small : 0 < eps3 /\ eps3 < 1.
Proof. split; reflexivity. Qed.

Lemma Qmult_nonneg a b : 0 <= a -> 0 <= b -> 0 <= a * b.
Proof. intros. setoid_replace 0 with (0 * b) by ring. apply Qmult_le_compat_r; auto. Qed.

Lemma eps_nonneg s : 0 <= Qmax (Qabs (s_time s)) (s_dt s) * eps3.
Proof.
  apply Qmult_nonneg; [|destruct eps3_small; lra].
  pose proof (Q.le_max_l (Qabs (s_time s)) (s_dt s)). pose proof (Qabs_nonneg (s_time s)). lra.
Qed.

Lemma past_end_finished s : 0 <= s_time s -> s_end s <= s_time s -> finished s = true.
Proof.
  intros H0 H. unfold finished. pose proof (eps_nonneg s) as He. set (e := Qmax _ _ * eps3) in *.
  apply orb_true_iff. right. apply Qle_bool_iff.
  pose proof (Qmult_nonneg _ _ H0 He) as P. assert (s_time s * (1 + e) == s_time s + s_time s * e) as -> by ring. lra.
Qed.

Lemma not_finished_lt s : 0 <= s_time s -> finished s = false -> s_time s < s_end s.
Proof.
  intros H0 H. apply Qnot_le_lt. intros L. rewrite (past_end_finished s H0 L) in H. congruence.
Qed.

Lemma not_over_lt s : 0 <= s_time s -> episodeIsOver s = false -> s_time s < end_of_episode s.
Proof.
  intros H0 H. unfold episodeIsOver in H. apply Qleb_f in H. unfold end_of_episode.
  set (e := s_epstart s - s_start s + s_eplen s) in *.
  assert (E : s_epstart s + s_eplen s - s_start s == e) by (unfold e; ring). rewrite E.
  destruct eps3_small as [P1 P2].
  assert (Hp : 0 < e).
  { apply Qnot_le_lt. intros L. 
    assert (0 <= (- e) * (1 - eps3)) by (apply Qmult_nonneg; lra).
    assert (e * (1 - eps3) == - (- e * (1 - eps3))) by ring. lra. }
  assert (0 <= e * eps3) by (apply Qmult_nonneg; lra).
  assert (e * (1 - eps3) == e - e * eps3) by ring. lra.
Qed.

Lemma max_step_pos s : 0 <= s_time s -> finished s = false -> episodeIsOver s = false -> 0 < maxTimeStepSize s.
Proof.
  intros H0 Hf Ho. pose proof (not_finished_lt s H0 Hf) as L1. pose proof (not_over_lt s H0 Ho) as L2.
  unfold maxTimeStepSize, episodeMaxTimeStepSize. rewrite Hf, Ho. unfold end_of_episode in L2.
  set (x := s_epstart s + s_eplen s - (s_time s + s_start s)). 
  assert (0 < x) by (unfold x; lra).
  destruct (max_cases 0 (s_end s - s_time s)) as [[E1 ?]|[E1 ?]];
  destruct (max_cases 0 x) as [[E3 ?]|[E3 ?]];
  destruct (min_cases (Qmax 0 x) (Qmax 0 (s_end s - s_time s))) as [[E2 ?]|[E2 ?]]; rewrite E2; try rewrite E1; try rewrite E3; lra.
Qed.

(** How much too early [finished] may answer yes. *)
Lemma finished_tolerance s : finished s = true -> s_fin s = false ->
  s_end s - s_time s <= s_time s * (Qmax (Qabs (s_time s)) (s_dt s) * eps3).
Proof.
  unfold finished. intros H Hf. rewrite Hf in H. cbn in H. apply Qleb_t in H.
  set (e := Qmax _ _ * eps3) in *. assert (s_time s * (1 + e) == s_time s + s_time s * e) as E by ring. lra.
Qed.

(** * Termination *)
Section Term.
  Variables (p : problem) (restored : option sim) (s0 : sim) (delta E : Q).
  Hypothesis LC : leaves_clock_alone p.
  Hypothesis HE : forall k s h e, In (SetEndTime e) (fst (p_call p k s h)) -> e <= E.
  Let start := match restored with Some s' => s' | None => s0 end.
  Hypothesis HE0 : s_end start <= E.
  Hypothesis Hd : 0 < delta.
  Hypothesis Hstep : forall n e, In e (r_hist (run p restored s0 n)) -> e_kind e = KAdvance -> delta <= s_dt (e_sim e).

  Lemma exec_end k s h : s_end s <= E -> s_end (exec_all (fst (p_call p k s h)) s) <= E.
  Proof.
    pose proof (HE k s h) as H. revert H. generalize (fst (p_call p k s h)) as cs.
    intros cs. revert s. unfold exec_all. induction cs as [|c cs IH]; cbn; intros s H L; auto.
    apply IH; [intros; apply H; auto|]. destruct s; destruct c; cbn in *; auto.
  Qed.

  Definition EInv (r : rst) : Prop := s_end (r_sim r) <= E.
  Lemma EInv_call k r : EInv r -> EInv (call p k r).
  Proof.
    intros H. destruct (running r) eqn:R; [|rewrite call_dead; auto].
    unfold EInv. rewrite call_sim by auto. apply exec_end; auto.
  Qed.
  Lemma EInv_sim f r : (forall s, s_end (f s) = s_end s) -> EInv r -> EInv (with_sim f r).
  Proof. intros Hf H. unfold with_sim. destruct (running r); auto. unfold EInv. cbn. rewrite Hf. auto. Qed.
  Lemma EInv_epb b r : EInv r -> EInv (with_epb b r).
  Proof. intros H. unfold with_epb. destruct (running r); auto. Qed.
  Lemma EInv_finish r : EInv r -> EInv (finish p r).
  Proof. intros H. apply (EInv_call KFinalize) in H. unfold finish, with_out. destruct (running _); auto. Qed.
  Lemma EInv_output r : EInv r -> EInv (maybe_output p r).
  Proof. intros H. unfold maybe_output. destruct (_ && _); auto. apply EInv_call; auto. Qed.
  Lemma EInv_serialize r : EInv r -> EInv (maybe_serialize p r).
  Proof. intros H. unfold maybe_serialize. destruct (_ && _); auto. apply EInv_call; auto. Qed.
  Lemma EInv_do_step r : EInv r -> EInv (do_step p r).
  Proof.
    intros H. unfold do_step, after_advance, advance_step. apply EInv_serialize. destruct (episodeIsOver _).
    - apply EInv_epb, EInv_call, EInv_sim; [reflexivity|]. apply EInv_call, EInv_output, EInv_call, EInv_call; auto.
    - apply EInv_sim; [reflexivity|]. apply EInv_sim; [reflexivity|]. apply EInv_call, EInv_output, EInv_call, EInv_call; auto.
  Qed.
  Lemma EInv_iteration r : EInv r -> EInv (iteration p r).
  Proof.
    intros H. unfold iteration. destruct (negb _); auto. destruct (finished _); [apply EInv_finish; auto|].
    assert (H1 : forall r, EInv r -> EInv (begin_step p r)).
    { intros r' H'. unfold begin_step, step_or_stop. destruct (finished _).
      - apply EInv_finish, EInv_call, EInv_call, EInv_call, EInv_epb; auto.
      - apply EInv_do_step, EInv_call, EInv_epb; auto. }
    destruct (r_epb r); auto. unfold begin_or_stop. destruct (finished _).
    - apply EInv_finish, EInv_call, EInv_call; auto.
    - apply H1, EInv_call; auto.
  Qed.

  (** An iteration which does not leave the loop completes exactly one step. *)
  Lemma completed_call k r : k <> KAdvance -> completed (r_hist (call p k r)) = completed (r_hist r).
  Proof.
    intros Hk. destruct (running r) eqn:R; [|rewrite call_dead; auto]. rewrite call_hist by auto.
    cbn. destruct k; auto. congruence.
  Qed.
  Lemma completed_output r : completed (r_hist (maybe_output p r)) = completed (r_hist r).
  Proof. unfold maybe_output. destruct (_ && _); auto. apply completed_call; congruence. Qed.
  Lemma completed_serialize r : completed (r_hist (maybe_serialize p r)) = completed (r_hist r).
  Proof. unfold maybe_serialize. destruct (_ && _); auto. apply completed_call; congruence. Qed.
  Lemma hist_with_sim f r : r_hist (with_sim f r) = r_hist r.
  Proof. unfold with_sim. destruct (running r); auto. Qed.
  Lemma hist_with_epb b r : r_hist (with_epb b r) = r_hist r.
  Proof. unfold with_epb. destruct (running r); auto. Qed.
  Lemma serialize_running_inv r : running (maybe_serialize p r) = true -> running r = true.
  Proof. unfold maybe_serialize. destruct (running r) eqn:R; cbn; auto; congruence. Qed.
  Lemma output_running_inv r : running (maybe_output p r) = true -> running r = true.
  Proof. unfold maybe_output. destruct (running r) eqn:R; cbn; auto; congruence. Qed.

  Lemma advance_running_inv r : running (advance_step p r) = true -> running r = true.
  Proof. unfold advance_step. rewrite with_sim_running. apply call_running. Qed.
  Lemma completed_cons e h : length (completed (e :: h)) =
    (length (match e_kind e with KAdvance => [s_dt (e_sim e)] | _ => [] end) + length (completed h))%nat.
  Proof. apply app_length. Qed.
  Lemma completed_advance r : running r = true ->
    length (completed (r_hist (advance_step p r))) = S (length (completed (r_hist r))).
  Proof.
    intros R. unfold advance_step. rewrite hist_with_sim, call_hist by exact R.
    rewrite completed_cons. reflexivity.
  Qed.
  Lemma after_running_inv r : running (after_advance p r) = true -> running r = true.
  Proof.
    unfold after_advance. destruct (episodeIsOver (r_sim r)).
    - rewrite with_epb_running. apply call_running.
    - rewrite with_sim_running. auto.
  Qed.
  Lemma completed_after r : completed (r_hist (after_advance p r)) = completed (r_hist r).
  Proof.
    unfold after_advance. destruct (episodeIsOver (r_sim r)).
    - rewrite hist_with_epb. apply completed_call. congruence.
    - rewrite hist_with_sim. reflexivity.
  Qed.

  Lemma chain_completes r0 r :
    r0 = maybe_serialize p (after_advance p (advance_step p r)) -> running r0 = true ->
    length (completed (r_hist r0)) = S (length (completed (r_hist r))).
  Proof.
    intros -> R. apply serialize_running_inv, after_running_inv, advance_running_inv in R.
    rewrite completed_serialize, completed_after, (completed_advance _ R). reflexivity.
  Qed.

  Lemma do_step_unfold r : do_step p r =
    maybe_serialize p (after_advance p (advance_step p (maybe_output p (call p KEndStep (call p KIntegrate r))))).
  Proof. reflexivity. Qed.

  Lemma do_step_running_completes r : running (do_step p r) = true ->
    length (completed (r_hist (do_step p r))) = S (length (completed (r_hist r))).
  Proof.
    intros R. rewrite (chain_completes _ _ (do_step_unfold r) R).
    rewrite completed_output, !completed_call by congruence. reflexivity.
  Qed.

  Lemma finish_not_running r : running (finish p r) = false.
  Proof.
    unfold finish, with_out. destruct (running (call p KFinalize r)) eqn:R; auto.
  Qed.

  Lemma iteration_running r : running (iteration p r) = true ->
    running r = true /\ finished (r_sim r) = false /\
    length (completed (r_hist (iteration p r))) = S (length (completed (r_hist r))).
  Proof.
    unfold iteration. destruct (running r) eqn:R; cbn [negb]; [|congruence].
    destruct (finished (r_sim r)); [rewrite finish_not_running; congruence|].
    assert (H1 : forall r, running (begin_step p r) = true -> 
       length (completed (r_hist (begin_step p r))) = S (length (completed (r_hist r)))).
    { intros r'. unfold begin_step, step_or_stop. destruct (finished _); [rewrite finish_not_running; congruence|].
      intros H. rewrite do_step_running_completes by auto. rewrite completed_call by congruence.
      rewrite hist_with_epb. reflexivity. }
    destruct (r_epb r); intros H; (split; [auto|split; auto]).
    unfold begin_or_stop in *. destruct (finished _); [rewrite finish_not_running in H; congruence|].
    rewrite H1 by auto. rewrite completed_call; auto. congruence.
  Qed.

  Lemma iterate_S n r : iterate p (S n) r = iteration p (iterate p n r).
  Proof. revert r. induction n as [|n IH]; intros r; auto. cbn [iterate] in *. rewrite <- IH. reflexivity. Qed.

  Lemma run_S n : run p restored s0 (S n) = iteration p (run p restored s0 n).
  Proof. apply iterate_S. Qed.

  Lemma EInv_run n : EInv (run p restored s0 n).
  Proof.
    induction n as [|n IH]; [|rewrite run_S; apply EInv_iteration; auto].
    unfold run. cbn [iterate]. unfold prologue. apply EInv_epb. unfold start in HE0. destruct restored.
    - apply EInv_call. unfold EInv. cbn. auto.
    - apply EInv_sim; [reflexivity|]. apply EInv_output, EInv_call. unfold EInv. cbn. auto.
  Qed.

  Lemma completed_none l : ~ In KAdvance (map e_kind l) -> completed l = [].
  Proof.
    induction l as [|[k x] l IHl]; cbn; auto. intros H. fold (completed l). rewrite IHl by tauto.
    destruct k; auto. tauto.
  Qed.

  Lemma running_completed n : running (run p restored s0 n) = true ->
    length (completed (r_hist (run p restored s0 n))) = n.
  Proof.
    clear Hstep HE0 start.
    induction n as [|n IH].
    - intros _. destruct (prologue_hist p restored s0) as [(pro & Ep & K) _]. cbn [run iterate]. unfold run. cbn [iterate].
      rewrite Ep, completed_rev_len. 
      rewrite completed_none; auto. destruct restored; [rewrite K|destruct K as [K|K]; rewrite K]; cbn; intuition congruence.
    - rewrite run_S. intros H. destruct (iteration_running _ H) as (R & _ & C). rewrite C, (IH R). reflexivity.
  Qed.

  Lemma qsum_lower l : (forall x, In x l -> delta <= x) -> inject_Z (Z.of_nat (length l)) * delta <= qsum l.
  Proof.
    induction l as [|x l IH]; intros H.
    - change (0 * delta <= 0). lra.
    - cbn [qsum length]. rewrite Nat2Z.inj_succ. unfold Z.succ. rewrite inject_Z_plus.
      assert (inject_Z (Z.of_nat (length l)) * delta <= qsum l) by (apply IH; intros; apply H; right; auto).
      pose proof (H x (or_introl eq_refl)). 
      setoid_replace ((inject_Z (Z.of_nat (length l)) + inject_Z 1) * delta) with (inject_Z (Z.of_nat (length l)) * delta + delta) by (unfold inject_Z; ring). lra.
  Qed.

  Lemma run_time_lower n : running (run p restored s0 n) = true ->
    s_time start + inject_Z (Z.of_nat n) * delta <= s_time (r_sim (run p restored s0 n)).
  Proof.
    intros R. destruct (time_and_index p restored s0 n LC) as (pro & rest & Eh & K & _ & T).
    fold start in T. set (r := run p restored s0 n) in *.
    destruct T as [T _]; [left; apply running_out; auto|]. rewrite T.
    assert (Cp : completed pro = []).
    { apply completed_none. destruct restored; [rewrite K|destruct K as [K|K]; rewrite K]; cbn; intuition congruence. }
    assert (Cl : length (completed rest) = n).
    { rewrite <- (running_completed n R). fold r. rewrite <- (completed_rev_len (r_hist r)). fold (history r).
      rewrite Eh, completed_app, Cp. reflexivity. }
    assert (L : inject_Z (Z.of_nat (length (completed rest))) * delta <= qsum (completed rest)).
    { apply qsum_lower. intros x Hx. unfold completed in Hx. apply in_flat_map in Hx. destruct Hx as (e & He & Hx).
      destruct (e_kind e) eqn:Ek; cbn in Hx; try contradiction. destruct Hx as [<-|[]].
      apply (Hstep n e); auto. fold r. rewrite in_rev. fold (history r). rewrite Eh. apply in_or_app; auto. }
    rewrite Cl in L. lra.
  Qed.

  Lemma terminates n : Qmax 0 E - s_time start <= inject_Z (Z.of_nat n) * delta ->
    r_out (run p restored s0 (S n)) <> Running.
  Proof.
    intros H F. apply running_out in F. rewrite run_S in F. destruct (iteration_running _ F) as (R & NF & _).
    pose proof (run_time_lower n R) as L. pose proof (EInv_run n) as HEn. unfold EInv in HEn.
    pose proof (Q.le_max_l 0 E). pose proof (Q.le_max_r 0 E).
    rewrite past_end_finished in NF; [congruence| |]; lra.
  Qed.

  Lemma steps_bounded n : running (run p restored s0 n) = true -> (n <> 0)%nat ->
    inject_Z (Z.of_nat n - 1) * delta < Qmax 0 E - s_time start.
  Proof.
    intros R Hn. destruct n as [|n]; [congruence|]. 
    replace (Z.of_nat (S n) - 1)%Z with (Z.of_nat n) by lia.
    apply Qnot_le_lt. intros L. apply (terminates n L). apply running_out; auto.
  Qed.
End Term.

(** * A well-behaved problem is never taken over an end *)
Section Polite.
  Variable p : problem.
  Hypothesis P : polite p.

  Definition step_ok (e : event) : Prop := e_kind e = KAdvance -> 0 <= s_dt (e_sim e) /\ fits (e_sim e).
  Definition HOk (r : rst) : Prop := Forall step_ok (r_hist r).
  Definition S0 (s : sim) : Prop := 0 <= s_time s /\ s_forced s = [].
  Definition SF (s : sim) : Prop := S0 s /\ 0 <= s_dt s /\ fits s.

  Lemma exec_forced cs s : s_forced (exec_all cs s) = s_forced s.
  Proof.
    unfold exec_all. revert s. induction cs as [|c cs IH]; cbn; intros s; auto.
    rewrite IH. destruct s, c; reflexivity.
  Qed.

  Lemma S0_call k r : S0 (r_sim r) -> S0 (r_sim (call p k r)).
  Proof.
    intros [H1 H2]. destruct (running r) eqn:R; [|rewrite call_dead; auto; split; auto].
    rewrite call_sim by auto. split; [|rewrite exec_forced; auto].
    rewrite (proj1 (exec_clock p (pol_clock p P) k _ _)). auto.
  Qed.

  Lemma HOk_call k r : k <> KAdvance -> HOk r -> HOk (call p k r).
  Proof.
    intros Hk H. destruct (running r) eqn:R; [|rewrite call_dead; auto].
    unfold HOk. rewrite call_hist by auto. constructor; auto. intros E. cbn in E. congruence.
  Qed.
  Lemma HOk_ext r r' : r_hist r' = r_hist r -> HOk r -> HOk r'.
  Proof. unfold HOk. intros ->. auto. Qed.
  Lemma HOk_finish r : HOk r -> HOk (finish p r).
  Proof.
    intros H. apply (HOk_call KFinalize) in H; [|congruence]. eapply HOk_ext; [|exact H].
    unfold finish, with_out. destruct (running _); auto.
  Qed.
  Lemma HOk_output r : HOk r -> HOk (maybe_output p r).
  Proof. intros H. unfold maybe_output. destruct (_ && _); auto. apply HOk_call; auto; congruence. Qed.
  Lemma HOk_serialize r : HOk r -> HOk (maybe_serialize p r).
  Proof. intros H. unfold maybe_serialize. destruct (_ && _); auto. apply HOk_call; auto; congruence. Qed.

  Lemma sim_passive k r : k = KEndStep \/ k = KWriteOutput \/ k = KAdvance \/ k = KSerialize ->
    r_sim (call p k r) = r_sim r.
  Proof.
    intros Hk. destruct (running r) eqn:R; [|rewrite call_dead; auto].
    rewrite call_sim by auto. rewrite (pol_passive p P) by auto. reflexivity.
  Qed.
  Lemma sim_output r : r_sim (maybe_output p r) = r_sim r.
  Proof. unfold maybe_output. destruct (_ && _); auto. apply sim_passive; auto. Qed.
  Lemma sim_serialize r : r_sim (maybe_serialize p r) = r_sim r.
  Proof. unfold maybe_serialize. destruct (_ && _); auto. apply sim_passive; auto. Qed.

  Lemma SF_call k r : k = KBeginStep \/ k = KIntegrate -> SF (r_sim r) -> SF (r_sim (call p k r)).
  Proof.
    intros Hk [H0 H]. destruct (running r) eqn:R; [|rewrite call_dead; auto; split; auto].
    split; [apply S0_call; auto|]. rewrite call_sim by auto. apply (pol_keep p P); auto.
  Qed.

  Definition PInv (r : rst) : Prop :=
    HOk r /\ (running r = true -> S0 (r_sim r) /\
      (r_epb r = false -> finished (r_sim r) = true \/ (0 <= s_dt (r_sim r) /\ fits (r_sim r)))).

  Lemma do_step_PInv r : HOk r -> SF (r_sim r) -> PInv (do_step p r).
  Proof.
    intros H HF. unfold do_step.
    set (r2 := maybe_output p (call p KEndStep (call p KIntegrate r))).
    assert (O2 : HOk r2) by (apply HOk_output, HOk_call, HOk_call; auto; congruence).
    assert (F2 : SF (r_sim r2)).
    { unfold r2. rewrite sim_output, sim_passive by auto. apply SF_call; auto. }
    set (r2' := call p KAdvance r2).
    assert (O2' : HOk r2').
    { unfold r2'. destruct (running r2) eqn:R; [|rewrite call_dead; auto].
      unfold HOk. rewrite call_hist by auto. constructor; auto. intros _. cbn. apply F2. }
    set (r3 := advance_step p r2). change (advance_step p r2) with (with_sim (advance (s_dt (r_sim r2))) r2') in r3.
    assert (O3 : HOk r3) by (eapply HOk_ext; [apply hist_with_sim|auto]).
    assert (T3 : running r3 = true -> S0 (r_sim r3)).
    { intros R. unfold r3, with_sim in *. destruct (running r2') eqn:R'; [|congruence].
      cbn. unfold S0. cbn. unfold r2'. rewrite sim_passive by auto. destruct F2 as [[F2a F2b] [F2c _]]. split; auto.
      lra. }
    unfold after_advance. destruct (episodeIsOver (r_sim r3)) eqn:Ho.
    - split.
      + apply HOk_serialize. eapply HOk_ext; [apply hist_with_epb|]. apply HOk_call; auto; congruence.
      + intros R. pose proof R as R'. apply serialize_running_inv in R'. rewrite with_epb_running in R'.
        pose proof (call_running _ _ _ R') as R3.
        rewrite sim_serialize, serialize_epb, with_epb_epb by auto.
        split; [|congruence]. unfold with_epb. rewrite R'. cbn. apply S0_call; auto.
    - split.
      + apply HOk_serialize. eapply HOk_ext; [apply hist_with_sim|]. auto.
      + intros R. pose proof R as R'. apply serialize_running_inv in R'. rewrite with_sim_running in R'.
        rewrite sim_serialize. destruct (T3 R') as [T3a T3b].
        unfold with_sim. rewrite R'. cbn [r_sim]. set (s3 := r_sim r3) in *. set (d := choose_dt p (r_hist r3) s3).
        split; [split; auto|]. intros _.
        assert (Ed : d = Qmin (maxTimeStepSize s3) (p_next p s3 (r_hist r3))).
        { unfold d, choose_dt. rewrite T3b. cbn [length Z.of_nat].
          destruct (0 <=? s_idx s3)%Z eqn:A; cbn; auto. apply Z.leb_le in A.
          destruct (s_idx s3 <? 0)%Z eqn:B; auto. apply Z.ltb_lt in B. lia. }
        pose proof (pol_next p P s3 (r_hist r3)) as Pn. pose proof (max_step_nonneg s3) as Mn.
        assert (D0 : 0 <= d /\ d <= maxTimeStepSize s3).
        { rewrite Ed. destruct (min_cases (maxTimeStepSize s3) (p_next p s3 (r_hist r3))) as [[E ?]|[E ?]]; rewrite E; split; lra. }
        destruct (finished (set_dt d s3)) eqn:F; auto. right. split; [apply D0|].
        pose proof (not_finished_lt (set_dt d s3) T3a F) as L1. pose proof (not_over_lt s3 T3a Ho) as L2.
        destruct (max_step_le s3) as [M1 M2]. cbn in L1.
        unfold fits. cbn. change (end_of_episode (set_dt d s3)) with (end_of_episode s3).
        destruct (max_cases (s_time s3) (s_end s3)) as [[E1 ?]|[E1 ?]]; rewrite E1 in M1;
        destruct (max_cases (s_time s3) (end_of_episode s3)) as [[E2 ?]|[E2 ?]]; rewrite E2 in M2; split; lra.
  Qed.

  Lemma PInv_dead r : running r = false -> HOk r -> PInv r.
  Proof. intros R H. split; auto. congruence. Qed.

  Lemma PInv_begin_step r : HOk r -> running r = true -> SF (r_sim r) -> PInv (begin_step p r).
  Proof.
    intros H R F. unfold begin_step. set (r2 := call p KBeginStep (with_epb false r)).
    assert (H2 : HOk r2).
    { apply HOk_call; [congruence|]. eapply HOk_ext; [apply hist_with_epb|auto]. }
    assert (F2 : SF (r_sim r2)).
    { apply SF_call; auto. unfold with_epb. rewrite R. auto. }
    unfold step_or_stop. destruct (finished (r_sim r2)).
    - apply PInv_dead; [apply finish_not_running|]. apply HOk_finish, HOk_call, HOk_call; auto; congruence.
    - apply do_step_PInv; auto.
  Qed.

  Lemma PInv_iteration r : PInv r -> PInv (iteration p r).
  Proof.
    intros [H HR]. unfold iteration. destruct (running r) eqn:R; cbn [negb]; [|split; auto; congruence].
    destruct (finished (r_sim r)) eqn:F.
    { apply PInv_dead; [apply finish_not_running|]. apply HOk_finish; auto. }
    destruct (HR eq_refl) as [HS HF]. destruct (r_epb r) eqn:B.
    - set (r1 := call p KBeginEpisode r).
      assert (H1 : HOk r1) by (apply HOk_call; auto; congruence).
      assert (S1 : S0 (r_sim r1)) by (apply S0_call; auto).
      assert (F1 : finished (r_sim r1) = true \/ (0 <= s_dt (r_sim r1) /\ fits (r_sim r1))).
      { unfold r1. rewrite call_sim by auto. apply (pol_begin p P); auto. apply HS. }
      unfold begin_or_stop. destruct (finished (r_sim r1)) eqn:Ef.
      + apply PInv_dead; [apply finish_not_running|]. apply HOk_finish, HOk_call; auto; congruence.
      + destruct F1 as [F1|F1]; [congruence|]. destruct (running r1) eqn:R1.
        * apply PInv_begin_step; auto. split; auto.
        * unfold begin_step. replace (with_epb false r1) with r1 by (unfold with_epb; rewrite R1; auto).
          rewrite call_dead by auto. unfold step_or_stop. rewrite Ef.
          apply do_step_PInv; auto. split; auto.
    - destruct (HF eq_refl) as [E|E]; [congruence|]. apply PInv_begin_step; auto. split; auto.
  Qed.

  Lemma PInv_iterate n r : PInv r -> PInv (iterate p n r).
  Proof. revert r. induction n as [|n IH]; cbn; intros r H; auto. apply IH, PInv_iteration; auto. Qed.

  Lemma PInv_prologue s : s_idx s = 0%Z -> 0 <= s_time s -> s_forced s = [] -> PInv (prologue p None s).
  Proof.
    intros Hi Ht Hf. unfold prologue.
    set (r0 := with_sim (fun s => set_idx (-1) (set_dt 0 s)) (mkRst s [] false Running)).
    set (r2 := maybe_output p (call p KInitial r0)).
    assert (S2 : S0 (r_sim r2)).
    { unfold r2. rewrite sim_output. apply S0_call. cbn. split; auto. }
    assert (H2 : HOk r2).
    { apply HOk_output, HOk_call; [congruence|]. constructor. }
    set (r3 := with_sim _ r2).
    assert (H3 : HOk r3) by (eapply HOk_ext; [apply hist_with_sim|auto]).
    split; [eapply HOk_ext; [apply hist_with_epb|auto]|].
    rewrite with_epb_running. intros R. unfold with_epb. rewrite R. cbn [r_sim r_epb].
    assert (R2 : running r2 = true) by (unfold r3 in R; rewrite with_sim_running in R; auto).
    assert (E3 : r_sim r3 = set_idx (s_idx s) (set_dt (s_dt s) (r_sim r2))) by (unfold r3, with_sim; rewrite R2; reflexivity).
    rewrite E3. destruct S2 as [S2a S2b]. split; [split; auto|]. cbn [s_idx set_idx]. rewrite Hi. cbn. rewrite orb_true_r. congruence.
  Qed.

  Lemma polite_steps_fit s n e : s_idx s = 0%Z -> 0 <= s_time s -> s_forced s = [] ->
    In e (history (run p None s n)) -> e_kind e = KAdvance -> fits (e_sim e).
  Proof.
    intros Hi Ht Hf Hin Hk. unfold history in Hin. apply in_rev in Hin.
    pose proof (PInv_iterate n _ (PInv_prologue s Hi Ht Hf)) as [H _]. fold (run p None s n) in H.
    unfold HOk in H. rewrite Forall_forall in H. exact (proj2 (H e Hin Hk)).
  Qed.
End Polite.

(** * Predetermined step sizes *)
(** The latest of the calls "advance" and "end of episode" in a history, latest first. *)
Fixpoint latest (h : list event) : option kind :=
  match h with
  | [] => None
  | e :: h => match e_kind e with KAdvance => Some KAdvance | KEndEpisode => Some KEndEpisode | _ => latest h end
  end.

Section Forced.
  Variable p : problem.
  Hypothesis LC : leaves_clock_alone p.
  Hypothesis LD : forall k s h d, ~ In (SetTimeStepSize d) (fst (p_call p k s h)).
  Variable F : list Q.

  Definition due (s : sim) : Prop :=
    (0 <= s_idx s)%Z /\ (s_idx s < Z.of_nat (length F))%Z -> s_dt s = nth (Z.to_nat (s_idx s)) F 0.

  Fixpoint FOk (h : list event) : Prop :=
    match h with
    | [] => True
    | e :: h => (e_kind e = KAdvance -> latest h = Some KAdvance -> due (e_sim e)) /\ FOk h
    end.

  Definition FInv (r : rst) : Prop :=
    FOk (r_hist r) /\ s_forced (r_sim r) = F /\
    (running r = true -> latest (r_hist r) = Some KAdvance -> due (r_sim r)).

  Lemma exec_dt k s h : s_dt (exec_all (fst (p_call p k s h)) s) = s_dt s.
  Proof.
    pose proof (LD k s h) as H. revert H. generalize (fst (p_call p k s h)) as cs.
    intros cs. revert s. unfold exec_all. induction cs as [|c cs IH]; cbn; intros s H; auto.
    rewrite IH by (intros d Hd; apply (H d); auto).
    destruct s; destruct c; cbn; auto. exfalso. eapply H; eauto.
  Qed.
  Lemma due_exec k s h : due s -> due (exec_all (fst (p_call p k s h)) s).
  Proof. unfold due. rewrite exec_dt, (proj2 (exec_clock p LC k s h)). auto. Qed.

  Lemma FInv_call k r : k <> KAdvance -> FInv r -> FInv (call p k r).
  Proof.
    intros Hk (H1 & H2 & H3). destruct (running r) eqn:R; [|rewrite call_dead; [split; [|split]; auto; congruence|auto]].
    unfold FInv. rewrite call_hist, call_sim by auto. cbn. split; [split; [congruence|auto]|].
    split; [rewrite exec_forced; auto|]. intros _ L. apply due_exec, H3; auto.
    destruct k; auto; congruence.
  Qed.
  Lemma FInv_epb b r : FInv r -> FInv (with_epb b r).
  Proof. intros H. unfold with_epb. destruct (running r); exact H. Qed.
  Lemma FInv_finish r : FInv r -> FInv (finish p r).
  Proof.
    intros H. apply (FInv_call KFinalize) in H; [|congruence]. unfold finish, with_out.
    destruct (running _) eqn:R; auto. destruct H as (H1 & H2 & H3). split; [|split]; cbn; auto. 
  Qed.
  Lemma FInv_output r : FInv r -> FInv (maybe_output p r).
  Proof. intros H. unfold maybe_output. destruct (_ && _); auto. apply FInv_call; auto; congruence. Qed.
  Lemma FInv_serialize r : FInv r -> FInv (maybe_serialize p r).
  Proof. intros H. unfold maybe_serialize. destruct (_ && _); auto. apply FInv_call; auto; congruence. Qed.

  Lemma FInv_do_step r : FInv r -> FInv (do_step p r).
  Proof.
    intros H. unfold do_step. apply FInv_serialize.
    set (r2 := maybe_output p (call p KEndStep (call p KIntegrate r))).
    assert (H2 : FInv r2) by (apply FInv_output, FInv_call, FInv_call; auto; congruence).
    set (r3 := advance_step p r2).
    assert (H3 : FOk (r_hist r3) /\ s_forced (r_sim r3) = F).
    { destruct H2 as (A & B & C). unfold r3, advance_step. rewrite hist_with_sim.
      destruct (running r2) eqn:R.
      - rewrite call_hist by auto. split; [split; cbn; auto|].
        unfold with_sim. destruct (running (call p KAdvance r2)); cbn; rewrite call_sim, exec_forced; auto.
      - rewrite call_dead by auto. unfold with_sim. rewrite R. auto. }
    destruct H3 as [H3 H3']. unfold after_advance. destruct (episodeIsOver (r_sim r3)) eqn:Ho.
    - destruct (running r3) eqn:R3.
      2: { rewrite call_dead by auto. unfold with_epb. rewrite R3. split; [|split]; auto; congruence. }
      split; [|split].
      + rewrite hist_with_epb, call_hist by auto. split; auto. cbn. congruence.
      + unfold with_epb. destruct (running (call p KEndEpisode r3)); cbn; rewrite call_sim, exec_forced; auto.
      + rewrite hist_with_epb, call_hist by auto. cbn. congruence.
    - split; [|split].
      + rewrite hist_with_sim. auto.
      + unfold with_sim. destruct (running r3); auto.
      + rewrite with_sim_running. intros R _. unfold with_sim. rewrite R. cbn [r_sim].
        intros [Hi1 Hi2]. cbn in *. unfold choose_dt. rewrite H3'.
        apply Z.leb_le in Hi1. apply Z.ltb_lt in Hi2. rewrite Hi1, Hi2. reflexivity.
  Qed.

  Lemma FInv_iteration r : FInv r -> FInv (iteration p r).
  Proof.
    intros H. unfold iteration. destruct (negb _); auto. destruct (finished _); [apply FInv_finish; auto|].
    assert (H1 : forall r, FInv r -> FInv (begin_step p r)).
    { intros r' H'. unfold begin_step, step_or_stop.
      assert (FInv (call p KBeginStep (with_epb false r'))) by (apply FInv_call; [congruence|]; apply FInv_epb; auto).
      destruct (finished _).
      - apply FInv_finish, FInv_call; [congruence|]. apply FInv_call; auto; congruence.
      - apply FInv_do_step; auto. }
    destruct (r_epb r); auto. unfold begin_or_stop.
    assert (FInv (call p KBeginEpisode r)) by (apply FInv_call; auto; congruence).
    destruct (finished _); auto. apply FInv_finish, FInv_call; auto; congruence.
  Qed.

  Lemma FInv_iterate n r : FInv r -> FInv (iterate p n r).
  Proof. revert r. induction n as [|n IH]; cbn; intros r H; auto. apply IH, FInv_iteration; auto. Qed.

  Lemma exec_forced_out r : s_forced (r_sim (maybe_output p r)) = s_forced (r_sim r).
  Proof.
    unfold maybe_output. destruct (running r) eqn:R; cbn; auto. destruct (p_output _ _ _); auto.
    rewrite call_sim, exec_forced; auto.
  Qed.

  Lemma FInv_prologue s : s_forced s = F -> FInv (prologue p None s).
  Proof.
    intros Hf. destruct (prologue_hist p None s) as [(pro & E & K) _].
    assert (Hl : FOk (r_hist (prologue p None s)) /\ latest (r_hist (prologue p None s)) = None).
    { rewrite E. destruct K as [K|K].
      - destruct pro as [|[k1 s1] [|]]; cbn in K; inversion K; subst. cbn. repeat split; auto; congruence.
      - destruct pro as [|[k1 s1] [|[k2 s2] [|]]]; cbn in K; inversion K; subst. cbn. repeat split; auto; congruence. }
    destruct Hl as [Hl1 Hl2]. split; [|split]; auto; [|rewrite Hl2; congruence].
    unfold prologue. unfold with_epb. destruct (running _); cbn [r_sim].
    all: unfold with_sim at 1; destruct (running (maybe_output _ _)); cbn [r_sim set_idx set_dt s_forced];
      rewrite exec_forced_out, call_sim, exec_forced by reflexivity; exact Hf.
  Qed.

  Lemma FOk_split a e h : FOk (a ++ e :: h) -> e_kind e = KAdvance -> latest h = Some KAdvance -> due (e_sim e).
  Proof. induction a as [|x a IH]; cbn; intros [H1 H2]; auto. Qed.

  Lemma forced_used s n before e1 mid e2 after : s_forced s = F ->
    history (run p None s n) = before ++ e1 :: mid ++ e2 :: after ->
    e_kind e1 = KAdvance -> e_kind e2 = KAdvance ->
    (forall e, In e mid -> e_kind e <> KAdvance /\ e_kind e <> KEndEpisode) ->
    due (e_sim e2).
  Proof.
    intros Hf E K1 K2 Hm. destruct (FInv_iterate n _ (FInv_prologue s Hf)) as (H & _ & _).
    fold (run p None s n) in H. unfold history in E.
    assert (E' : r_hist (run p None s n) = rev after ++ e2 :: (rev mid ++ e1 :: rev before)).
    { rewrite <- (rev_involutive (r_hist _)), E. rewrite !rev_app_distr. cbn. rewrite rev_app_distr. cbn.
      rewrite <- !app_assoc. reflexivity. }
    rewrite E' in H. eapply FOk_split; eauto.
    assert (forall l, (forall e, In e l -> e_kind e <> KAdvance /\ e_kind e <> KEndEpisode) -> latest (l ++ e1 :: rev before) = Some KAdvance) as G.
    { induction l as [|x l IH]; intros Hl; cbn.
      - rewrite K1. auto.
      - destruct (Hl x (or_introl eq_refl)) as [N1 N2]. destruct (e_kind x); try congruence; apply IH; intros; apply Hl; right; auto. }
    apply G. intros e He. apply Hm. apply in_rev; auto.
  Qed.
End Forced.
