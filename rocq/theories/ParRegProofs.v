(** Proofs about parameter registration and look-up. *)
From Verif Require Import ParamModel ParamSpec ParamProofs ParRegModel ParRegSpec.

Lemma last_value_app n a b : last_value n (a ++ b) = or_else (last_value n b) (last_value n a).
Proof.
  induction a as [|[k v] a IH]; cbn.
  - destruct (last_value n b); reflexivity.
  - rewrite IH. destruct (last_value n b); reflexivity.
Qed.
Lemma first_value_app n a b : first_value n (a ++ b) = or_else (first_value n a) (first_value n b).
Proof.
  induction a as [|[k v] a IH]; cbn; auto. destruct (str_eqb n k); auto.
Qed.
Lemma cmdline_app a b : cmdline_settings (a ++ b) = cmdline_settings a ++ cmdline_settings b.
Proof. induction a as [|[] a IH]; cbn; rewrite ?IH, ?app_assoc; auto. Qed.
Lemma file_app a b : file_settings (a ++ b) = file_settings a ++ file_settings b.
Proof. induction a as [|[] a IH]; cbn; rewrite ?IH, ?app_assoc; auto. Qed.
Lemma defaults_app a b : defaults (a ++ b) = defaults a ++ defaults b.
Proof. induction a as [|[] a IH]; cbn; rewrite ?IH; auto. Qed.
Lemma registrations_app a b : registrations (a ++ b) = registrations a ++ registrations b.
Proof. induction a as [|[] a IH]; cbn; rewrite ?IH; auto. Qed.

Lemma put_cmd_fold n l : forall t,
  fold_left (fun t p => put t (fst p) (snd p)) l t n = or_else (last_value n l) (t n).
Proof.
  induction l as [|[k v] l IH]; cbn; intros t; auto.
  rewrite IH. destruct (last_value n l); auto. cbn. unfold put. destruct (str_eqb n k); auto.
Qed.
Lemma put_file_fold n l : forall t,
  fold_left (fun t p => if false || match t (fst p) with None => true | _ => false end
                        then put t (fst p) (snd p) else t) l t n = or_else (t n) (first_value n l).
Proof.
  induction l as [|[k v] l IH]; cbn; intros t.
  - destruct (t n); auto.
  - rewrite IH. destruct (t k) eqn:Ek.
    + destruct (str_eqb_spec n k) as [->|]; auto. rewrite Ek. reflexivity.
    + unfold put. destruct (str_eqb_spec n k) as [->|]; auto. rewrite Ek. reflexivity.
Qed.

Section RegProofs.
  Variable parses : str -> str -> bool.

  Record RInv (h : list pop) (s : pstate) : Prop := {
    ri_tree : forall n, ptree s n =
      or_else (last_value n (cmdline_settings h)) (first_value n (file_settings h));
    ri_reg : forall n, match reg s n with
      | Some i => Some (i_default i) = or_else (last_value n (defaults h)) (first_value n (registrations h)) /\
                  first_value n (registrations h) <> None
      | None => first_value n (registrations h) = None /\ last_value n (defaults h) = None
      end }.

  Lemma RInv_init : RInv [] fresh_state.
  Proof. constructor; intros n; cbn; auto. Qed.

  Definition same_lookup (s s' : pstate) : Prop :=
    (forall n, reg s' n = reg s n) /\ (forall n, ptree s' n = ptree s n) /\ is_open s' = is_open s.

  Lemma get_same d s v s' : get parses true d s = Ok (v, s') -> same_lookup s s'.
  Proof.
    unfold get. destruct (is_open s) eqn:Eo; cbn; [discriminate|].
    destruct (reg s (d_name d)) as [i|] eqn:Er; cbn; [|discriminate].
    intros H. assert (E : s' = with_reg s (put_reg (reg s) (d_name d) i)).
    { destruct (ptree s (d_name d)); [destruct (parses _ _)|]; inversion H; auto. }
    subst s'. repeat split; auto. intros n. cbn. unfold put_reg.
    destruct (str_eqb_spec n (d_name d)) as [->|]; auto.
  Qed.

  Lemma retrieve_same l : forall s s', retrieve_all parses l s = Ok s' -> same_lookup s s'.
  Proof.
    induction l as [|d l IH]; cbn; intros s s' H.
    - inversion H; subst. repeat split; auto.
    - destruct (get parses true d s) as [[v s1]|] eqn:E; [|discriminate].
      destruct (get_same _ _ _ _ E) as (A1 & A2 & A3). destruct (IH _ _ H) as (B1 & B2 & B3).
      repeat split; intros; congruence.
  Qed.

  Lemma RInv_same h h' s s' : RInv h s -> same_lookup s s' \/ (forall n, reg s' n = reg s n) /\ (forall n, ptree s' n = ptree s n) ->
    cmdline_settings h' = [] -> file_settings h' = [] -> defaults h' = [] -> registrations h' = [] ->
    RInv (h ++ h') s'.
  Proof.
    intros [H1 H2] Hs E1 E2 E3 E4.
    assert (Hs' : (forall n, reg s' n = reg s n) /\ (forall n, ptree s' n = ptree s n))
      by (destruct Hs as [(A & B & _)|]; auto).
    destruct Hs' as [A B].
    constructor; intros n.
    - rewrite B, H1, cmdline_app, file_app, E1, E2, !app_nil_r. reflexivity.
    - rewrite A, defaults_app, registrations_app, E3, E4, !app_nil_r. apply H2.
  Qed.

  Lemma RInv_step h o s s' : RInv h s -> file_keeps o -> checked_gets o ->
    apply_op parses o s = Ok s' -> RInv (h ++ [o]) s'.
  Proof.
    intros HI Hf Hc H. pose proof HI as [H1 H2]. destruct o as [d u|d v|d| |l|ov l|c d]; cbn in H.
    - unfold register in H. destruct (is_open s); cbn in H; [|discriminate].
      constructor; intros n; rewrite ?cmdline_app, ?file_app, ?defaults_app, ?registrations_app; cbn;
        rewrite ?app_nil_r.
      + rewrite <- H1. destruct (reg s (d_name d)) as [i|]; [destruct (_ && _)|]; inversion H; subst; auto.
      + pose proof (H2 n) as Hn. pose proof (H2 (d_name d)) as Hd.
        rewrite first_value_app. cbn.
        destruct (reg s (d_name d)) as [i|] eqn:Er.
        * destruct (_ && _); inversion H; subst; cbn. destruct Hd as [_ Hd].
          destruct (reg s n) as [j|]; destruct Hn as [Hn1 Hn2].
          -- destruct (first_value n (registrations h)); [|tauto]. cbn. split; auto; discriminate.
          -- rewrite Hn1. cbn. destruct (str_eqb_spec n (d_name d)) as [->|]; [congruence|]. auto.
        * inversion H; subst; cbn. unfold put_reg. destruct (str_eqb_spec n (d_name d)) as [->|Hne].
          -- destruct Hd as [Hd1 Hd2]. rewrite Hd1, Hd2. cbn. split; auto; discriminate.
          -- destruct (reg s n) as [j|]; destruct Hn as [Hn1 Hn2].
             ++ destruct (first_value n (registrations h)); [|tauto]. cbn. split; auto; discriminate.
             ++ rewrite Hn1. cbn. auto.
    - unfold set_default in H. destruct (reg s (d_name d)) as [i|] eqn:Er; [|discriminate]. inversion H; subst.
      constructor; intros n; rewrite ?cmdline_app, ?file_app, ?defaults_app, ?registrations_app; cbn;
        rewrite ?app_nil_r; auto.
      pose proof (H2 n) as Hn. rewrite last_value_app. cbn. unfold put_reg.
      destruct (str_eqb_spec n (d_name d)) as [->|Hne].
      + rewrite Er in Hn. cbn. split; auto. tauto.
      + cbn. exact Hn.
    - unfold hide in H. destruct (is_open s); cbn in H; [|discriminate].
      destruct (reg s (d_name d)) as [i|] eqn:Er; [|discriminate]. inversion H; subst.
      constructor; intros n; rewrite ?cmdline_app, ?file_app, ?defaults_app, ?registrations_app; cbn;
        rewrite ?app_nil_r; auto.
      pose proof (H2 n) as Hn. unfold put_reg. destruct (str_eqb_spec n (d_name d)) as [->|Hne]; auto.
      rewrite Er in Hn. auto.
    - unfold end_registration in H. destruct (is_open s); cbn in H; [|discriminate].
      destruct (retrieve_all parses (finals s) _) as [s2|] eqn:E; [|discriminate]. inversion H; subst.
      apply retrieve_same in E. destruct E as (A1 & A2 & A3). cbn in *.
      apply (RInv_same h [OEnd] s); auto.
    - inversion H; subst. constructor; intros n; rewrite ?cmdline_app, ?file_app, ?defaults_app, ?registrations_app; cbn;
        rewrite ?app_nil_r; auto; [|apply H2].
      rewrite put_cmd_fold, H1, last_value_app. destruct (last_value n l); reflexivity.
    - cbn in Hf. subst ov. inversion H; subst.
      constructor; intros n; rewrite ?cmdline_app, ?file_app, ?defaults_app, ?registrations_app; cbn;
        rewrite ?app_nil_r; auto; [|apply H2].
      cbn [orb]. pose proof (put_file_fold n l (ptree s)) as P. cbn [orb] in P. rewrite P.
      rewrite H1, first_value_app. destruct (last_value n (cmdline_settings h)); auto.
    - cbn in Hc. subst c. destruct (get parses true d s) as [[v s1]|] eqn:E; [|discriminate]. inversion H; subst.
      apply (RInv_same h [OGet true d] s); auto. left. eapply get_same; eauto.
  Qed.

  Lemma RInv_run l : forall h s s', RInv h s -> Forall file_keeps l -> Forall checked_gets l ->
    run_ops parses l s = Ok s' -> RInv (h ++ l) s'.
  Proof.
    induction l as [|o l IH]; cbn; intros h s s' HI Hf Hc H.
    - inversion H; subst. rewrite app_nil_r. auto.
    - destruct (apply_op parses o s) as [s1|] eqn:E; [|discriminate]. inversion Hf; inversion Hc; subst.
      replace (h ++ o :: l) with ((h ++ [o]) ++ l) by (rewrite <- app_assoc; reflexivity).
      eapply IH; eauto. eapply RInv_step; eauto.
  Qed.

  Lemma get_precedence h s d v s' : Forall file_keeps h -> Forall checked_gets h ->
    run_ops parses h fresh_state = Ok s -> get parses true d s = Ok (v, s') ->
    precedence (d_name d) h = Some v.
  Proof.
    intros Hf Hc Hr Hg. destruct (RInv_run h [] _ _ RInv_init Hf Hc Hr) as [H1 H2]. cbn in H1, H2.
    unfold get in Hg. destruct (is_open s); cbn in Hg; [discriminate|].
    pose proof (H2 (d_name d)) as Hd. destruct (reg s (d_name d)) as [i|]; cbn in Hg; [|discriminate].
    destruct Hd as [Hd _]. unfold precedence. rewrite H1 in Hg.
    destruct (last_value (d_name d) (cmdline_settings h)); cbn in *.
    { destruct (parses _ _); inversion Hg; auto. }
    destruct (first_value (d_name d) (file_settings h)); cbn in *.
    { destruct (parses _ _); inversion Hg; auto. }
    inversion Hg; subst. symmetry. exact Hd.
  Qed.

  Lemma get_defined h s d : Forall file_keeps h -> Forall checked_gets h ->
    run_ops parses h fresh_state = Ok s -> is_open s = false ->
    first_value (d_name d) (registrations h) <> None ->
    (forall text, ptree s (d_name d) = Some text -> parses (d_type d) text = true) ->
    exists v s', get parses true d s = Ok (v, s').
  Proof.
    intros Hf Hc Hr Ho Hreg Hp. destruct (RInv_run h [] _ _ RInv_init Hf Hc Hr) as [H1 H2]. cbn in H1, H2.
    unfold get. rewrite Ho. cbn. pose proof (H2 (d_name d)) as Hd.
    destruct (reg s (d_name d)) as [i|]; cbn; [|tauto].
    destruct (ptree s (d_name d)) as [text|]; eauto. rewrite (Hp text eq_refl). eauto.
  Qed.

  Lemma unregistered_get h s d : Forall file_keeps h -> Forall checked_gets h ->
    run_ops parses h fresh_state = Ok s ->
    first_value (d_name d) (registrations h) = None ->
    get parses true d s = Thrown /\ is_set true d s = Thrown.
  Proof.
    intros Hf Hc Hr Hreg. destruct (RInv_run h [] _ _ RInv_init Hf Hc Hr) as [H1 H2]. cbn in H1, H2.
    unfold get, is_set. pose proof (H2 (d_name d)) as Hd.
    destruct (reg s (d_name d)) as [i|]; [tauto|]. rewrite orb_true_r. auto.
  Qed.

  (** Once closed, registration stays closed. *)
  Lemma closed_step o s s' : is_open s = false -> apply_op parses o s = Ok s' -> is_open s' = false.
  Proof.
    intros Ho H. destruct o; cbn in H; unfold register, set_default, hide, end_registration, get in H;
      rewrite ?Ho in H; cbn in H; try discriminate.
    - destruct (reg s (d_name d)); inversion H; subst; auto.
    - inversion H; subst; auto.
    - inversion H; subst; auto.
    - destruct (check && _); [discriminate|]. destruct (ptree s (d_name d)); [destruct (parses _ _)|]; inversion H; subst; auto.
  Qed.
  Lemma closed_run l : forall s s', is_open s = false -> run_ops parses l s = Ok s' -> is_open s' = false.
  Proof.
    induction l as [|o l IH]; cbn; intros s s' Ho H.
    - inversion H; subst; auto.
    - destruct (apply_op parses o s) as [s1|] eqn:E; [|discriminate]. eapply IH; [|exact H]. eapply closed_step; eauto.
  Qed.
  Lemma end_closes s s' : end_registration parses s = Ok s' -> is_open s' = false.
  Proof.
    unfold end_registration. destruct (is_open s); cbn; [|discriminate].
    destruct (retrieve_all parses (finals s) _); [|discriminate]. intros H; inversion H; auto.
  Qed.
  Lemma run_app a b : forall s, run_ops parses (a ++ b) s =
    match run_ops parses a s with Ok s1 => run_ops parses b s1 | Thrown => Thrown end.
  Proof.
    induction a as [|o a IH]; cbn; intros s; auto. destruct (apply_op parses o s); auto.
  Qed.
  Lemma no_register_after_end h1 h2 d u : run_ops parses (h1 ++ OEnd :: h2 ++ [ORegister d u]) fresh_state = Thrown.
  Proof.
    rewrite run_app. destruct (run_ops parses h1 fresh_state) as [s1|]; auto. cbn.
    destruct (end_registration parses s1) as [s2|] eqn:E; auto. rewrite run_app.
    destruct (run_ops parses h2 s2) as [s3|] eqn:E3; auto.
    assert (Ho : is_open s3 = false) by (eapply closed_run; eauto; eapply end_closes; eauto).
    cbn. unfold register. rewrite Ho. reflexivity.
  Qed.

  (** endRegistration detects texts that do not convert. *)
  Lemma end_checks s s' d : end_registration parses s = Ok s' -> In d (finals s) ->
    forall text, ptree s (d_name d) = Some text -> parses (d_type d) text = true.
  Proof.
    unfold end_registration. destruct (is_open s); cbn; [|discriminate].
    destruct (retrieve_all parses (finals s) _) as [s2|] eqn:E; [|discriminate]. intros _ Hin text Ht.
    assert (G : forall l s0 s1, retrieve_all parses l s0 = Ok s1 -> In d l -> ptree s0 (d_name d) = Some text ->
              parses (d_type d) text = true).
    { clear. induction l as [|x l IH]; cbn; intros s0 s1 H Hin Ht; [tauto|].
      destruct (get parses true x s0) as [[v s2]|] eqn:Eg; [|discriminate].
      destruct Hin as [<-|Hin].
      - unfold get in Eg. destruct (true && _); [discriminate|]. rewrite Ht in Eg.
        destruct (parses _ _) eqn:Ep; auto; discriminate.
      - destruct (get_same _ _ _ _ Eg) as (_ & A & _). eapply IH; eauto. rewrite A; auto. }
    eapply G; eauto.
  Qed.
End RegProofs.
