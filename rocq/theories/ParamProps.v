(** C08, C09, C10, C12: command line options, parameter files, help text. *)
From Verif Require Import ParamModel ParamSpec ParamProofs.

(** C08. A command line without positional arguments is accepted if and only if every
    argument has the form --dashed-name=value with pairwise different names, and
    then exactly these parameters are set, to exactly these values. *)
Theorem C08_accepted_iff_well_formed : forall args t,
  (exists t', parse_cmdline no_positional false args t = (CSuccess, t')) <->
  (exists l, OptionArgs args l).
Proof.
  intros args t. unfold parse_cmdline. cbn [andb]. split.
  - intros [t' H]. destruct (cmd_loop _ _ _ _ _ _ _) as [r c] eqn:E. inversion H; subst.
    destruct (noposn_success _ _ _ _ _ _ E) as (l & Hl & _). eauto.
  - intros [l Hl]. destruct (noposn_complete args args 1 0 {| seen := []; ctree := t |} l Hl) as [c' E].
    { cbn. tauto. }
    rewrite E. eauto.
Qed.

Theorem C08_exactly_the_given_parameters_are_set : forall args l t t',
  parse_cmdline no_positional false args t = (CSuccess, t') -> OptionArgs args l -> set_to t t' l.
Proof.
  intros args l t t' H Hl. unfold parse_cmdline in H. cbn [andb] in H.
  destruct (cmd_loop _ _ _ _ _ _ _) as [r c] eqn:E. inversion H; subst.
  destruct (noposn_success _ _ _ _ _ _ E) as (l' & Hl' & _ & H1 & H2).
  rewrite <- (OptionArgs_fun _ _ _ Hl Hl') in H1, H2. split; auto.
Qed.

(** A mixture of options and positional arguments, with a callback that takes one
    argument at a time and stores the k-th one under the name [pk k]: the positional
    arguments arrive in order, the options have their usual effect. *)
Theorem C08_positional_arguments_in_order : forall cb pk args t t',
  (forall a b, pk a = pk b -> a = b) -> (forall k key, ~ Camel key (pk k)) ->
  (forall c i npos, cb c args i npos =
     (1, {| seen := seen c; ctree := put (ctree c) (pk npos) (nth (i - 1) args []) |})) ->
  parse_cmdline cb false args t = (CSuccess, t') ->
  exists l, OptionArgs (filter (fun a => negb (is_positional a)) args) l /\
    (forall n v, In (n, v) l -> t' n = Some v) /\
    (forall k a, nth_error (filter is_positional args) k = Some a -> t' (pk k) = Some a) /\
    (forall n, ~ In n (map fst l) -> (forall k, k < length (filter is_positional args) -> n <> pk k) -> t' n = t n).
Proof.
  intros cb pk args t t' H1 H2 H3 H. unfold parse_cmdline in H. cbn [andb] in H.
  destruct (cmd_loop _ _ _ _ _ _ _) as [r c] eqn:E. inversion H; subst.
  destruct (loop_success cb pk H1 H2 args H3 args 1 0 _ _ [] eq_refl eq_refl E) as (l & L1 & _ & L3 & L4 & L5).
  exists l. auto.
Qed.

(** Which arguments are positional: too short or not starting with two dashes. *)
Theorem C08_positional_means : forall a,
  is_positional a = false <-> (exists body, a = dash :: dash :: body /\ 2 <= length body).
Proof.
  intros a. unfold is_positional. split.
  - intros H. apply orb_false_elim in H as [H1 H2]. apply negb_false_iff in H2. apply Nat.ltb_ge in H1.
    destruct a as [|x [|y body]]; try discriminate. apply andb_prop in H2 as [E1 E2].
    destruct (ceq_spec x dash), (ceq_spec y dash); try discriminate. subst. exists body. cbn in H1. split; auto. lia.
  - intros (body & -> & Hl). cbn. rewrite !ceq_refl. cbn. rewrite orb_false_r. apply Nat.ltb_ge. lia.
Qed.

Example C08_example :
  exists t', parse_cmdline no_positional false [lit "--end-time=1e3"; lit "--file=a=b c"] (fun _ => None) = (CSuccess, t') /\
    t' (lit "EndTime") = Some (lit "1e3") /\ t' (lit "File") = Some (lit "a=b c") /\ t' (lit "Fil") = None.
Proof. eexists. vm_compute. auto. Qed.
Example C08_example_rejected :
  fst (parse_cmdline no_positional false [lit "--a-b=1"; lit "--aB=2"] (fun _ => None)) = CError /\
  fst (parse_cmdline no_positional false [lit "--foo"] (fun _ => None)) = CError /\
  fst (parse_cmdline no_positional false [lit "--foo--bar=1"] (fun _ => None)) = CThrow /\
  fst (parse_cmdline no_positional false [lit "-foo=1"] (fun _ => None)) = CError.
Proof. vm_compute. auto. Qed.
(** A callback that meets the hypotheses of C08_positional_arguments_in_order. *)
Definition ex_pk (k : nat) : str := dash :: repeat dash k.
Definition ex_cb (c : cstate) (args : list str) (i npos : nat) : nat * cstate :=
  (1, {| seen := seen c; ctree := put (ctree c) (ex_pk npos) (nth (i - 1) args []) |}).
Example C08_callback_hypotheses :
  (forall a b, ex_pk a = ex_pk b -> a = b) /\ (forall k key, ~ Camel key (ex_pk k)) /\
  exists t', parse_cmdline ex_cb false [lit "deck.data"; lit "--foo=1"; lit "b"] (fun _ => None) = (CSuccess, t')
    /\ t' (ex_pk 1) = Some (lit "b").
Proof.
  split; [|split].
  - intros a b H. inversion H as [H']. apply (f_equal (@length ascii)) in H'. rewrite !repeat_length in H'. auto.
  - intros k key H. apply Camel_name in H. cbn in H. destruct H as [H _]. vm_compute in H. discriminate.
  - eexists. vm_compute. auto.
Qed.

(** C09. The option printed for a parameter in the help, completed by =value, sets that parameter. *)
Theorem C09_printed_option_sets_the_parameter : forall name value t, camel_name name ->
  exists t', parse_cmdline no_positional false [cmdline_name name ++ equals :: value] t = (CSuccess, t') /\
    t' name = Some value /\ (forall n, n <> name -> t' n = t n).
Proof.
  intros name value t Hn. destruct (kebab_camel name Hn) as (key & E & Hc).
  assert (Ho : OptionArgs [cmdline_name name ++ equals :: value] [(name, value)]).
  { constructor; [|cbn; tauto|constructor]. exists key. split; auto. rewrite E. reflexivity. }
  destruct (proj2 (C08_accepted_iff_well_formed _ t) (ex_intro _ _ Ho)) as [t' Ht].
  destruct (C08_exactly_the_given_parameters_are_set _ _ _ _ Ht Ho) as [H1 H2].
  exists t'. split; auto. split; [apply H1; cbn; auto|].
  intros n Hne. apply H2. cbn. intros [H|[]]; congruence.
Qed.

(** Different parameters are shown with different options. *)
Theorem C09_printed_options_differ : forall n1 n2, camel_name n1 -> camel_name n2 ->
  cmdline_name n1 = cmdline_name n2 -> n1 = n2.
Proof.
  intros n1 n2 H1 H2 E. destruct (kebab_camel n1 H1) as (k1 & E1 & C1), (kebab_camel n2 H2) as (k2 & E2 & C2).
  rewrite E1, E2 in E. inversion E; subst. exact (Camel_fun _ _ _ C1 C2).
Qed.

(** Names that are not of this form cannot be set on the command line at all. *)
Theorem C09_only_camel_names_can_be_set : forall args l n v,
  OptionArgs args l -> In (n, v) l -> camel_name n.
Proof.
  induction 1 as [|arg name value args l (key & Hc & _) _ _ IH]; cbn; [tauto|].
  intros [E|Hin]; auto. inversion E; subst. exact (Camel_name _ _ Hc).
Qed.

Example C09_example : cmdline_name (lit "EnableVTK2Output") = lit "--enable-v-t-k2-output" /\
  camel_name (lit "EnableVTK2Output").
Proof. vm_compute. auto. Qed.

(** C10. Well formed parameter files define exactly their settings. *)
Theorem C10_well_formed_files_partial : forall overwrite ls settings_ t,
  Forall2 Line ls settings_ -> NoDup (map fst (settings settings_)) ->
  exists t', parse_file overwrite (Some (join_lines ls)) t = Ok t' /\
    file_set overwrite t t' (settings settings_).
Proof. exact parse_file_ok. Qed.

(** Lines that are accepted are blank, comments, or start with a valid key that was not
    seen before, followed by at least one further character. *)
Theorem C10_accepted_lines_partial : forall overwrite l f f', parse_line overwrite l f = Ok f' ->
  (f' = f /\ exists b r, l = b ++ r /\ blank b /\ (r = [] \/ comment r)) \/
  (exists b key name b1 c rest v, l = b ++ key ++ b1 ++ c :: rest /\ blank b /\ blank b1 /\
     isspace c = false /\ Camel key name /\ ~ In name (fseen f) /\
     f' = {| fseen := name :: fseen f;
             ftree := if overwrite || match ftree f name with None => true | _ => false end
                      then put (ftree f) name v else ftree f |}).
Proof. exact accepted_line. Qed.

Lemma foo_bar_not_line : forall a, ~ Line (lit "Foo bar") a.
Proof.
  intros a H. remember (lit "Foo bar") as l eqn:El. destruct H.
  - subst. vm_compute in H. discriminate.
  - destruct s as [|x s].
    + destruct c as [|c0 c']; [destruct H1|]. cbn in El. inversion El; subst. destruct H1 as [E|E]; discriminate E.
    + cbn in El. inversion El; subst. vm_compute in H. discriminate.
  - assert (Hin : In equals (lit "Foo bar")).
    { rewrite <- El. do 3 (apply in_or_app; right). left. reflexivity. }
    vm_compute in Hin. decompose [or] Hin; try discriminate; tauto.
Qed.

(** But malformed lines are not always reported: a line without equals sign, a line without a
    value and a line with trailing garbage are all accepted silently. *)
Theorem C10_malformed_lines_refuted :
  exists text t', parse_file true (Some text) (fun _ => None) = Ok t' /\
    ~ (exists ls as_, text = join_lines ls /\ Forall2 Line ls as_) /\
    t' (lit "Foo") = Some (lit "ar").
Proof.
  exists (lit "Foo bar"). eexists. split; [vm_compute; reflexivity|]. split; [|reflexivity].
  intros (ls & as_ & E & F).
  assert (Hl : ls = [lit "Foo bar"]).
  { destruct ls as [|l ls]; [discriminate|].
    rewrite <- (lines_of_join (l :: ls)); [rewrite <- E; reflexivity|discriminate|].
    clear - F. induction F; constructor; auto. eapply Line_nn; eauto. }
  subst ls. inversion F as [|x y l' ls' HL _ E1 E2]; subst. exact (foo_bar_not_line _ HL).
Qed.

Example C10_malformed_examples :
  (exists t', parse_file true (Some (lit "Foo=")) (fun _ => None) = Ok t' /\ t' (lit "Foo") = Some []) /\
  (exists t', parse_file true (Some (lit "Foo = a b")) (fun _ => None) = Ok t' /\ t' (lit "Foo") = Some (lit "a")) /\
  (exists t', parse_file true (Some (lit "Foo = # none")) (fun _ => None) = Ok t' /\ t' (lit "Foo") = Some (lit "#")).
Proof. repeat split; eexists; vm_compute; auto. Qed.

Example C10_example :
  exists t', parse_file true
      (Some (join_lines [lit "# comment"; lit ""; lit "  end-time = 100 ; days"; lit "Name=" ++ quoted (lit "a""b\" ++ [newline])]))
      (fun _ => None) = Ok t' /\
    t' (lit "EndTime") = Some (lit "100") /\ t' (lit "Name") = Some (lit "a""b\" ++ [newline]).
Proof. eexists. vm_compute. auto. Qed.
Example C10_lines_example :
  Forall2 Line [lit "# c"; lit ""; lit "end-time = 100 ; days"]
    [None; None; Some (lit "EndTime", lit "100")].
Proof.
  constructor; [|constructor; [|constructor; [|constructor]]].
  - apply (line_comment [] (lit "# c")); vm_compute; auto; intuition discriminate.
  - apply line_blank; vm_compute; auto.
  - apply (line_pair [] (lit "end-time") (lit "EndTime") [" "%char] [" "%char] (lit "100") (lit "100") [" "%char] (lit "; days"));
      try (vm_compute; reflexivity); try (vm_compute; intuition discriminate).
    all: try (apply transform_key_iff; reflexivity).
    all: try (apply vt_plain; vm_compute; auto; try discriminate; intuition discriminate).
    all: right; repeat split; vm_compute; auto; intuition discriminate.
Qed.

(** C12. The line breaking loop always ends. *)
Theorem C12_line_breaking_terminates : forall msg indent width,
  exists fuel r, break_lines msg indent width fuel = Some r /\
    forall fuel', fuel <= fuel' -> break_lines msg indent width fuel' = Some r.
Proof.
  intros msg indent width. destruct (break_total msg indent width) as (fuel & r & H).
  exists fuel, r. split; auto. intros fuel' Hle. exact (break_loop_more _ _ _ _ _ _ _ H Hle).
Qed.

(** For texts without line breaks: all visible characters survive, in order, and no line is too long. *)
Theorem C12_single_paragraph_partial : forall msg indent width fuel r, no_newline msg ->
  break_lines msg indent width fuel = Some r ->
  exists out, r = Ok out /\ visible out = visible msg /\
    (indent < width -> forall l, In l (lines_of out) -> length l <= width).
Proof. exact break_no_newline. Qed.

(** Texts whose lines all fit are returned unchanged. *)
Theorem C12_short_lines_unchanged_partial : forall msg indent width fuel r,
  (forall l, In l (lines_of msg) -> length l <= width) ->
  break_lines msg indent width fuel = Some r -> r = Ok msg.
Proof. exact break_short_id. Qed.

(** With line breaks in the text a visible character may be lost. *)
Theorem C12_character_lost_refuted :
  exists msg indent width out, break_lines msg indent width 100 = Some (Ok out) /\
    indent < width /\ visible out <> visible msg.
Proof.
  exists (lit "a" ++ newline :: lit "bcdefghij"), 2, 5. eexists.
  split; [vm_compute; reflexivity|]. split; [lia|]. vm_compute. discriminate.
Qed.

Example C12_example :
  exists out, break_lines (lit "The quick brown fox jumps") 4 12 200 = Some (Ok out) /\
    lines_of out = [lit "The quick"; lit "    brown"; lit "    fox"; lit "    jumps"].
Proof. eexists. vm_compute. auto. Qed.

Print Assumptions C08_accepted_iff_well_formed.
Print Assumptions C08_exactly_the_given_parameters_are_set.
Print Assumptions C08_positional_arguments_in_order.
Print Assumptions C08_positional_means.
Print Assumptions C09_printed_option_sets_the_parameter.
Print Assumptions C09_printed_options_differ.
Print Assumptions C09_only_camel_names_can_be_set.
Print Assumptions C10_well_formed_files_partial.
Print Assumptions C10_accepted_lines_partial.
Print Assumptions C10_malformed_lines_refuted.
Print Assumptions C12_line_breaking_terminates.
Print Assumptions C12_single_paragraph_partial.
Print Assumptions C12_short_lines_unchanged_partial.
Print Assumptions C12_character_lost_refuted.
