(** Proofs about options, parameter files and help text. *)
From Verif Require Import ParamModel ParamSpec.

Ltac allchars := let c := fresh "c" in intros c; destruct c as [[] [] [] [] [] [] [] []]; vm_compute; auto; try discriminate.

Lemma alpha_not_space : forall c, isalpha c = true -> isspace c = false. Proof. allchars. Qed.
Lemma alnum_not_space : forall c, isalnum c = true -> isspace c = false. Proof. allchars. Qed.
Lemma alnum_not_equals : forall c, isalnum c = true -> ceq c equals = false. Proof. allchars. Qed.
Lemma alnum_not_dash : forall c, isalnum c = true -> ceq c dash = false. Proof. allchars. Qed.
Lemma alpha_alnum : forall c, isalpha c = true -> isalnum c = true. Proof. allchars. Qed.
Lemma alpha_not_comment : forall c, isalpha c = true -> (ceq c hash || ceq c semi) = false. Proof. allchars. Qed.
Lemma upper_lower : forall c, isupper c = true -> toupper (tolower c) = c. Proof. allchars. Qed.
Lemma upper_alpha : forall c, isupper c = true -> isalpha (tolower c) = true. Proof. allchars. Qed.
Lemma nonupper_lower : forall c, isupper c = false -> tolower c = c. Proof. allchars. Qed.
Lemma dash_not_space : isspace dash = false. Proof. reflexivity. Qed.
Lemma dash_not_equals : ceq dash equals = false. Proof. reflexivity. Qed.
Lemma equals_not_space : isspace equals = false. Proof. reflexivity. Qed.
Lemma newline_space : isspace newline = true. Proof. reflexivity. Qed.
Lemma toupper_alnum : forall c, isalpha c = true -> isalnum (toupper c) = true. Proof. allchars. Qed.
Lemma toupper_alpha : forall c, isalpha c = true -> isupper (toupper c) = true. Proof. allchars. Qed.

Arguments ceq : simpl never.
Arguments str_eqb : simpl never.
Arguments Nat.ltb : simpl never.
Arguments Nat.leb : simpl never.
Arguments Nat.sub : simpl never.
Arguments newline : simpl never.
Arguments cr : simpl never.
Arguments tab : simpl never.
Arguments quote : simpl never.
Arguments dash : simpl never.
Arguments equals : simpl never.
Arguments backslash : simpl never.
Arguments hash : simpl never.
Arguments semi : simpl never.

Lemma ceq_spec a b : reflect (a = b) (ceq a b).
Proof. unfold ceq. apply Ascii.eqb_spec. Qed.
Lemma ceq_refl a : ceq a a = true. Proof. unfold ceq. apply Ascii.eqb_refl. Qed.

Lemma str_eqb_spec a b : reflect (a = b) (str_eqb a b).
Proof. unfold str_eqb. destruct (list_eq_dec ascii_dec a b); constructor; auto. Qed.
Lemma str_eqb_refl a : str_eqb a a = true.
Proof. destruct (str_eqb_spec a a); congruence. Qed.
Lemma seen_in_spec k l : reflect (In k l) (seen_in k l).
Proof.
  unfold seen_in. induction l as [|x l IH]; cbn.
  - constructor. tauto.
  - destruct (str_eqb_spec k x) as [->|H]; cbn.
    + constructor; auto.
    + destruct IH; constructor; tauto || (intros [E|E]; congruence || tauto).
Qed.

Global Opaque isspace isalpha isalnum isupper islower isdigit toupper tolower.

(** *** Names *)
Lemma transform_tail_complete s t : CamelTail s t -> transform_tail s = Ok t.
Proof.
  induction 1; cbn.
  - reflexivity.
  - rewrite alnum_not_dash, H, IHCamelTail by auto. reflexivity.
  - rewrite ceq_refl, H, IHCamelTail. reflexivity.
Qed.

Lemma transform_tail_sound : forall k s t, length s <= k -> transform_tail s = Ok t -> CamelTail s t.
Proof.
  induction k as [|k IH]; intros [|c s] t Hl H; cbn in H, Hl; try lia.
  - inversion H; constructor.
  - inversion H; constructor.
  - destruct (ceq_spec c dash) as [->|Hd].
    + destruct s as [|d s]; [discriminate|]. destruct (isalpha d) eqn:Ed; [|discriminate].
      destruct (transform_tail s) as [t'|] eqn:Et; [|discriminate]. inversion H; subst.
      constructor; auto. apply IH; auto. cbn in Hl; lia.
    + destruct (isalnum c) eqn:Ec; [|discriminate].
      destruct (transform_tail s) as [t'|] eqn:Et; [|discriminate]. inversion H; subst.
      constructor; auto. apply IH; auto. lia.
Qed.

Lemma transform_key_iff s t : transform_key s = Ok t <-> Camel s t.
Proof.
  split.
  - destruct s as [|c s]; cbn; [discriminate|].
    destruct (isalpha c) eqn:Ec; [|discriminate].
    destruct (transform_tail s) as [t'|] eqn:Et; [|discriminate].
    intros H; inversion H; subst. constructor; auto. eapply transform_tail_sound; eauto.
  - intros H; inversion H; subst. cbn. rewrite H0, (transform_tail_complete _ _ H1). reflexivity.
Qed.

Lemma Camel_fun s t t' : Camel s t -> Camel s t' -> t = t'.
Proof.
  intros H1 H2. apply transform_key_iff in H1, H2. congruence.
Qed.

Definition keychar (c : ascii) : bool := negb (isspace c || ceq c equals).

Lemma CamelTail_chars s t : CamelTail s t -> forallb keychar s = true.
Proof.
  unfold keychar. induction 1; cbn; auto.
  - rewrite alnum_not_space, alnum_not_equals by auto. auto.
  - rewrite dash_not_space, dash_not_equals.
    rewrite alnum_not_space, alnum_not_equals by (apply alpha_alnum; auto). auto.
Qed.
Lemma Camel_chars s t : Camel s t -> forallb keychar s = true.
Proof.
  intros H; inversion H; subst. cbn. unfold keychar at 1.
  rewrite alnum_not_space, alnum_not_equals by (apply alpha_alnum; auto).
  exact (CamelTail_chars _ _ H1).
Qed.

Lemma parse_key_app k r : forallb keychar k = true ->
  match r with [] => True | c :: _ => keychar c = false end ->
  parse_key (k ++ r) = (k, r).
Proof.
  intros Hk Hr. induction k as [|c k IH]; cbn in *.
  - destruct r as [|c r]; cbn; auto. unfold keychar in Hr. destruct (isspace c || ceq c equals); auto; discriminate.
  - apply andb_prop in Hk as [H1 H2]. unfold keychar in H1. apply negb_true_iff in H1. rewrite H1, IH; auto.
Qed.

Lemma parse_key_spec s : forall k r, parse_key s = (k, r) ->
  s = k ++ r /\ forallb keychar k = true /\ match r with [] => True | c :: _ => keychar c = false end.
Proof.
  induction s as [|c s IH]; cbn; intros k r H.
  - inversion H; subst; auto.
  - destruct (isspace c || ceq c equals) eqn:E.
    + inversion H; subst. cbn. unfold keychar. rewrite E. auto.
    + destruct (parse_key s) as [k' r'] eqn:Ek. inversion H; subst.
      destruct (IH _ _ eq_refl) as (E1 & E2 & E3). subst. repeat split; auto.
      cbn. unfold keychar at 1. rewrite E. auto.
Qed.

(** *** Command line *)
Lemma option_not_positional arg n v : OptionArg arg n v -> is_positional arg = false.
Proof.
  intros (key & Hc & ->). inversion Hc; subst. unfold is_positional. cbn.
  rewrite app_length. cbn. rewrite Nat.add_succ_r. reflexivity.
Qed.

Lemma parse_option_success arg c c' : is_positional arg = false ->
  (parse_option arg c = (CSuccess, c') <->
   exists n v, OptionArg arg n v /\ ~ In n (seen c) /\
     c' = {| seen := n :: seen c; ctree := put (ctree c) n v |}).
Proof.
  intros Hp.
  assert (Harg : exists body, arg = dash :: dash :: body).
  { unfold is_positional in Hp. apply orb_false_elim in Hp as [_ Hp]. apply negb_false_iff in Hp.
    destruct arg as [|a [|b body]]; try discriminate. apply andb_prop in Hp as [H1 H2].
    destruct (ceq_spec a dash), (ceq_spec b dash); try discriminate. subst. eauto. }
  destruct Harg as [body ->]. unfold parse_option. cbn [skipn].
  split.
  - destruct body as [|x body']; [discriminate|]. destruct (negb (isalpha x)); [discriminate|].
    destruct (parse_key (x :: body')) as [k rest] eqn:Ek. destruct (parse_key_spec _ _ _ Ek) as (E1 & _ & E3).
    destruct (transform_key k) as [name|] eqn:Et; [|discriminate].
    destruct (seen_in_spec name (seen c)) as [|Hn]; [discriminate|].
    destruct rest as [|y value]; [discriminate|].
    destruct (ceq_spec y equals) as [->|]; [|discriminate].
    intros H; inversion H; subst. exists name, value. cbn. split; [|auto].
    apply transform_key_iff in Et. exists k. split; auto. rewrite E1. reflexivity.
  - intros (n & v & (key & Hc & E) & Hn & ->). inversion E; subst body; clear E.
    assert (Hx : exists x k', key = x :: k' /\ isalpha x = true) by (inversion Hc; subst; eauto).
    destruct Hx as (x & k' & -> & Hx). cbn [app].
    rewrite Hx. cbn [negb].
    change (x :: k' ++ equals :: v) with ((x :: k') ++ equals :: v).
    rewrite (parse_key_app (x :: k') (equals :: v) (Camel_chars _ _ Hc)) by reflexivity.
    rewrite (proj2 (transform_key_iff _ _) Hc).
    destruct (seen_in_spec n (seen c)); [tauto|]. rewrite ceq_refl. reflexivity.
Qed.

Lemma put_same t k v : put t k v k = Some v.
Proof. unfold put. rewrite str_eqb_refl. reflexivity. Qed.
Lemma put_other t k v x : x <> k -> put t k v x = t x.
Proof. unfold put. destruct (str_eqb_spec x k); congruence. Qed.

Lemma OptionArgs_nodup args l : OptionArgs args l -> NoDup (map fst l).
Proof. induction 1; cbn; constructor; auto. Qed.

(** Positional arguments handled one at a time. *)
Section OneEach.
  Variable cb : cstate -> list str -> nat -> nat -> nat * cstate.
  Variable pk : nat -> str.             (* name under which the callback stores an argument *)
  Hypothesis pk_inj : forall a b, pk a = pk b -> a = b.
  Hypothesis pk_fresh : forall k key, ~ Camel key (pk k).
  Variable all : list str.
  Hypothesis cb_def : forall c i npos,
    cb c all i npos = (1, {| seen := seen c; ctree := put (ctree c) (pk npos) (nth (i - 1) all []) |}).

  Lemma loop_success rest : forall i npos c c' done, all = done ++ rest -> i = S (length done) ->
    cmd_loop cb all rest 0 i npos c = (CSuccess, c') ->
    exists l, OptionArgs (filter (fun a => negb (is_positional a)) rest) l /\
      (forall n, In n (map fst l) -> ~ In n (seen c)) /\
      (forall n v, In (n, v) l -> ctree c' n = Some v) /\
      (forall k a, nth_error (filter is_positional rest) k = Some a -> ctree c' (pk (npos + k)) = Some a) /\
      (forall n, ~ In n (map fst l) -> (forall k, k < length (filter is_positional rest) -> n <> pk (npos + k)) ->
                 ctree c' n = ctree c n).
  Proof.
    induction rest as [|a rest IH]; intros i npos c c' done Hall Hi H; cbn in H.
    - inversion H; subst. exists []. cbn. repeat split; auto; try tauto; try constructor.
      intros k a Hk; destruct k; discriminate.
    - cbn [filter]. destruct (is_positional a) eqn:Ep; cbn [negb].
      + rewrite cb_def in H.
        assert (Hd : nth (i - 1) all [] = a).
        { subst i all. rewrite app_nth2 by lia. replace (S (length done) - 1 - length done) with 0 by lia. reflexivity. }
        rewrite Hd in H.
        assert (Hall' : all = (done ++ [a]) ++ rest) by (rewrite <- app_assoc; exact Hall).
        assert (Hi' : S i = S (length (done ++ [a]))) by (rewrite app_length; cbn; lia).
        destruct (IH _ _ _ _ _ Hall' Hi' H) as (l & H1 & H2 & H3 & H4 & H5). cbn in *.
        exists l. split; [|split; [|split; [|split]]]; auto.
        * intros [|k] x Hx; cbn in Hx.
          -- inversion Hx; subst x. rewrite Nat.add_0_r.
             assert (Hf : ~ In (pk npos) (map fst l)); [|rewrite H5; auto].
             ++ intros Hin. clear - Hin H1 pk_fresh. induction H1 as [|x nm vl xs l0 Ho _ _ IHo]; cbn in Hin; auto.
                destruct Hin as [E|Hin]; auto. destruct Ho as (key & Hc & _). rewrite E in Hc. exact (pk_fresh _ _ Hc).
             ++ apply put_same.
             ++ intros k _ E. apply pk_inj in E. lia.
          -- rewrite Nat.add_succ_r. exact (H4 _ _ Hx).
        * intros n Hn Hk. rewrite H5; auto.
          -- apply put_other. specialize (Hk 0). rewrite Nat.add_0_r in Hk. apply Hk. lia.
          -- intros k Hlt. specialize (Hk (S k)). rewrite Nat.add_succ_r in Hk. apply Hk. lia.
      + destruct (parse_option a c) as [[] c1] eqn:Eo; try discriminate.
        destruct (proj1 (parse_option_success _ _ _ Ep) Eo) as (n & v & Ha & Hn & ->).
        assert (Hall' : all = (done ++ [a]) ++ rest) by (rewrite <- app_assoc; exact Hall).
        assert (Hi' : S i = S (length (done ++ [a]))) by (rewrite app_length; cbn; lia).
        destruct (IH _ _ _ _ _ Hall' Hi' H) as (l & H1 & H2 & H3 & H4 & H5). cbn in *.
        assert (Hnl : ~ In n (map fst l)) by (intros Hin; apply (H2 _ Hin); auto).
        assert (Hnp : forall k, n <> pk k) by (intros k ->; destruct Ha as (key & Hc & _); exact (pk_fresh _ _ Hc)).
        exists ((n, v) :: l). split; [|split; [|split; [|split]]].
        * constructor; auto.
        * cbn. intros x [<-|Hx]; auto. intros Hin; apply (H2 _ Hx); auto.
        * cbn. intros x w [E|Hx]; auto. inversion E; subst.
          rewrite H5; auto. apply put_same.
        * exact H4.
        * cbn. intros x Hx Hk. rewrite H5; auto.
          apply put_other. intros ->; apply Hx; auto.
  Qed.

  Lemma loop_complete rest : forall i npos c l, all <> [] \/ rest = [] ->
    OptionArgs (filter (fun a => negb (is_positional a)) rest) l ->
    (forall n, In n (map fst l) -> ~ In n (seen c)) ->
    exists c', cmd_loop cb all rest 0 i npos c = (CSuccess, c').
  Proof.
    induction rest as [|a rest IH]; intros i npos c l Hne Ho Hs; cbn.
    - eauto.
    - cbn in Ho. destruct (is_positional a) eqn:Ep; cbn in Ho.
      + rewrite cb_def. eapply IH; eauto. destruct Hne; auto. discriminate.
      + inversion Ho; subst.
        assert (E : parse_option a c = (CSuccess, {| seen := name :: seen c; ctree := put (ctree c) name value |})).
        { apply parse_option_success; auto. exists name, value. repeat split; auto. apply Hs; cbn; auto. }
        rewrite E. eapply IH; eauto.
        * destruct Hne; auto. discriminate.
        * cbn. intros n Hn [->|Hin]; [tauto|]. apply (Hs n); cbn; auto.
  Qed.
End OneEach.

(** Without positional arguments (default callback). *)
Lemma noposn_success all rest : forall i npos c c',
  cmd_loop no_positional all rest 0 i npos c = (CSuccess, c') ->
  exists l, OptionArgs rest l /\
    (forall n, In n (map fst l) -> ~ In n (seen c)) /\
    (forall n v, In (n, v) l -> ctree c' n = Some v) /\
    (forall n, ~ In n (map fst l) -> ctree c' n = ctree c n).
Proof.
  induction rest as [|a rest IH]; intros i npos c c' H; cbn in H.
  - inversion H; subst. exists []. cbn. repeat split; auto; try tauto. constructor.
  - destruct (is_positional a) eqn:Ep; [discriminate|].
    destruct (parse_option a c) as [[] c1] eqn:Eo; try discriminate.
    destruct (proj1 (parse_option_success _ _ _ Ep) Eo) as (n & v & Ha & Hn & ->).
    destruct (IH _ _ _ _ H) as (l & H1 & H2 & H3 & H5). cbn in *.
    assert (Hnl : ~ In n (map fst l)) by (intros Hin; apply (H2 _ Hin); auto).
    exists ((n, v) :: l). repeat split.
    + constructor; auto.
    + cbn. intros x [<-|Hx]; auto. intros Hin; apply (H2 _ Hx); auto.
    + cbn. intros x w [E|Hx]; auto. inversion E; subst. rewrite H5; auto. apply put_same.
    + cbn. intros x Hx. rewrite H5; auto. apply put_other. intros ->; apply Hx; auto.
Qed.

Lemma noposn_complete all rest : forall i npos c l, OptionArgs rest l ->
  (forall n, In n (map fst l) -> ~ In n (seen c)) ->
  exists c', cmd_loop no_positional all rest 0 i npos c = (CSuccess, c').
Proof.
  induction rest as [|a rest IH]; intros i npos c l Ho Hs; cbn.
  - eauto.
  - inversion Ho; subst. rewrite (option_not_positional _ _ _ H1).
    assert (E : parse_option a c = (CSuccess, {| seen := name :: seen c; ctree := put (ctree c) name value |})).
    { apply parse_option_success; eauto using option_not_positional.
      exists name, value. repeat split; auto. apply Hs; cbn; auto. }
    rewrite E. eapply IH; eauto.
    cbn. intros n Hn [->|Hin]; [tauto|]. apply (Hs n); cbn; auto.
Qed.

Lemma OptionArgs_fun args : forall l l', OptionArgs args l -> OptionArgs args l' -> l = l'.
Proof.
  induction args as [|a args IH]; intros l l' H1 H2; inversion H1; inversion H2; subst; auto.
  rewrite (IH _ _ H6 H12). f_equal.
  destruct H3 as (k1 & C1 & E1), H9 as (k2 & C2 & E2). rewrite E1 in E2. inversion E2 as [E3].
  pose proof (parse_key_app k1 (equals :: value) (Camel_chars _ _ C1) eq_refl) as P1.
  pose proof (parse_key_app k2 (equals :: value0) (Camel_chars _ _ C2) eq_refl) as P2.
  rewrite E3 in P1. rewrite P1 in P2. inversion P2; subst.
  rewrite (Camel_fun _ _ _ C1 C2). reflexivity.
Qed.

(** *** Option names in the help *)
Lemma kebab_tail r : forallb isalnum r = true -> CamelTail (kebab r) r.
Proof.
  induction r as [|c r IH]; cbn; intros H; [constructor|].
  apply andb_prop in H as [H1 H2]. destruct (isupper c) eqn:E.
  - rewrite <- (upper_lower c E) at 2. constructor; auto. apply upper_alpha; auto.
  - rewrite (nonupper_lower c E). constructor; auto.
Qed.

Lemma kebab_camel n : camel_name n -> exists key, cmdline_name n = dash :: dash :: key /\ Camel key n.
Proof.
  destruct n as [|c r]; cbn; [tauto|]. intros [H1 H2]. unfold cmdline_name. cbn. rewrite H1.
  eexists. split; [reflexivity|]. rewrite <- (upper_lower c H1) at 2.
  constructor; [apply upper_alpha; auto|apply kebab_tail; auto].
Qed.

Lemma Camel_name key n : Camel key n -> camel_name n.
Proof.
  intros H; inversion H; subst. cbn. split; [apply toupper_alpha; auto|].
  clear - H1. induction H1; cbn; auto.
  - rewrite H; auto.
  - rewrite toupper_alnum; auto.
Qed.

(** *** Parameter files *)
Lemma rls_blank s r : blank s -> remove_leading_space (s ++ r) = remove_leading_space r.
Proof.
  unfold blank. induction s as [|c s IH]; cbn; auto. intros H. apply andb_prop in H as [-> H]. auto.
Qed.
Lemma rls_blank_nil s : blank s -> remove_leading_space s = [].
Proof. intros H. rewrite <- (app_nil_r s). rewrite rls_blank by auto. reflexivity. Qed.
Lemma rls_nonspace c r : isspace c = false -> remove_leading_space (c :: r) = c :: r.
Proof. cbn. intros ->. reflexivity. Qed.

Lemma parse_quoted_escape v r : parse_quoted_tail (flat_map escape_char v ++ quote :: r) = Ok (v, r).
Proof.
  induction v as [|c v IH]; cbn [flat_map app].
  - cbn. reflexivity.
  - unfold escape_char at 1.
    destruct (ceq_spec c newline) as [->|]; [cbn in *; rewrite IH; reflexivity|].
    destruct (ceq_spec c cr) as [->|]; [cbn in *; rewrite IH; reflexivity|].
    destruct (ceq_spec c tab) as [->|]; [cbn in *; rewrite IH; reflexivity|].
    destruct (ceq_spec c quote) as [->|]; [cbn in *; rewrite IH; reflexivity|].
    destruct (ceq_spec c backslash) as [->|]; [cbn in *; rewrite IH; reflexivity|].
    cbn [app parse_quoted_tail]. destruct (ceq_spec c backslash), (ceq_spec c quote); try congruence.
    rewrite IH. reflexivity.
Qed.

Lemma parse_quoted_quoted v r : parse_quoted (quoted v ++ r) = Ok (v, r).
Proof.
  unfold quoted, parse_quoted. cbn [app]. rewrite ceq_refl, <- app_assoc. cbn [app].
  apply parse_quoted_escape.
Qed.

Lemma parse_unquoted_app v r : no_space v -> match r with [] => True | c :: _ => isspace c = true end ->
  parse_unquoted (v ++ r) = (v, r).
Proof.
  unfold no_space. induction v as [|c v IH]; cbn; intros H Hr.
  - destruct r as [|c r]; cbn; auto. rewrite Hr. reflexivity.
  - apply andb_prop in H as [H1 H2]. apply negb_true_iff in H1. rewrite H1, IH; auto.
Qed.

Lemma parse_line_none ov l f : Line l None -> parse_line ov l f = Ok f.
Proof.
  intros H; inversion H; subst; unfold parse_line.
  - rewrite rls_blank_nil; auto.
  - rewrite rls_blank by auto. destruct c as [|c r]; [destruct H2|].
    cbn in H2. rewrite rls_nonspace by (destruct H2; subst; reflexivity).
    destruct H2; subst; reflexivity.
Qed.

Definition file_put (ov : bool) (t : tree) (n v : str) : tree :=
  if ov || match t n with None => true | _ => false end then put t n v else t.

Lemma blank_app s c : blank s -> s <> [] \/ c = [] -> match s ++ c with [] => True | x :: _ => isspace x = true end.
Proof.
  intros Hb H. destruct s as [|x s]; cbn.
  - destruct H as [H| ->]; [congruence|exact I].
  - unfold blank in Hb. cbn in Hb. apply andb_prop in Hb as [-> _]. auto.
Qed.

Lemma blank_keychar s r : blank s -> match s ++ equals :: r with [] => True | c :: _ => keychar c = false end.
Proof.
  intros Hb. destruct s as [|x s]; cbn; [reflexivity|].
  unfold blank in Hb. cbn in Hb. apply andb_prop in Hb as [Hx _]. unfold keychar. rewrite Hx. reflexivity.
Qed.

Lemma parse_line_pair ov l n v f : Line l (Some (n, v)) -> ~ In n (fseen f) ->
  parse_line ov l f = Ok {| fseen := n :: fseen f; ftree := file_put ov (ftree f) n v |}.
Proof.
  intros H Hn.
  inversion H as [| |s0 key name s1 s2 vt v0 s3 c B0 N0 HC B1 N1 B2 N2 HV B3 N3 HT El En]; subst. unfold parse_line.
  rewrite rls_blank by auto.
  assert (Hx : exists x k', key = x :: k' /\ isalpha x = true) by (inversion HC; subst; eauto).
  destruct Hx as (x & k' & -> & Hx). cbn [app].
  rewrite rls_nonspace by (apply alpha_not_space; auto).
  rewrite alpha_not_comment by auto.
  match goal with |- context [parse_key (?a :: ?b ++ ?c)] => change (a :: b ++ c) with ((a :: b) ++ c) end.
  rewrite (parse_key_app _ _ (Camel_chars _ _ HC)) by (apply blank_keychar; auto).
  rewrite (proj2 (transform_key_iff _ _) HC).
  destruct (seen_in_spec n (fseen f)); [tauto|].
  rewrite rls_blank by auto. rewrite rls_nonspace by reflexivity.
  rewrite rls_blank by auto.
  destruct HV as [v|v Hv1 Hv2 Hv3 Hv4 Hv5 Hv6].
  - assert (E : remove_leading_space (quoted v ++ s3 ++ c) = quoted v ++ s3 ++ c)
      by (unfold quoted; cbn [app]; apply rls_nonspace; reflexivity).
    rewrite E. unfold quoted at 1. cbn [app]. rewrite ceq_refl.
    rewrite parse_quoted_quoted. reflexivity.
  - destruct v as [|y v']; [congruence|]. cbn [app].
    assert (Hy : isspace y = false).
    { unfold no_space in Hv2. cbn in Hv2. apply andb_prop in Hv2 as [E _]. apply negb_true_iff in E. auto. }
    rewrite rls_nonspace by auto.
    destruct (ceq_spec y quote) as [->|_]; [cbn in Hv4; congruence|].
    match goal with |- context [parse_unquoted (?a :: ?b ++ ?c)] => change (a :: b ++ c) with ((a :: b) ++ c) end.
    rewrite parse_unquoted_app; auto. apply blank_app; auto.
    destruct HT as [->|(_ & _ & ?)]; auto.
Qed.

Lemma parse_lines_ok ov ls as_ : Forall2 Line ls as_ -> forall f, NoDup (map fst (settings as_)) ->
  (forall n, In n (map fst (settings as_)) -> ~ In n (fseen f)) ->
  exists f', parse_lines ov ls f = Ok f' /\ file_set ov (ftree f) (ftree f') (settings as_).
Proof.
  induction 1 as [|l a ls as_ Hl _ IH]; intros f Hnd Hs; cbn.
  - exists f. split; auto. split; cbn; [tauto|auto].
  - destruct a as [[n v]|]; cbn [settings] in *.
    + cbn in Hnd, Hs. inversion Hnd; subst.
      rewrite (parse_line_pair ov l n v f Hl) by (apply Hs; auto).
      edestruct (IH {| fseen := n :: fseen f; ftree := file_put ov (ftree f) n v |}) as (f' & E & F1 & F2); auto.
      { cbn. intros x Hx [<-|Hin]; [tauto|]. apply (Hs x); auto. }
      exists f'. split; auto. cbn in *.
      split; cbn.
      * intros x w [E'|Hin].
        -- inversion E'; subst. rewrite F2 by auto. unfold file_put.
           destruct ov; cbn; [apply put_same|]. destruct (ftree f x) eqn:Et; auto. apply put_same.
        -- rewrite (F1 _ _ Hin). assert (x <> n) by (intros ->; apply H1; apply in_map_iff; exists (n, w); auto).
           unfold file_put. destruct (ov || _); [|reflexivity]. rewrite put_other by auto. reflexivity.
      * intros x Hx. rewrite F2 by tauto. unfold file_put. destruct (ov || _); auto.
        apply put_other. intros ->; apply Hx; auto.
    + rewrite (parse_line_none ov l f Hl). apply IH; auto.
Qed.

(** Lines of a text. *)
Lemma lines_of_nonl l : no_newline l -> lines_of l = [l].
Proof.
  unfold no_newline. induction l as [|c l IH]; cbn; auto. intros H.
  destruct (ceq_spec c newline); [exfalso; apply H; auto|]. rewrite IH by tauto. reflexivity.
Qed.
Lemma lines_of_app l r : no_newline l -> lines_of (l ++ newline :: r) = l :: lines_of r.
Proof.
  unfold no_newline. induction l as [|c l IH]; intros H.
  - reflexivity.
  - cbn in *. destruct (ceq_spec c newline); [exfalso; apply H; auto|]. rewrite IH by tauto. reflexivity.
Qed.
Lemma lines_of_join ls : ls <> [] -> Forall no_newline ls -> lines_of (join_lines ls) = ls.
Proof.
  induction ls as [|l ls IH]; [congruence|]. intros _ H. inversion H; subst.
  destruct ls as [|l' ls'].
  - apply lines_of_nonl; auto.
  - change (join_lines (l :: l' :: ls')) with (l ++ newline :: join_lines (l' :: ls')).
    rewrite lines_of_app, IH by (auto; discriminate). reflexivity.
Qed.

Lemma nn_app a b : no_newline a -> no_newline b -> no_newline (a ++ b).
Proof. unfold no_newline. intros H1 H2 H. apply in_app_iff in H. tauto. Qed.
Lemma keychar_nn k : forallb keychar k = true -> no_newline k.
Proof.
  intros H Hin. rewrite forallb_forall in H. apply H in Hin. discriminate.
Qed.
Lemma escape_char_nn c : no_newline (escape_char c).
Proof.
  unfold no_newline, escape_char.
  destruct (ceq_spec c newline); [intros [E|[E|[]]]; discriminate E|].
  destruct (ceq_spec c cr); [intros [E|[E|[]]]; discriminate E|].
  destruct (ceq_spec c tab); [intros [E|[E|[]]]; discriminate E|].
  destruct (ceq_spec c quote); [intros [E|[E|[]]]; discriminate E|].
  destruct (ceq_spec c backslash); [intros [E|[E|[]]]; discriminate E|].
  intros [E|[]]. congruence.
Qed.
Lemma escape_nn v : no_newline (flat_map escape_char v).
Proof.
  unfold no_newline. rewrite in_flat_map. intros (c & _ & H). exact (escape_char_nn c H).
Qed.
Lemma Line_nn l a : Line l a -> no_newline l.
Proof.
  intros H; inversion H; subst; auto.
  - apply nn_app; auto.
  - repeat apply nn_app; auto.
    + exact (keychar_nn _ (Camel_chars _ _ H2)).
    + intros [E|[]]; discriminate E.
    + destruct H7.
      * unfold quoted. intros [E|Hin]; [discriminate E|]. apply in_app_iff in Hin as [Hin|[E|[]]]; [|discriminate E].
        exact (escape_nn _ Hin).
      * auto.
    + destruct H10 as [->|(_ & ? & _)]; auto. intros [].
Qed.

Lemma parse_file_ok ov ls as_ t : Forall2 Line ls as_ -> NoDup (map fst (settings as_)) ->
  exists t', parse_file ov (Some (join_lines ls)) t = Ok t' /\ file_set ov t t' (settings as_).
Proof.
  intros H Hnd. cbn.
  destruct (parse_lines_ok ov ls as_ H {| fseen := []; ftree := t |} Hnd) as (f' & E & F); [cbn; tauto|].
  destruct ls as [|l ls].
  - cbn in *. inversion E; subst. eexists; split; [reflexivity|exact F].
  - rewrite lines_of_join, E.
    + eexists; split; [reflexivity|exact F].
    + discriminate.
    + clear - H. induction H; constructor; auto. eapply Line_nn; eauto.
Qed.

(** What every accepted line looks like. *)
Lemma rls_split s : exists b r, s = b ++ r /\ blank b /\ remove_leading_space s = r /\
  match r with [] => True | c :: _ => isspace c = false end.
Proof.
  induction s as [|c s IH]; cbn.
  - exists [], []. repeat split.
  - destruct (isspace c) eqn:E.
    + destruct IH as (b & r & -> & H1 & H2 & H3). exists (c :: b), r. repeat split; auto.
      unfold blank in *. cbn. rewrite E; auto.
    + exists [], (c :: s). repeat split; auto.
Qed.

Lemma accepted_line ov l f f' : parse_line ov l f = Ok f' ->
  (f' = f /\ exists b r, l = b ++ r /\ blank b /\ (r = [] \/ comment r)) \/
  (exists b key name b1 c rest v, l = b ++ key ++ b1 ++ c :: rest /\ blank b /\ blank b1 /\
     isspace c = false /\ Camel key name /\ ~ In name (fseen f) /\
     f' = {| fseen := name :: fseen f; ftree := file_put ov (ftree f) name v |}).
Proof.
  unfold parse_line. destruct (rls_split l) as (b & r & -> & Hb & Er & Hr). rewrite Er.
  destruct r as [|c r].
  - intros H; inversion H; subst. left. split; auto. exists b, []. auto.
  - destruct (ceq c hash || ceq c semi) eqn:Ec.
    { intros H; inversion H; subst. left. split; auto. exists b, (c :: r). repeat split; auto.
      right. cbn. destruct (ceq_spec c hash); auto. destruct (ceq_spec c semi); auto. discriminate. }
    destruct (parse_key (c :: r)) as [key l1] eqn:Ek. destruct (parse_key_spec _ _ _ Ek) as (E1 & _ & _).
    destruct (transform_key key) as [name|] eqn:Et; [|discriminate]. apply transform_key_iff in Et.
    destruct (seen_in_spec name (fseen f)) as [|Hn]; [discriminate|].
    destruct (rls_split l1) as (b1 & r1 & -> & Hb1 & Er1 & Hr1). rewrite Er1.
    destruct r1 as [|y l2]; [discriminate|].
    match goal with |- match ?v with _ => _ end = _ -> _ => destruct v as [[value tl]|]; [|discriminate] end.
    intros H; inversion H; subst. right.
    exists b, key, name, b1, y, l2, value. rewrite E1. repeat split; auto.
Qed.

(** *** Breaking lines *)
Lemma skipn_nth (s : str) i d : i < length s -> skipn i s = nth i s d :: skipn (S i) s.
Proof.
  revert i; induction s as [|c s IH]; intros [|i] H; cbn in *; try lia; auto. apply IH. lia.
Qed.
Lemma firstn_skipn_app (s : str) a b : a <= b -> firstn a s ++ firstn (b - a) (skipn a s) = firstn b s.
Proof.
  revert a b; induction s as [|c s IH]; intros a b H.
  - rewrite skipn_nil, !firstn_nil. reflexivity.
  - destruct a as [|a]; cbn.
    + rewrite Nat.sub_0_r. reflexivity.
    + destruct b as [|b]; [lia|]. rewrite Nat.sub_succ. cbn. f_equal. apply IH. lia.
Qed.
Lemma firstn_S_nth (s : str) i d : i < length s -> firstn (S i) s = firstn i s ++ [nth i s d].
Proof.
  revert i; induction s as [|c s IH]; intros [|i] H; cbn in *; try lia; auto. f_equal. apply IH. lia.
Qed.

Lemma skipn_skipn' (s : str) : forall a b, skipn a (skipn b s) = skipn (a + b) s.
Proof.
  induction s as [|c s IH]; intros a b.
  - rewrite !skipn_nil. reflexivity.
  - destruct b as [|b]; [rewrite Nat.add_0_r; reflexivity|]. rewrite Nat.add_succ_r. cbn. apply IH.
Qed.

Section BreakProofs.
  Variable msg : str.
  Variable ind mw : nat.
  Notation n := (length msg).

  Definition mu (b : bst) : nat := (n + 3 - b_start b) * (n + 3) + (n + 3 - b_in b).

  Lemma break_step_mu b b' : b_start b <= b_in b -> b_in b < n -> break_step msg ind mw b = BNext b' ->
    mu b' < mu b /\ b_start b' <= b_in b'.
  Proof.
    intros H1 H2. unfold break_step.
    assert (Hlex : forall s' i', (b_start b < s' /\ 1 <= i' \/ (b_start b <= s' /\ b_in b < i')) ->
      (n + 3 - s') * (n + 3) + (n + 3 - i') < mu b).
    { intros s' i' Hor. unfold mu. destruct Hor as [[Hs Hi]|[Hs Hi]].
      - assert (n + 3 - s' <= (n + 3 - b_start b) - 1) by lia.
        assert ((n + 3 - s') * (n + 3) <= ((n + 3 - b_start b) - 1) * (n + 3)) by (apply Nat.mul_le_mono_r; lia).
        assert (((n + 3 - b_start b) - 1) * (n + 3) + (n + 3) = (n + 3 - b_start b) * (n + 3)).
        { assert (1 <= n + 3 - b_start b) by lia. rewrite Nat.mul_sub_distr_r.
          assert (1 * (n + 3) <= (n + 3 - b_start b) * (n + 3)) by (apply Nat.mul_le_mono_r; auto). lia. }
        lia.
      - assert ((n + 3 - s') * (n + 3) <= (n + 3 - b_start b) * (n + 3)) by (apply Nat.mul_le_mono_r; lia).
        lia. }
    unfold substr.
    destruct (ceq _ newline).
    - destruct (n <? b_start b); [discriminate|]. intros E; inversion E; subst; cbn. split; [apply Hlex; cbn|]; lia.
    - destruct (mw <=? b_tty b).
      + set (last := if isspace _ then _ else _). destruct (Nat.ltb_spec (b_start b) last).
        * destruct (n <? b_start b); [discriminate|]. intros E; inversion E; subst; cbn. split; [apply Hlex; cbn|]; lia.
        * destruct (n <? b_start b); [discriminate|]. intros E; inversion E; subst; cbn. split; [apply Hlex; cbn|]; lia.
      + intros E; inversion E; subst; cbn. split; [apply Hlex; cbn|]; lia.
  Qed.

  Lemma break_loop_total : forall fuel b, b_start b <= b_in b -> mu b <= fuel ->
    exists r, break_loop msg ind mw fuel b = Some r.
  Proof.
    induction fuel as [|fuel IH]; intros b H1 H2; cbn.
    - destruct (Nat.ltb_spec (b_in b) n).
      + unfold mu in H2. lia.
      + destruct (substr_end msg (b_start b)); eauto.
    - destruct (Nat.ltb_spec (b_in b) n).
      + destruct (break_step msg ind mw b) as [b'|] eqn:E; eauto.
        destruct (break_step_mu _ _ H1 H E) as [Hm Hs]. apply IH; auto. lia.
      + destruct (substr_end msg (b_start b)); eauto.
  Qed.

  Lemma break_total : exists fuel r, break_lines msg ind mw fuel = Some r.
  Proof.
    eexists. apply break_loop_total; [cbn; lia|]. reflexivity.
  Qed.

  (** More fuel does not change the result. *)
  Lemma break_loop_more : forall fuel fuel' b r, break_loop msg ind mw fuel b = Some r ->
    fuel <= fuel' -> break_loop msg ind mw fuel' b = Some r.
  Proof.
    induction fuel as [|fuel IH]; intros fuel' b r H Hle; cbn in H.
    - destruct fuel'; cbn; destruct (b_in b <? n); auto; discriminate.
    - destruct fuel' as [|fuel']; [lia|]. cbn. destruct (b_in b <? n); auto.
      destruct (break_step msg ind mw b); auto. apply IH; auto. lia.
  Qed.

  (** Texts without line breaks. *)
  Definition lines_text (L : list str) : str := flat_map (fun l => l ++ [newline]) L.

  Record BInv (b : bst) : Prop := {
    bi_order : b_start b <= b_last b /\ b_last b <= b_in b /\ b_start b <= n /\ b_in b <= n + 1 /\
               (b_in b = n + 1 -> b_start b = n);
    bi_space : b_start b < b_last b -> isspace (nth (b_last b) msg "000"%char) = true;
    bi_vis : visible (b_out b) = visible (firstn (b_start b) msg);
    bi_lines : exists L pad, b_out b = lines_text L ++ pad /\
       (forall l, In l L -> no_newline l /\ (ind < mw -> length l <= mw)) /\
       forallb (ceq " "%char) pad = true /\
       b_tty b = length pad + (b_in b - b_start b) /\ (ind < mw -> b_tty b <= mw) }.

  Hypothesis Hnn : no_newline msg.

  Lemma visible_app a b : visible (a ++ b) = visible a ++ visible b.
  Proof. unfold visible. apply filter_app. Qed.

  Lemma nn_part a b : no_newline (firstn b (skipn a msg)).
  Proof.
    intros H. apply Hnn. rewrite <- (firstn_skipn a msg). apply in_or_app; right.
    rewrite <- (firstn_skipn b (skipn a msg)). apply in_or_app; auto.
  Qed.
  Lemma nn_nth i : i < n -> ceq (nth i msg "000"%char) newline = false.
  Proof.
    intros H. destruct (ceq_spec (nth i msg "000"%char) newline) as [E|]; auto.
    exfalso. apply Hnn. rewrite <- E. apply nth_In; auto.
  Qed.
  Lemma pad_nn pad : forallb (ceq " "%char) pad = true -> no_newline pad.
  Proof. intros H Hin. rewrite forallb_forall in H. apply H in Hin. discriminate. Qed.
  Lemma pad_visible pad : forallb (ceq " "%char) pad = true -> visible pad = [].
  Proof.
    induction pad as [|c pad IH]; cbn; auto. intros H. apply andb_prop in H as [H1 H2].
    destruct (ceq_spec " "%char c); [subst|discriminate]. cbn. auto.
  Qed.
  Lemma repeat_pad k : forallb (ceq " "%char) (repeat " "%char k) = true.
  Proof. induction k; cbn; auto. Qed.

  Lemma visible_newline : visible [newline] = []. Proof. reflexivity. Qed.

  Lemma substr_len a b : length (firstn b (skipn a msg)) <= b.
  Proof. apply firstn_le_length. Qed.

  Lemma BInv_step b b' : BInv b -> b_in b < n -> break_step msg ind mw b = BNext b' -> BInv b'.
  Proof.
    intros [(O1 & O2 & O3 & O4 & O5) Hsp Hv (L & pad & Eo & HL & Hp & Ht & Hw)] Hi E.
    unfold break_step in E. rewrite nn_nth in E by auto.
    set (last := if isspace (nth (b_in b) msg "000"%char) then b_in b else b_last b) in E.
    assert (Hlast : b_start b <= last <= b_in b) by (clear E; unfold last; clear last; destruct (isspace (nth (b_in b) msg "000"%char)); lia).
    assert (Hlsp : b_start b < last -> isspace (nth last msg "000"%char) = true).
    { unfold last. destruct (isspace (nth (b_in b) msg "000"%char)) eqn:Es; auto. }
    unfold substr in E. destruct (Nat.ltb_spec n (b_start b)); [lia|].
    assert (Hpad : forall k, b_start b <= k <= b_in b ->
       exists L' pad', b_out b ++ firstn (k - b_start b) (skipn (b_start b) msg) ++ newline :: repeat " "%char ind
          = lines_text L' ++ pad' /\ pad' = repeat " "%char ind /\
         (forall l, In l L' -> no_newline l /\ (ind < mw -> length l <= mw))).
    { intros k Hk. exists (L ++ [pad ++ firstn (k - b_start b) (skipn (b_start b) msg)]), (repeat " "%char ind).
      split; [|split; auto].
      - rewrite Eo. unfold lines_text. rewrite flat_map_app. cbn. rewrite app_nil_r, <- !app_assoc. reflexivity.
      - intros l Hl. apply in_app_iff in Hl as [Hl|[<-|[]]]; auto. split.
        + apply nn_app; [apply pad_nn; auto|apply nn_part].
        + intros Hm. specialize (Hw Hm). rewrite app_length. pose proof (substr_len (b_start b) (k - b_start b)). lia. }
    assert (Hvis : forall k, b_start b <= k -> 
       visible (b_out b ++ firstn (k - b_start b) (skipn (b_start b) msg) ++ newline :: repeat " "%char ind) =
       visible (firstn k msg)).
    { intros k Hk. rewrite !visible_app, Hv. change (newline :: repeat " "%char ind) with ([newline] ++ repeat " "%char ind).
      rewrite visible_app, visible_newline, (pad_visible _ (repeat_pad ind)), app_nil_r.
      rewrite <- visible_app, firstn_skipn_app by auto. reflexivity. }
    destruct (mw <=? b_tty b) eqn:Em.
    - apply Nat.leb_le in Em. destruct (Nat.ltb_spec (b_start b) last).
      + inversion E; subst b'; clear E. constructor; cbn.
        * lia.
        * intros; lia.
        * rewrite Hvis by lia.
          rewrite Nat.add_1_r, (firstn_S_nth msg last "000"%char) by lia.
          rewrite visible_app. cbn. rewrite Hlsp by auto. cbn. rewrite app_nil_r. reflexivity.
        * destruct (Hpad last) as (L' & pad' & E1 & -> & E3); [lia|].
          exists L', (repeat " "%char ind). rewrite E1. repeat split; auto.
          -- apply E3; auto.
          -- apply E3; auto.
          -- apply repeat_pad.
          -- rewrite repeat_length. lia.
          -- lia.
      + inversion E; subst b'; clear E. constructor; cbn.
        * lia.
        * intros; lia.
        * rewrite Hvis by lia. reflexivity.
        * destruct (Hpad (b_in b)) as (L' & pad' & E1 & -> & E3); [lia|].
          exists L', (repeat " "%char ind). rewrite E1. repeat split; auto.
          -- apply E3; auto.
          -- apply E3; auto.
          -- apply repeat_pad.
          -- rewrite repeat_length. lia.
          -- lia.
    - apply Nat.leb_gt in Em. inversion E; subst b'; clear E. constructor; cbn.
      + lia.
      + exact Hlsp.
      + exact Hv.
      + exists L, pad. repeat split; auto; try (apply HL; auto); lia.
  Qed.

  Lemma break_step_nothrow b : BInv b -> b_in b < n -> exists b', break_step msg ind mw b = BNext b'.
  Proof.
    intros [(O1 & O2 & O3 & O4 & O5) _ _ _] Hi. unfold break_step, substr.
    destruct (Nat.ltb_spec n (b_start b)); [lia|].
    destruct (ceq _ _); eauto. destruct (mw <=? b_tty b); eauto. destruct (b_start b <? _); eauto.
  Qed.

  Lemma lines_of_text L : (forall l, In l L -> no_newline l) -> forall r, no_newline r ->
    lines_of (lines_text L ++ r) = L ++ [r].
  Proof.
    induction L as [|l L IH]; intros HL r Hr; cbn.
    - apply lines_of_nonl; auto.
    - rewrite <- !app_assoc. cbn [app]. rewrite lines_of_app by (apply HL; left; auto). f_equal. apply IH; auto.
      intros; apply HL; right; auto.
  Qed.

  Lemma break_end b fuel r : BInv b -> break_loop msg ind mw fuel b = Some r ->
    exists out, r = Ok out /\ visible out = visible msg /\
      (ind < mw -> forall l, In l (lines_of out) -> length l <= mw).
  Proof.
    revert b. induction fuel as [|fuel IH]; intros b HI H; cbn in H.
    all: destruct (Nat.ltb_spec (b_in b) n) as [Hlt|Hge]; try discriminate.
    2:{ destruct (break_step_nothrow b HI Hlt) as [b' E]. rewrite E in H.
        exact (IH b' (BInv_step _ _ HI Hlt E) H). }
    all: destruct HI as [(O1 & O2 & O3 & O4 & O5) Hsp Hv (L & pad & Eo & HL & Hp & Ht & Hw)].
    all: unfold substr_end in H; destruct (Nat.ltb_spec n (b_start b)); [lia|].
    all: inversion H; subst r; eexists; split; [reflexivity|]; split.
    all: try (rewrite visible_app, Hv, <- visible_app, firstn_skipn; reflexivity).
    all: intros Hm l Hl; rewrite Eo, <- app_assoc in Hl; rewrite lines_of_text in Hl.
    all: try (intros; apply HL; auto; fail).
    all: try (apply nn_app; [apply pad_nn; auto|]; intros Hin; apply Hnn;
              rewrite <- (firstn_skipn (b_start b) msg); apply in_or_app; auto).
    all: apply in_app_iff in Hl as [Hl|[<-|[]]]; [apply HL; auto|].
    all: rewrite app_length, skipn_length; specialize (Hw Hm).
    all: destruct (Nat.eq_dec (b_in b) (n + 1)) as [E1|E1]; [specialize (O5 E1)|]; lia.
  Qed.

  Lemma BInv_init : BInv {| b_out := []; b_start := 0; b_in := 0; b_last := 0; b_tty := 0 |}.
  Proof.
    constructor; cbn; try lia.
    - reflexivity.
    - exists [], []. cbn. repeat split; auto; try tauto; try lia.
  Qed.
End BreakProofs.

Lemma break_no_newline msg ind mw fuel r : no_newline msg -> break_lines msg ind mw fuel = Some r ->
  exists out, r = Ok out /\ visible out = visible msg /\
    (ind < mw -> forall l, In l (lines_of out) -> length l <= mw).
Proof.
  intros Hn H. exact (break_end msg ind mw Hn _ _ _ (BInv_init msg ind mw) H).
Qed.

(** Texts whose lines are short enough are not changed. *)
Section Short.
  Variable msg : str.
  Variable ind mw : nat.
  Hypothesis Hshort : forall l, In l (lines_of msg) -> length l <= mw.
  Notation n := (length msg).

  (** Length of the line that contains position [i], counted from [s]. *)
  Lemma line_len : forall (m : str) k, (forall l, In l (lines_of m) -> length l <= mw) ->
    k < length m -> no_newline (firstn (S k) m) -> k < mw.
  Proof.
    induction m as [|c m IH]; intros k H Hk Hn; cbn in Hk; [lia|].
    assert (G : forall (m : str) k, k < length m -> no_newline (firstn (S k) m) ->
              exists l ls, lines_of m = l :: ls /\ S k <= length l).
    { clear. induction m as [|c m IH]; intros k Hk Hn; [cbn in Hk; lia|].
      cbn [lines_of]. destruct (ceq_spec c newline) as [->|Hc].
      - exfalso. apply Hn. cbn. auto.
      - destruct k as [|k].
        + destruct (lines_of m) as [|l ls]; eexists _, _; split; try reflexivity; cbn; lia.
        + cbn in Hk. destruct (IH k) as (l & ls & E & Hl).
          * lia.
          * intros Hin. apply Hn. cbn. cbn in Hin. right; auto.
          * rewrite E. eexists _, _; split; [reflexivity|]. cbn. lia. }
    destruct (G (c :: m) k) as (l & ls & E & Hl); auto.
    assert (length l <= mw) by (apply H; rewrite E; left; auto). lia.
  Qed.

  Lemma lines_suffix : forall (a b : str), (forall l, In l (lines_of (a ++ newline :: b)) -> length l <= mw) ->
    forall l, In l (lines_of b) -> length l <= mw.
  Proof.
    induction a as [|c a IH]; intros b H l Hl.
    - apply H. cbn. rewrite ceq_refl. cbn; auto.
    - apply (IH b); auto. intros l' Hl'. cbn [app lines_of] in H. destruct (ceq c newline).
      + apply H. right; auto.
      + destruct (lines_of (a ++ newline :: b)) as [|x xs] eqn:E; [destruct Hl'|].
        destruct Hl' as [<-|Hin]; [|apply H; right; auto].
        specialize (H (c :: x) (or_introl eq_refl)). cbn in H. lia.
  Qed.

  Record SInv (b : bst) : Prop := {
    si_out : b_out b = firstn (b_start b) msg;
    si_ord : b_start b <= b_in b <= n;
    si_tty : b_tty b = b_in b - b_start b;
    si_rest : forall l, In l (lines_of (skipn (b_start b) msg)) -> length l <= mw;
    si_nn : no_newline (firstn (b_in b - b_start b) (skipn (b_start b) msg)) }.

  Lemma SInv_step b : SInv b -> b_in b < n -> exists b', break_step msg ind mw b = BNext b' /\ SInv b'.
  Proof.
    intros [H1 H2 H3 H4 H5] Hi. unfold break_step, substr.
    destruct (Nat.ltb_spec n (b_start b)); [lia|].
    assert (Hsk : nth (b_in b - b_start b) (skipn (b_start b) msg) "000"%char = nth (b_in b) msg "000"%char).
    { rewrite <- (firstn_skipn (b_start b) msg) at 2. rewrite app_nth2; rewrite firstn_length_le by lia; [reflexivity|lia]. }
    assert (Hlen : length (skipn (b_start b) msg) = n - b_start b) by apply skipn_length.
    assert (Hnext : firstn (S (b_in b - b_start b)) (skipn (b_start b) msg) =
                    firstn (b_in b - b_start b) (skipn (b_start b) msg) ++ [nth (b_in b) msg "000"%char]).
    { rewrite (firstn_S_nth _ _ "000"%char) by lia. rewrite Hsk. reflexivity. }
    destruct (ceq_spec (nth (b_in b) msg "000"%char) newline) as [Enl|Enl].
    - eexists; split; [reflexivity|]. constructor; cbn.
      + rewrite H1. replace (b_in b - b_start b + 1) with (b_in b + 1 - b_start b) by lia.
        apply firstn_skipn_app. lia.
      + lia.
      + lia.
      + apply (lines_suffix (firstn (b_in b - b_start b) (skipn (b_start b) msg))).
        rewrite <- Enl. rewrite Nat.add_1_r.
        rewrite <- (skipn_nth msg (b_in b)) by auto.
        replace (skipn (b_in b) msg) with (skipn (b_in b - b_start b) (skipn (b_start b) msg)).
        * rewrite firstn_skipn. exact H4.
        * rewrite skipn_skipn'. f_equal. lia.
      + rewrite Nat.sub_diag. cbn. intros [].
    - assert (Hlt : b_tty b < mw).
      { rewrite H3. apply (line_len (skipn (b_start b) msg)); auto; [lia|].
        rewrite Hnext. apply nn_app; auto. intros [E|[]]; congruence. }
      destruct (Nat.leb_spec mw (b_tty b)); [lia|].
      eexists; split; [reflexivity|]. constructor; cbn; auto; try lia.
      replace (b_in b + 1 - b_start b) with (S (b_in b - b_start b)) by lia. rewrite Hnext.
      apply nn_app; auto. intros [E|[]]; congruence.
  Qed.

  Lemma break_short fuel : forall b r, SInv b -> break_loop msg ind mw fuel b = Some r -> r = Ok msg.
  Proof.
    induction fuel as [|fuel IH]; intros b r HI H; cbn in H.
    all: destruct (Nat.ltb_spec (b_in b) n); try discriminate.
    2:{ destruct (SInv_step b HI H0) as (b' & E & HI'). rewrite E in H. exact (IH _ _ HI' H). }
    all: destruct HI as [H1 H2 H3 H4 H5]; unfold substr_end in H; destruct (Nat.ltb_spec n (b_start b)); [lia|].
    all: inversion H; rewrite H1, firstn_skipn; reflexivity.
  Qed.
End Short.

Lemma break_short_id msg ind mw fuel r : (forall l, In l (lines_of msg) -> length l <= mw) ->
  break_lines msg ind mw fuel = Some r -> r = Ok msg.
Proof.
  intros Hs H. eapply (break_short msg ind mw); [|exact H].
  constructor; cbn; auto; try lia. intros [].
Qed.
