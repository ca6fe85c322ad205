(** Proofs about the start routine. *)
From Coq Require Import List Bool ZArith QArith Lia.
Import ListNotations.
From Verif Require Import Num ParamModel ParamSpec ParamProofs StartModel StartSpec.
Local Close Scope Q_scope.
Local Open Scope nat_scope.

Lemma str_eqb_spec a b : reflect (a = b) (str_eqb a b).
Proof. unfold str_eqb. destruct (list_eq_dec _ a b); constructor; assumption. Qed.

Lemma is_help_iff p : existsb is_help (args p) = true <-> asksForHelp p.
Proof.
  unfold asksForHelp. rewrite existsb_exists. unfold is_help. split.
  - intros (a & I & H). rewrite !orb_true_iff in H.
    destruct H as [[H|H]|H]; match type of H with str_eqb ?x ?y = true => destruct (str_eqb_spec x y) as [X|X] end; try discriminate H; subst; auto.
  - intros [H|[H|H]]; eexists; (split; [exact H|]).
    + reflexivity.
    + reflexivity.
    + reflexivity.
Qed.

(** The keys of the tree. *)
Definition dom (keys : list str) (t : tree) : Prop := forall n, In n keys <-> t n <> None.

Lemma put_dom t k v n : put t k v n <> None <-> n = k \/ t n <> None.
Proof.
  unfold put. destruct (str_eqb_spec n k) as [->|N]; [|tauto]. split; [auto|]. discriminate.
Qed.

Lemma option_dom a c c' : parse_option a c = (CSuccess, c') -> dom (seen c) (ctree c) -> dom (seen c') (ctree c').
Proof.
  unfold parse_option. intros H D. destruct (skipn 2 a) as [|x l]; [discriminate|].
  destruct (negb (isalpha x)); [discriminate|]. destruct (parse_key (x :: l)) as (k & rest).
  destruct (transform_key k) as [name|]; [|discriminate]. destruct (seen_in name (seen c)); [discriminate|].
  destruct rest as [|y v]; [discriminate|]. destruct (ceq y equals); [|discriminate].
  injection H as <-. cbn [seen ctree]. intros n. rewrite put_dom. cbn [In]. rewrite (D n).
  split; intros [X|X]; auto.
Qed.

Lemma loop_dom all rest : forall i npos c c',
  cmd_loop no_positional all rest 0 i npos c = (CSuccess, c') -> dom (seen c) (ctree c) -> dom (seen c') (ctree c').
Proof.
  induction rest as [|a rest IH]; intros i npos c c' H D; cbn in H.
  - injection H as <-. exact D.
  - destruct (is_positional a); [discriminate|]. destruct (parse_option a c) as (r & c1) eqn:P.
    destruct r; try discriminate. eapply IH; [exact H|]. eapply option_dom; eauto.
Qed.

Lemma line_dom (t0 : tree) l f f' : parse_line false l f = Ok f' ->
  (forall n, ftree f n <> None <-> t0 n <> None \/ In n (fseen f)) ->
  (forall n, ftree f' n <> None <-> t0 n <> None \/ In n (fseen f')).
Proof.
  unfold parse_line. intros H D. destruct (remove_leading_space l) as [|c l0]; [injection H as <-; exact D|].
  destruct (ceq c hash || ceq c semi)%bool; [injection H as <-; exact D|].
  destruct (parse_key (c :: l0)) as (key & l1). destruct (transform_key key) as [name|]; [|discriminate].
  destruct (seen_in name (fseen f)); [discriminate|]. destruct (remove_leading_space l1) as [|y l2]; [discriminate|].
  match type of H with match ?v with _ => _ end = _ => destruct v as [(value, w)|]; [|discriminate] end.
  injection H as <-. cbn [fseen ftree orb]. intros n. specialize (D n). cbn [In].
  destruct (ftree f name) as [z|] eqn:Z.
  - split.
    + intros X. apply D in X. tauto.
    + intros [X|[<-|X]]; [apply D; auto|congruence|apply D; auto].
  - rewrite put_dom, D. split; [intros [->|[X|X]]; auto|intros [X|[->|X]]; auto].
Qed.

Lemma lines_dom (t0 : tree) ls : forall f f', parse_lines false ls f = Ok f' ->
  (forall n, ftree f n <> None <-> t0 n <> None \/ In n (fseen f)) ->
  (forall n, ftree f' n <> None <-> t0 n <> None \/ In n (fseen f')).
Proof.
  induction ls as [|l ls IH]; intros f f' H D; cbn [parse_lines] in H; [injection H as <-; exact D|].
  destruct (parse_line false l f) as [f1|] eqn:P; [|discriminate]. eapply IH; [exact H|]. eapply line_dom; eauto.
Qed.

(** Parsing depends on the tree only through its values. *)
Lemma line_ext l f g f' : fseen f = fseen g -> (forall k, ftree f k = ftree g k) ->
  parse_line false l f = Ok f' ->
  exists g', parse_line false l g = Ok g' /\ fseen f' = fseen g' /\ (forall k, ftree f' k = ftree g' k).
Proof.
  intros S T. unfold parse_line. intros H.
  destruct (remove_leading_space l) as [|c l0]; [injection H as <-; eauto|].
  destruct (ceq c hash || ceq c semi)%bool; [injection H as <-; eauto|].
  destruct (parse_key (c :: l0)) as (key & l1). destruct (transform_key key) as [name|]; [|discriminate].
  rewrite <- S. destruct (seen_in name (fseen f)); [discriminate|].
  destruct (remove_leading_space l1) as [|y l2]; [discriminate|].
  match type of H with match ?v with _ => _ end = _ => destruct v as [(value, w)|]; [|discriminate] end.
  injection H as <-. eexists. split; [reflexivity|]. cbn [fseen ftree]. split; [congruence|]. intros k.
  rewrite <- (T name). cbn [orb]. destruct (ftree f name); [apply T|].
  unfold put. destruct (str_eqb k name); [reflexivity|apply T].
Qed.

Lemma lines_ext ls : forall f g f', fseen f = fseen g -> (forall k, ftree f k = ftree g k) ->
  parse_lines false ls f = Ok f' ->
  exists g', parse_lines false ls g = Ok g' /\ fseen f' = fseen g' /\ (forall k, ftree f' k = ftree g' k).
Proof.
  induction ls as [|l ls IH]; intros f g f' S T H; cbn [parse_lines] in H; [injection H as <-; cbn; eauto|].
  destruct (parse_line false l f) as [f1|] eqn:P; [|discriminate].
  destruct (line_ext l f g f1 S T P) as (g1 & P' & S' & T'). destruct (IH f1 g1 f' S' T' H) as (g' & Q & R).
  exists g'. cbn [parse_lines]. rewrite P'. auto.
Qed.

Section Program.
Variable registered : str -> bool.
Variable defaultFile : str.
Notation stp := (setup registered defaultFile).
Notation chk := (checkKeys registered).

Lemma checkKeys_result keys t : dom keys t ->
  (chk keys t = Status 0 t /\ (forall k, t k <> None -> registered k = true)) \/
  (chk keys t = Status 1 t /\ exists k, t k <> None /\ registered k = false).
Proof.
  intros D. unfold checkKeys. destruct (filter _ keys) as [|k l] eqn:F.
  - left. split; [reflexivity|]. intros k X. apply D in X. destruct (registered k) eqn:R; [reflexivity|].
    exfalso. assert (Y : In k (filter (fun k => negb (registered k)) keys)) by (apply filter_In; rewrite R; auto).
    rewrite F in Y. destruct Y.
  - right. split; [reflexivity|]. assert (Y : In k (filter (fun k => negb (registered k)) keys)) by (rewrite F; now left).
    apply filter_In in Y. destruct Y as (I & R). exists k. split; [now apply D|]. now apply negb_true_iff.
Qed.

(** Without help, the set-up gives status 0 with the parameters, or it does not. *)
Lemma setup_complete p t : ~ asksForHelp p -> parametersOf defaultFile p t ->
  (forall k, t k <> None -> registered k = true) ->
  exists t', stp p = ([], Status 0 t') /\ (forall k, t' k = t k).
Proof.
  intros H (l & c & O & S & F) R. unfold setup.
  destruct (existsb is_help (args p)) eqn:X; [apply is_help_iff in X; contradiction|].
  destruct (noposn_complete (args p) (args p) 1 0 {| seen := []; ctree := noTree |} l O) as (c' & L); [cbn; tauto|].
  rewrite L. destruct (noposn_success _ _ _ _ _ _ L) as (l' & O' & _ & A & B). cbn [ctree] in B.
  rewrite <- (OptionArgs_fun _ _ _ O O') in A, B. destruct S as (S1 & S2).
  assert (CC : forall k, ctree c' k = c k).
  { intros k. destruct (in_dec (list_eq_dec Ascii.ascii_dec) k (map fst l)) as [I|I].
    - apply in_map_iff in I. destruct I as ((n, v) & <- & I). cbn. rewrite (A n v I). symmetry. auto.
    - rewrite B by exact I. symmetry. rewrite S2 by exact I. reflexivity. }
  assert (D : dom (seen c') (ctree c')) by (eapply loop_dom; [exact L|]; intros n; cbn; split; [tauto|intros Z; apply Z; reflexivity]).
  unfold readFile, value. rewrite CC. cbv zeta in F.
  assert (G : match c (lit "ParameterFile") with Some text => Some text | None => Some defaultFile end
              = Some match c (lit "ParameterFile") with Some f => f | None => defaultFile end) by (destruct (c _); reflexivity).
  rewrite G. destruct F as [(F & T)|(F & text & t' & FI & PF & T)].
  - rewrite F. exists (ctree c'). destruct (checkKeys_result _ _ D) as [(C & _)|(C & k & K & K')].
    + rewrite C. split; [reflexivity|]. intros k. rewrite T. apply CC.
    + exfalso. rewrite (R k) in K'; [discriminate|]. rewrite T, <- CC. exact K.
  - destruct (match c (lit "ParameterFile") with Some f => f | None => defaultFile end) as [|x f] eqn:N; [congruence|].
    rewrite FI. unfold parse_file in PF.
    destruct (parse_lines false (lines_of text) {| fseen := []; ftree := c |}) as [g|] eqn:PL; [|discriminate].
    injection PF as <-.
    destruct (lines_ext (lines_of text) {| fseen := []; ftree := c |} {| fseen := []; ftree := ctree c' |} g eq_refl) as (g' & PL' & SE & TE);
      [intros k; cbn; symmetry; apply CC|exact PL|].
    rewrite PL'. exists (ftree g'). assert (D' : dom (seen c' ++ fseen g') (ftree g')).
    { intros n. rewrite in_app_iff, (D n). symmetry. apply (lines_dom (ctree c') _ _ _ PL'). cbn. tauto. }
    destruct (checkKeys_result _ _ D') as [(C & _)|(C & k & K & K')].
    + rewrite C. split; [reflexivity|]. intros k. rewrite T. symmetry. apply TE.
    + exfalso. rewrite (R k) in K'; [discriminate|]. rewrite T, TE. exact K.
Qed.

Lemma setup_sound p t : stp p = ([], Status 0 t) ->
  ~ asksForHelp p /\ parametersOf defaultFile p t /\ (forall k, t k <> None -> registered k = true).
Proof.
  unfold setup. destruct (existsb is_help (args p)) eqn:X; [discriminate|]. intros H.
  split; [intros Y; apply is_help_iff in Y; congruence|].
  destruct (cmd_loop no_positional (args p) (args p) 0 1 0 {| seen := []; ctree := noTree |}) as (r & c') eqn:L.
  destruct r; try discriminate. injection H as H.
  destruct (noposn_success _ _ _ _ _ _ L) as (l & O & _ & A & B). cbn [ctree] in B.
  assert (D : dom (seen c') (ctree c')) by (eapply loop_dom; [exact L|]; intros n; cbn; split; [tauto|intros Z; apply Z; reflexivity]).
  assert (S : set_to (fun _ => None) (ctree c') l) by (split; auto).
  unfold readFile, value in H.
  assert (G : match ctree c' (lit "ParameterFile") with Some text => Some text | None => Some defaultFile end
              = Some match ctree c' (lit "ParameterFile") with Some f => f | None => defaultFile end) by (destruct (ctree c' _); reflexivity).
  rewrite G in H. clear G.
  destruct (match ctree c' (lit "ParameterFile") with Some f => f | None => defaultFile end) as [|x f] eqn:N.
  - destruct (checkKeys_result _ _ D) as [(C & R)|(C & _)]; rewrite C in H; [|discriminate]. injection H as <-.
    split; [|exact R]. exists l, (ctree c'). split; [exact O|]. split; [exact S|]. rewrite N. left. auto.
  - destruct (files p (x :: f)) as [text|] eqn:FI; [|discriminate].
    destruct (parse_lines false (lines_of text) {| fseen := []; ftree := ctree c' |}) as [g|] eqn:PL; [|discriminate].
    assert (D' : dom (seen c' ++ fseen g) (ftree g)).
    { intros n. rewrite in_app_iff, (D n). symmetry. apply (lines_dom (ctree c') _ _ _ PL). cbn. tauto. }
    destruct (checkKeys_result _ _ D') as [(C & R)|(C & _)]; rewrite C in H; [|discriminate]. injection H as <-.
    split; [|exact R]. exists l, (ctree c'). split; [exact O|]. split; [exact S|]. rewrite N. right. split; [discriminate|].
    exists text, (ftree g). split; [exact FI|]. split; [unfold parse_file; rewrite PL; reflexivity|auto].
Qed.

(** Without help nothing is printed by the set-up but error messages, and the status is one of
    three. *)
Lemma setup_shape p : ~ asksForHelp p ->
  stp p = ([], Stop 1) \/ stp p = ([], SetupThrows) \/ (exists t, stp p = ([], Status 1 t)) \/ (exists t, stp p = ([], Status 0 t)).
Proof.
  intros H. unfold setup. destruct (existsb is_help (args p)) eqn:X; [apply is_help_iff in X; contradiction|].
  destruct (cmd_loop no_positional (args p) (args p) 0 1 0 {| seen := []; ctree := noTree |}) as (r & c') eqn:L.
  assert (C : forall keys t, exists s t', chk keys t = Status s t' /\ (s = 0 \/ s = 1)%Z).
  { intros keys t. unfold checkKeys. destruct (filter _ keys); eauto 6. }
  destruct r; auto. unfold readFile. destruct (value _ _ _ _) as [[|x f]|]; auto.
  - destruct (C (seen c') (ctree c')) as (s & t & E & [->| ->]); rewrite E; eauto.
  - destruct (files p (x :: f)) as [text|]; [|eauto]. destruct (parse_lines _ _ _) as [g|]; auto.
    destruct (C (seen c' ++ fseen g) (ftree g)) as (s & t & E & [->| ->]); rewrite E; eauto.
Qed.

Lemma setup_help p : asksForHelp p -> stp p = ([Usage], Stop (-1)).
Proof. intros H. unfold setup. apply is_help_iff in H. rewrite H. reflexivity. Qed.

End Program.

Lemma not_ltb e : Qltb e unset = false <-> (- inject_Z (10 ^ 50) <= e)%Q.
Proof. unfold Qltb, unset. rewrite negb_false_iff. apply Qle_bool_iff. Qed.

Section Values.
Variable defaultEnd defaultStep : Q.
Variable defaultThreads defaultPrint : Z.
Variable number : str -> option Q.
Variable integer : str -> option Z.
Variable openMP : bool.
Notation prc := (proceed defaultEnd defaultStep defaultThreads defaultPrint number integer openMP).
Notation usable := (usableValues defaultEnd defaultStep defaultThreads defaultPrint number integer openMP).

(** The rest of the routine. *)
Lemma threads_iff t : threadsOk defaultThreads integer openMP t = true <->
  usableInt integer t (lit "ThreadsPerProcess") defaultThreads (fun n => if openMP then n <> 0%Z else n = 1%Z \/ n = (-1)%Z).
Proof.
  unfold threadsOk, usableInt, value.
  destruct (match t (lit "ThreadsPerProcess") with Some text => integer text | None => Some defaultThreads end) as [n|] eqn:N.
  - split.
    + intros H. exists n. split; [reflexivity|]. destruct openMP.
      * apply negb_true_iff in H. now apply Z.eqb_neq.
      * apply orb_true_iff in H. rewrite !Z.eqb_eq in H. exact H.
    + intros (m & M & P). injection M as <-. destruct openMP.
      * apply negb_true_iff. now apply Z.eqb_neq.
      * apply orb_true_iff. rewrite !Z.eqb_eq. exact P.
  - split; [discriminate|]. intros (m & M & _). discriminate.
Qed.

Lemma proceed_complete p s t : s <> 1%Z -> s <> 2%Z -> usable t -> prc p s t = ([Ran t], Exit (exitOf (sim p t))).
Proof.
  intros S1 S2 (T & (e & E & E') & (d & D & D') & (n & N & _)). unfold proceed.
  apply Z.eqb_neq in S1. apply Z.eqb_neq in S2. rewrite S1, S2. apply threads_iff in T. rewrite T. cbn [negb].
  unfold value. rewrite E, D, N. apply not_ltb in E'. apply not_ltb in D'. rewrite E', D'.
  destruct (sim p t); reflexivity.
Qed.

Lemma proceed_cases p s t : s <> 2%Z ->
  prc p s t = ([], Exit 1) \/ (s <> 1%Z /\ usable t /\ prc p s t = ([Ran t], Exit (exitOf (sim p t)))).
Proof.
  intros S2. destruct (Z.eqb_spec s 1) as [->|S1]; [left; reflexivity|].
  unfold proceed. apply Z.eqb_neq in S1. rewrite S1. pose proof S2 as S2'. apply Z.eqb_neq in S2'. rewrite S2'.
  destruct (threadsOk defaultThreads integer openMP t) eqn:T; [|left; reflexivity]. apply threads_iff in T. cbn [negb].
  destruct (value t (lit "EndTime") number defaultEnd) as [e|] eqn:E; [|left; reflexivity].
  destruct (Qltb e unset) eqn:E'; [left; reflexivity|]. apply not_ltb in E'.
  destruct (value t (lit "InitialTimeStepSize") number defaultStep) as [d|] eqn:D; [|left; reflexivity].
  destruct (Qltb d unset) eqn:D'; [left; reflexivity|]. apply not_ltb in D'.
  destruct (value t (lit "PrintParameters") integer defaultPrint) as [n|] eqn:N; [|left; reflexivity].
  right. apply Z.eqb_neq in S1. split; [exact S1|]. split; [|destruct (sim p t); reflexivity].
  split; [exact T|]. split; [exists e; auto|]. split; [exists d; auto|exists n; auto].
Qed.

Lemma usable_ext t t' : (forall k, t k = t' k) -> usable t -> usable t'.
Proof.
  intros X (A & B & C & D). unfold usableValues, usableInt, usableTime in *. rewrite <- !X. auto.
Qed.

End Values.
