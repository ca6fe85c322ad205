From Verif Require Export VtkOutProofs.
Local Open Scope nat_scope.

(** ** Names *)

Notation "a +++ b" := (String.append a b) (at level 60, right associativity).

Lemma append_assoc : forall a b c, (a +++ b) +++ c = a +++ (b +++ c).
Proof. induction a as [|x a IH]; intros b c; simpl; [reflexivity|]. rewrite IH. reflexivity. Qed.

Lemma append_nil_r : forall a, a +++ EmptyString = a.
Proof. induction a as [|x a IH]; simpl; [reflexivity|]. rewrite IH. reflexivity. Qed.

Lemma append_length : forall a b, String.length (a +++ b) = String.length a + String.length b.
Proof. induction a as [|x a IH]; intro b; simpl; [reflexivity|]. rewrite IH. reflexivity. Qed.

Lemma append_inj_l : forall a b c, a +++ b = a +++ c -> b = c.
Proof. induction a as [|x a IH]; intros b c H; simpl in H; [exact H|]. injection H as H. apply IH. exact H. Qed.

Lemma prefix_append : forall a b r s, a +++ r = b +++ s -> prefix a b = true \/ prefix b a = true.
Proof.
  induction a as [|x a IH]; intros b r s H; [left; destruct b; reflexivity|].
  destruct b as [|y b]; [right; reflexivity|]. simpl in H. injection H as H1 H2. subst y. simpl.
  destruct (ascii_dec x x) as [_|N]; [|contradiction]. exact (IH b r s H2).
Qed.

Lemma prefix_self_append : forall a r, prefix a (a +++ r) = true.
Proof.
  induction a as [|x a IH]; intro r; simpl; [destruct r; reflexivity|]. destruct (ascii_dec x x) as [_|N]; [apply IH|contradiction].
Qed.

Lemma substring_whole : forall s n, String.length s <= n -> substring 0 n s = s.
Proof.
  induction s as [|x s IH]; intros n H; simpl in *; [destruct n; reflexivity|].
  destruct n as [|n]; [lia|]. rewrite IH by lia. reflexivity.
Qed.

Lemma hat_split : forall a b c d, noChar "^"%char a -> noChar "^"%char b ->
  a +++ String "^"%char c = b +++ String "^"%char d -> a = b /\ c = d.
Proof.
  induction a as [|x a IH]; intros b c d A B H.
  - destruct b as [|y b]; simpl in H.
    + injection H as H. split; [reflexivity|exact H].
    + injection H as H1 H2. destruct B as [B _]. congruence.
  - destruct b as [|y b]; simpl in H.
    + injection H as H1 H2. destruct A as [A _]. congruence.
    + injection H as H1 H2. subst y. destruct A as [_ A]. destruct B as [_ B].
      destruct (IH b c d A B H2) as [K1 K2]. subst. split; reflexivity.
Qed.

Fixpoint noPercent (s : string) : bool :=
  match s with EmptyString => true | String c r => negb (Ascii.eqb c "%"%char) && noPercent r end.

Lemma format_one : forall h a, noPercent h = true -> format (h +++ "%s") [a] = h +++ a.
Proof.
  induction h as [|x h IH]; intros a H.
  - simpl. apply append_nil_r.
  - simpl in H. apply andb_true_iff in H. destruct H as [H1 H2]. apply negb_true_iff in H1.
    change ((String x h) +++ "%s"%string) with (String x (h +++ "%s"%string)).
    assert (E : exists y r, h +++ "%s"%string = String y r) by (destruct h; simpl; eexists; eexists; reflexivity).
    destruct E as [y [r E]]. specialize (IH a H2). rewrite E in IH |- *.
    cbn [format]. rewrite H1. cbn [andb]. cbn [format] in IH. rewrite IH. reflexivity.
Qed.

Lemma format_two : forall h a b, noPercent h = true -> format (h +++ "%s^%s") [a; b] = h +++ (a +++ String "^"%char b).
Proof.
  induction h as [|x h IH]; intros a b H.
  - simpl. rewrite append_nil_r. reflexivity.
  - simpl in H. apply andb_true_iff in H. destruct H as [H1 H2]. apply negb_true_iff in H1.
    change ((String x h) +++ "%s^%s"%string) with (String x (h +++ "%s^%s"%string)).
    assert (E : exists y r, h +++ "%s^%s"%string = String y r) by (destruct h; simpl; eexists; eexists; reflexivity).
    destruct E as [y [r E]]. specialize (IH a b H2). rewrite E in IH |- *.
    cbn [format]. rewrite H1. cbn [andb]. cbn [format] in IH. rewrite IH. reflexivity.
Qed.

(** The fixed text of the names of a field, and what follows it. *)
Definition stem (f : field) : string :=
  match fShape f with ScalarShape => fPattern f | TensorShape => (fPattern f +++ "[")%string | _ => head (fPattern f) end.

Definition tail (cf : config) (f : field) (p c : nat) : string :=
  match fShape f with
  | ScalarShape => EmptyString
  | PhaseShape => phaseName cf p
  | ComponentShape => componentName cf c
  | PhaseComponentShape => phaseName cf p +++ String "^"%char (componentName cf c)
  | EqShape => primaryVarName cf p
  | TensorShape => digit c +++ "]"%string
  end.

Definition wellFormed (f : field) : bool :=
  match fShape f with
  | ScalarShape | TensorShape => true
  | PhaseComponentShape => String.eqb (fPattern f) (head (fPattern f) +++ "%s^%s") && noPercent (head (fPattern f))
                           && (String.length (head (fPattern f)) <=? 100)
  | _ => String.eqb (fPattern f) (head (fPattern f) +++ "%s") && noPercent (head (fPattern f))
         && (String.length (head (fPattern f)) <=? 100)
  end.

Lemma name_stem : forall cf f p c, namesOk cf -> wellFormed f = true -> In (p, c) (subs cf (fShape f)) ->
  fieldName cf f p c = stem f +++ tail cf f p c.
Proof.
  intros cf f p c N W PC. unfold fieldName, stem, tail, wellFormed in *.
  assert (G1 : forall a, String.length a <= 200 ->
    String.eqb (fPattern f) (head (fPattern f) +++ "%s") && noPercent (head (fPattern f)) && (String.length (head (fPattern f)) <=? 100) = true ->
    snprintf (fPattern f) [a] = head (fPattern f) +++ a).
  { intros a L H. apply andb_true_iff in H. destruct H as [H H3]. apply andb_true_iff in H. destruct H as [H1 H2].
    apply String.eqb_eq in H1. apply Nat.leb_le in H3. unfold snprintf. rewrite H1 at 1. rewrite format_one by exact H2.
    apply substring_whole. rewrite append_length. lia. }
  destruct (fShape f); cbn [subs] in PC.
  - rewrite append_nil_r. reflexivity.
  - apply in_map_iff in PC. destruct PC as [i [K I]]. injection K as K1 K2. subst i. apply in_seq in I.
    apply G1; [apply (n_phaseLength cf N); lia|exact W].
  - apply in_map_iff in PC. destruct PC as [i [K I]]. injection K as K1 K2. subst i. apply in_seq in I.
    apply G1; [apply (n_componentLength cf N); lia|exact W].
  - apply in_pairs in PC. destruct PC as [I J].
    apply andb_true_iff in W. destruct W as [H H3]. apply andb_true_iff in H. destruct H as [H1 H2].
    apply String.eqb_eq in H1. apply Nat.leb_le in H3. unfold snprintf. rewrite H1 at 1. rewrite format_two by exact H2.
    apply substring_whole. rewrite !append_length. cbn [String.length].
    pose proof (n_phaseLength cf N p I). pose proof (n_componentLength cf N c J). lia.
  - apply in_map_iff in PC. destruct PC as [i [K I]]. injection K as K1 K2. subst i. apply in_seq in I.
    apply G1; [apply (n_varLength cf N); lia|exact W].
  - rewrite append_assoc. reflexivity.
Qed.

(** Two fields whose names cannot coincide. *)
Definition scalar (f : field) : bool := match fShape f with ScalarShape => true | _ => false end.
Definition phasewise (f : field) : bool := match fShape f with PhaseShape => true | _ => false end.

Definition apart1 (f f' : field) : bool :=
  negb (prefix (stem f') (stem f)) || (phasewise f' && String.eqb (stem f) (stem f' +++ "solvent")).

Definition apart (f f' : field) : bool :=
  match scalar f, scalar f' with
  | true, true => negb (String.eqb (stem f) (stem f'))
  | true, false => apart1 f f'
  | false, true => apart1 f' f
  | false, false => negb (prefix (stem f) (stem f')) && negb (prefix (stem f') (stem f))
  end.

Lemma apart1_ok : forall cf f f' p c p' c', namesOk cf -> In (p', c') (subs cf (fShape f')) ->
  scalar f = true -> apart1 f f' = true -> stem f +++ tail cf f p c <> stem f' +++ tail cf f' p' c'.
Proof.
  intros cf f f' p c p' c' N PC S A E.
  assert (T : tail cf f p c = EmptyString). { unfold tail. unfold scalar in S. destruct (fShape f); try discriminate S. reflexivity. }
  rewrite T, append_nil_r in E. unfold apart1 in A. apply orb_true_iff in A. destruct A as [A|A].
  - rewrite E, prefix_self_append in A. discriminate A.
  - apply andb_true_iff in A. destruct A as [A1 A2]. apply String.eqb_eq in A2. rewrite A2 in E. apply append_inj_l in E.
    unfold phasewise in A1. unfold tail in E. destruct (fShape f'); try discriminate A1. cbn [subs] in PC.
    apply in_map_iff in PC. destruct PC as [i [K I]]. injection K as K1 K2. subst i. apply in_seq in I.
    apply (n_solvent cf N p'); [lia|symmetry; exact E].
Qed.

Lemma apart_ok : forall cf f f' p c p' c', namesOk cf -> In (p, c) (subs cf (fShape f)) -> In (p', c') (subs cf (fShape f')) ->
  apart f f' = true -> stem f +++ tail cf f p c <> stem f' +++ tail cf f' p' c'.
Proof.
  intros cf f f' p c p' c' N PC PC' A. unfold apart in A.
  destruct (scalar f) eqn:S; destruct (scalar f') eqn:S'.
  - intro E.
    assert (T : forall g a b, scalar g = true -> tail cf g a b = EmptyString).
    { intros g a b H. unfold tail. unfold scalar in H. destruct (fShape g); try discriminate H. reflexivity. }
    rewrite !T, !append_nil_r in E by assumption. rewrite E, String.eqb_refl in A. discriminate A.
  - apply apart1_ok; assumption.
  - intro E. symmetry in E. revert E. apply apart1_ok; assumption.
  - intro E. apply andb_true_iff in A. destruct A as [A1 A2].
    destruct (prefix_append _ _ _ _ E) as [K|K]; [rewrite K in A1; discriminate A1|rewrite K in A2; discriminate A2].
Qed.

Fixpoint pairwise (fs : list field) : bool :=
  match fs with
  | [] => true
  | f :: t => forallb (fun f' => isDiffusion f || isDiffusion f' || apart f f') t && pairwise t
  end.

Lemma fields_apart : forall m w, pairwise (fieldsOf m w) = true.
Proof. intros m w. apply (forModels_ok pairwise). vm_compute. reflexivity. Qed.

Lemma fields_formed : forall m w f, In f (fieldsOf m w) -> isDiffusion f = false -> wellFormed f = true.
Proof.
  intros m w f F D.
  assert (H : forallb (fun f => isDiffusion f || wellFormed f) (fieldsOf m w) = true).
  { apply (forModels_ok (fun fs => forallb (fun f => isDiffusion f || wellFormed f) fs)). vm_compute. reflexivity. }
  rewrite forallb_forall in H. specialize (H f F). rewrite D in H. exact H.
Qed.

Lemma NoDup_map_in : forall (A B : Type) (h : A -> B) l, NoDup l -> (forall x y, In x l -> In y l -> h x = h y -> x = y) -> NoDup (map h l).
Proof.
  intros A B h l N. induction N as [|a t N1 N2 IH]; intro H; simpl; [constructor|]. constructor.
  - intro I. apply in_map_iff in I. destruct I as [x [E X]]. apply N1.
    rewrite (H a x); [exact X|left; reflexivity|right; exact X|symmetry; exact E].
  - apply IH. intros x y X Y. apply H; right; assumption.
Qed.

Lemma pairs_nodup : forall n m, NoDup (pairs n m).
Proof.
  intros n m. unfold pairs.
  assert (G : forall l : list nat, NoDup l -> NoDup (flat_map (fun i => map (fun j => (i, j)) (seq 0 m)) l)).
  { induction l as [|a t IH]; intro N; simpl; [constructor|]. inversion N as [|x y N1 N2]; subst x y.
    assert (D : forall x, In x (map (fun j : nat => (a, j)) (seq 0 m)) -> ~ In x (flat_map (fun i => map (fun j : nat => (i, j)) (seq 0 m)) t)).
    { intros x X Y. apply in_map_iff in X. destruct X as [j [X _]]. subst x. apply in_flat_map in Y. destruct Y as [i [Y1 Y2]].
      apply in_map_iff in Y2. destruct Y2 as [j' [Y2 _]]. injection Y2 as K1 K2. subst i. contradiction. }
    specialize (IH N2). remember (flat_map (fun i => map (fun j : nat => (i, j)) (seq 0 m)) t) as r.
    assert (N3 : NoDup (map (fun j : nat => (a, j)) (seq 0 m))).
    { apply NoDup_map_in; [apply seq_NoDup|]. intros x y _ _ E. injection E as E. exact E. }
    clear - D IH N3. induction N3 as [|x l X1 X2 IH2]; simpl; [exact IH|]. constructor.
    - intro H. apply in_app_or in H. destruct H as [H|H]; [contradiction|]. apply (D x); [left; reflexivity|exact H].
    - apply IH2. intros y Y. apply D. right. exact Y. }
  apply G. apply seq_NoDup.
Qed.

(** The names of one field are different. *)
Lemma field_names_nodup : forall cf d f, namesOk cf -> wellFormed f = true -> NoDup (map eName (commitField cf d f)).
Proof.
  intros cf d f N W. unfold commitField. destruct (selected cf f); [|constructor].
  assert (G : forall sh, fShape f = sh -> sh <> TensorShape -> NoDup (subs cf sh) ->
    (forall s s', In s (subs cf sh) -> In s' (subs cf sh) -> tail cf f (fst s) (snd s) = tail cf f (fst s') (snd s') -> s = s') ->
    NoDup (map (fun s => fieldName cf f (fst s) (snd s)) (subs cf sh))).
  { intros sh Hs _ ND INJ. apply NoDup_map_in; [exact ND|]. intros [p c] [p' c'] X Y E. cbn [fst snd] in E.
    rewrite !name_stem in E by (try exact N; try exact W; rewrite Hs; assumption).
    apply append_inj_l in E. apply INJ; assumption. }
  destruct (fShape f) eqn:Sh.
  - simpl. constructor; [intros []|constructor].
  - rewrite map_map. cbn [eName]. specialize (G PhaseShape eq_refl). unfold fieldName in G. rewrite Sh in G. apply G; [discriminate| |].
    + cbn [subs]. apply NoDup_map_in; [apply seq_NoDup|]. intros x y _ _ E. injection E as E. exact E.
    + intros s s' X Y E. cbn [subs] in X, Y. apply in_map_iff in X, Y. destruct X as [i [X1 X2]]. destruct Y as [j [Y1 Y2]]. subst s s'.
      unfold tail in E. rewrite Sh in E. cbn [fst snd] in E. apply in_seq in X2, Y2. rewrite (n_phases cf N i j); [reflexivity|lia|lia|exact E].
  - rewrite map_map. cbn [eName]. specialize (G ComponentShape eq_refl). unfold fieldName in G. rewrite Sh in G. apply G; [discriminate| |].
    + cbn [subs]. apply NoDup_map_in; [apply seq_NoDup|]. intros x y _ _ E. injection E as E. exact E.
    + intros s s' X Y E. cbn [subs] in X, Y. apply in_map_iff in X, Y. destruct X as [i [X1 X2]]. destruct Y as [j [Y1 Y2]]. subst s s'.
      unfold tail in E. rewrite Sh in E. cbn [fst snd] in E. apply in_seq in X2, Y2. rewrite (n_components cf N i j); [reflexivity|lia|lia|exact E].
  - rewrite map_map. cbn [eName]. specialize (G PhaseComponentShape eq_refl). unfold fieldName in G. rewrite Sh in G. apply G; [discriminate| |].
    + apply pairs_nodup.
    + intros [p c] [p' c'] X Y E. cbn [subs] in X, Y. apply in_pairs in X, Y. destruct X as [X1 X2]. destruct Y as [Y1 Y2].
      unfold tail in E. rewrite Sh in E. cbn [fst snd] in E.
      apply hat_split in E; [|apply (n_hat cf N); exact X1|apply (n_hat cf N); exact Y1]. destruct E as [E1 E2].
      rewrite (n_phases cf N p p' X1 Y1 E1), (n_components cf N c c' X2 Y2 E2). reflexivity.
  - rewrite map_map. cbn [eName]. specialize (G EqShape eq_refl). unfold fieldName in G. rewrite Sh in G. apply G; [discriminate| |].
    + cbn [subs]. apply NoDup_map_in; [apply seq_NoDup|]. intros x y _ _ E. injection E as E. exact E.
    + intros s s' X Y E. cbn [subs] in X, Y. apply in_map_iff in X, Y. destruct X as [i [X1 X2]]. destruct Y as [j [Y1 Y2]]. subst s s'.
      unfold tail in E. rewrite Sh in E. cbn [fst snd] in E. apply in_seq in X2, Y2. rewrite (n_vars cf N i j); [reflexivity|lia|lia|exact E].
  - rewrite map_map. cbn [eName]. apply NoDup_map_in; [apply seq_NoDup|]. intros i j X Y E. apply in_seq in X, Y.
    apply append_inj_l in E. pose proof (n_dim cf N).
    assert (I3 : i < 3) by lia. assert (J3 : j < 3) by lia. clear - E I3 J3.
    destruct i as [|[|[|i]]]; destruct j as [|[|[|j]]]; try lia; try reflexivity; vm_compute in E; discriminate E.
Qed.

Lemma NoDup_app_in : forall (A : Type) (a b : list A), NoDup a -> NoDup b -> (forall x, In x a -> ~ In x b) -> NoDup (a ++ b).
Proof.
  intros A a b N1 N2. induction N1 as [|x l X1 X2 IH]; intro D; simpl; [exact N2|]. constructor.
  - intro H. apply in_app_or in H. destruct H as [H|H]; [contradiction|]. apply (D x); [left; reflexivity|exact H].
  - apply IH. intros y Y. apply D. right. exact Y.
Qed.

Lemma names_nodup : forall cf d fs, namesOk cf -> (forall f, In f fs -> isDiffusion f = false -> wellFormed f = true) ->
  (forall f, In f fs -> selected cf f = true -> isDiffusion f = false) -> pairwise fs = true ->
  NoDup (map eName (commitAll cf d fs)).
Proof.
  intros cf d fs N. induction fs as [|f t IH]; intros WF SD PW; simpl; [constructor|].
  simpl in PW. apply andb_true_iff in PW. destruct PW as [P1 P2]. rewrite map_app. apply NoDup_app_in.
  - destruct (selected cf f) eqn:S.
    + apply field_names_nodup; [exact N|]. apply WF; [left; reflexivity|]. apply SD; [left; reflexivity|exact S].
    + unfold commitField. rewrite S. constructor.
  - apply IH; [| |exact P2]; intros f' F'; [apply WF|apply SD]; right; exact F'.
  - intros x X Y. apply in_map_iff in X. destruct X as [en [X1 X2]]. apply in_map_iff in Y. destruct Y as [en' [Y1 Y2]].
    apply in_flat_map in Y2. destruct Y2 as [f' [F' Y3]].
    apply commit_out in X2. destruct X2 as [S [p [c [PC E]]]]. apply commit_out in Y3. destruct Y3 as [S' [p' [c' [PC' E']]]].
    subst en en'. unfold entryOf in X1, Y1. cbn [eName] in X1, Y1.
    assert (D : isDiffusion f = false) by (apply SD; [left; reflexivity|exact S]).
    assert (D' : isDiffusion f' = false) by (apply SD; [right; exact F'|exact S']).
    rewrite forallb_forall in P1. specialize (P1 f' F'). rewrite D, D' in P1. cbn [orb] in P1.
    rewrite name_stem in X1 by (try assumption; (apply WF; [left; reflexivity|exact D])).
    rewrite name_stem in Y1 by (try assumption; (apply WF; [right; exact F'|exact D'])).
    revert P1. intro P1. apply (apart_ok cf f f' p c p' c' N PC PC' P1). congruence.
Qed.
