(** Proofs about the converter of ART grid files. *)
From Coq Require Import List Bool Arith ZArith QArith String Ascii Lia Lqa.
Import ListNotations.
From Verif Require Import Num ParamModel ArtModel ArtSpec.
Local Close Scope string_scope.
Open Scope nat_scope.

(** ** Lines. *)
Lemma trailing_none l : trailing (S (List.length l)) 0 l = 0.
Proof.
  cbn [trailing]. rewrite Nat.sub_0_r, (nth_overflow l zero) by lia.
  replace (isspace zero) with false by reflexivity. now rewrite andb_false_r.
Qed.

Lemma withoutTrailing_same l : withoutTrailing l = l.
Proof. unfold withoutTrailing. rewrite trailing_none, Nat.sub_0_r. apply firstn_all. Qed.

Lemma clean_eq l : clean l = remove_leading_space (beforePercent l).
Proof. apply withoutTrailing_same. Qed.

Lemma percent_no_space : isspace "%"%char = false.
Proof. reflexivity. Qed.

Lemma beforePercent_app a r : ~ In "%"%char a -> beforePercent (a ++ r) = a ++ beforePercent r.
Proof.
  induction a as [|c a IH]; intros H; [reflexivity|].
  cbn [beforePercent List.app]. unfold ceq. destruct (Ascii.eqb c "%"%char) eqn:E.
  - apply Ascii.eqb_eq in E. exfalso. apply H. left. exact E.
  - rewrite IH; [reflexivity|]. intros Z. apply H. right. exact Z.
Qed.

Lemma beforePercent_comment r : comment r -> beforePercent r = [].
Proof. intros [->|(r' & ->)]; reflexivity. Qed.

Lemma leading_blanks b t :
  blanks b -> (forall c t', t = c :: t' -> isspace c = false) -> remove_leading_space (b ++ t) = t.
Proof.
  intros H. induction H as [|c b Hc H IH]; intros T.
  - cbn [List.app]. destruct t as [|c t]; [reflexivity|]. cbn [remove_leading_space].
    rewrite (T c t eq_refl). reflexivity.
  - cbn [List.app remove_leading_space]. rewrite Hc. apply IH. exact T.
Qed.

Lemma clean_content l t : contentOf l t -> clean l = t.
Proof.
  intros (b & r & -> & Hb & Hr & Ht & Np). rewrite clean_eq, app_assoc, beforePercent_app.
  - rewrite beforePercent_comment, app_nil_r by exact Hr. apply leading_blanks; assumption.
  - intros H. apply in_app_or in H. destruct H as [H|H]; [|auto].
    unfold blanks in Hb. rewrite Forall_forall in Hb. specialize (Hb _ H). discriminate Hb.
Qed.

Lemma beforePercent_split l :
  exists r, l = beforePercent l ++ r /\ comment r /\ ~ In "%"%char (beforePercent l).
Proof.
  induction l as [|c l (r & E & C & N)].
  - exists []. split; [reflexivity|]. split; [left; reflexivity|]. intros [].
  - cbn [beforePercent]. unfold ceq. destruct (Ascii.eqb c "%"%char) eqn:Q.
    + apply Ascii.eqb_eq in Q. subst c. exists ("%"%char :: l). split; [reflexivity|].
      split; [right; eauto|]. intros [].
    + exists r. split; [cbn [List.app]; f_equal; exact E|]. split; [exact C|].
      intros [H|H]; [|auto]. subst c. rewrite Ascii.eqb_refl in Q. discriminate Q.
Qed.

Lemma leading_split l :
  exists b, l = b ++ remove_leading_space l /\ blanks b /\
            (forall c t', remove_leading_space l = c :: t' -> isspace c = false).
Proof.
  induction l as [|c l (b & E & B & N)].
  - exists []. split; [reflexivity|]. split; [constructor|]. intros c t' H. discriminate H.
  - cbn [remove_leading_space]. destruct (isspace c) eqn:Q.
    + exists (c :: b). split; [cbn [List.app]; f_equal; exact E|].
      split; [constructor; assumption|exact N].
    + exists []. split; [reflexivity|]. split; [constructor|]. intros d t' H.
      injection H as <- _. exact Q.
Qed.

(** Every line has exactly one content, and it is what the converter looks at. *)
Lemma content_clean l : contentOf l (clean l).
Proof.
  rewrite clean_eq. destruct (beforePercent_split l) as (r & E & C & N).
  destruct (leading_split (beforePercent l)) as (b & E' & B & N').
  exists b, r. split; [rewrite app_assoc, <- E'; exact E|]. split; [exact B|]. split; [exact C|].
  split; [exact N'|]. intros H. apply N. rewrite E'. apply in_or_app. right. exact H.
Qed.

Lemma clean_idem l : clean (clean l) = clean l.
Proof.
  apply clean_content. destruct (content_clean l) as (b & r & _ & _ & _ & A & B).
  exists [], []. split; [cbn; now rewrite app_nil_r|]. split; [constructor|].
  split; [left; reflexivity|]. split; assumption.
Qed.

Lemma str_eqb_spec a b : str_eqb a b = true <-> a = b.
Proof. unfold str_eqb. destruct (list_eq_dec ascii_dec a b); split; congruence. Qed.

(** ** Lists. *)
Lemma setNth_length {A} (l : list A) i x : List.length (setNth l i x) = List.length l.
Proof. revert i. induction l as [|y l IH]; intros [|i]; cbn; auto. Qed.

Lemma setNth_nth {A} (l : list A) i x j :
  i < List.length l -> nth_error (setNth l i x) j = if j =? i then Some x else nth_error l j.
Proof.
  revert i j. induction l as [|y l IH]; intros [|i] [|j] H; cbn in *; try lia; try reflexivity.
  rewrite IH by lia. reflexivity.
Qed.

Lemma markVertex_length l i : List.length (markVertex l i) = List.length l.
Proof. unfold markVertex. destruct (nth_error l i) as [[p b]|]; [apply setNth_length|reflexivity]. Qed.

Lemma markVertex_nth l i j :
  nth_error (markVertex l i) j =
    match nth_error l j with Some (p, b) => Some (p, (j =? i) || b) | None => None end.
Proof.
  unfold markVertex. destruct (nth_error l i) as [[p b]|] eqn:E.
  - rewrite setNth_nth by (apply nth_error_Some; congruence).
    destruct (Nat.eqb_spec j i) as [->|N].
    + rewrite E. reflexivity.
    + destruct (nth_error l j) as [[q d]|]; reflexivity.
  - destruct (nth_error l j) as [[q d]|] eqn:F; [|reflexivity].
    destruct (Nat.eqb_spec j i) as [->|N]; [congruence|reflexivity].
Qed.

Lemma markVertex_fst l i : map fst (markVertex l i) = map fst l.
Proof.
  unfold markVertex. destruct (nth_error l i) as [[p b]|] eqn:E; [|reflexivity].
  revert i E. induction l as [|y l IH]; intros [|i] E; cbn in *; try discriminate E.
  - injection E as ->. reflexivity.
  - f_equal. apply IH. exact E.
Qed.

Lemma addVertex_spec l v : NoDup l -> NoDup (addVertex l v) /\ forall x, In x (addVertex l v) <-> In x l \/ x = v.
Proof.
  intros N. unfold addVertex. destruct (existsb (Nat.eqb v) l) eqn:E.
  - apply existsb_exists in E. destruct E as (y & Hy & E). apply Nat.eqb_eq in E. subst y.
    split; [exact N|]. intros x. split; [auto|]. intros [H| ->]; assumption.
  - split.
    + rewrite <- (rev_involutive (l ++ [v])), rev_app_distr. apply NoDup_rev. cbn. constructor.
      * rewrite <- in_rev. intros H. assert (Z : existsb (Nat.eqb v) l = true).
        { apply existsb_exists. exists v. split; [exact H|apply Nat.eqb_refl]. }
        congruence.
      * apply NoDup_rev. exact N.
    + intros x. rewrite in_app_iff. cbn. intuition.
Qed.

Lemma addEdge_spec l e :
  NoDup l -> NoDup (addEdge l e) /\ forall x, In x (addEdge l e) <-> In x l \/ isEnd x e.
Proof.
  intros N. unfold addEdge. destruct (addVertex_spec l (fst e) N) as (N1 & I1).
  destruct (addVertex_spec _ (snd e) N1) as (N2 & I2). split; [exact N2|].
  intros x. rewrite I2, I1. unfold isEnd. tauto.
Qed.

Lemma ends_spec e1 e2 e3 :
  let vs := addEdge (addEdge (addEdge [] e1) e2) e3 in
  NoDup vs /\ forall x, In x vs <-> isEnd x e1 \/ isEnd x e2 \/ isEnd x e3.
Proof.
  cbv zeta. destruct (addEdge_spec [] e1 ltac:(constructor)) as (N1 & I1).
  destruct (addEdge_spec _ e2 N1) as (N2 & I2). destruct (addEdge_spec _ e3 N2) as (N3 & I3).
  split; [exact N3|]. intros x. rewrite I3, I2, I1. cbn [In]. tauto.
Qed.

Lemma three_corners (vs : list nat) (a b c : nat) :
  NoDup vs -> a <> b -> b <> c -> a <> c -> (forall v, In v vs <-> v = a \/ v = b \/ v = c) ->
  exists x y z, vs = [x; y; z] /\ x <> y /\ y <> z /\ x <> z /\
    (forall v, v = x \/ v = y \/ v = z <-> v = a \/ v = b \/ v = c).
Proof.
  intros N Nab Nbc Nac I.
  assert (L1 : List.length vs <= 3).
  { change 3 with (List.length [a; b; c]). apply NoDup_incl_length; [exact N|].
    intros v Hv. apply I in Hv. cbn. intuition. }
  assert (L2 : 3 <= List.length vs).
  { change 3 with (List.length [a; b; c]). apply NoDup_incl_length.
    - repeat constructor; cbn; intuition.
    - intros v Hv. apply I. cbn in Hv. intuition. }
  destruct vs as [|x [|y [|z [|w vs]]]]; cbn in L1, L2; try lia.
  exists x, y, z. split; [reflexivity|].
  inversion N as [|? ? H1 N1]; subst. inversion N1 as [|? ? H2 N2]; subst.
  cbn in H1, H2. split; [intuition|]. split; [intuition|]. split; [intuition|].
  intros v. specialize (I v). clear - I. cbn [In] in I. split; intros H.
  - apply I. destruct H as [->|[->| ->]]; auto.
  - apply I in H. destruct H as [<-|[<-|[<-|[]]]]; auto.
Qed.

(** ** Areas. *)
Lemma determinant_area a b c : (determinant a b c == area2 a b c)%Q.
Proof. unfold determinant, area2. ring. Qed.

Lemma area2_swap a b c : (area2 a c b == - area2 a b c)%Q.
Proof. unfold area2. ring. Qed.
Lemma area2_turn a b c : (area2 b c a == area2 a b c)%Q.
Proof. unfold area2. ring. Qed.

Lemma flat_perm pos (a b c x y z : nat) :
  a <> b -> b <> c -> a <> c -> (forall v, v = x \/ v = y \/ v = z <-> v = a \/ v = b \/ v = c) ->
  flat pos a b c -> flat pos x y z.
Proof.
  intros Nab Nbc Nac I F p q r P1 P2 P3.
  assert (D : (x = a /\ y = b /\ z = c) \/ (x = a /\ y = c /\ z = b) \/ (x = b /\ y = a /\ z = c) \/
              (x = b /\ y = c /\ z = a) \/ (x = c /\ y = a /\ z = b) \/ (x = c /\ y = b /\ z = a)).
  { pose proof (proj1 (I x) (or_introl eq_refl)) as X1.
    pose proof (proj1 (I y) (or_intror (or_introl eq_refl))) as X2.
    pose proof (proj1 (I z) (or_intror (or_intror eq_refl))) as X3.
    pose proof (proj2 (I a) (or_introl eq_refl)) as Y1.
    pose proof (proj2 (I b) (or_intror (or_introl eq_refl))) as Y2.
    pose proof (proj2 (I c) (or_intror (or_intror eq_refl))) as Y3.
    clear - X1 X2 X3 Y1 Y2 Y3 Nab Nbc Nac.
    destruct X1 as [->|[->| ->]]; destruct X2 as [->|[->| ->]]; destruct X3 as [->|[->| ->]];
      try (exfalso; clear - Y1 Nab Nac; intuition congruence);
      try (exfalso; clear - Y2 Nab Nbc; intuition congruence);
      try (exfalso; clear - Y3 Nac Nbc; intuition congruence); auto 10. }
  pose proof (area2_swap p q r) as S1. pose proof (area2_turn p q r) as T1.
  pose proof (area2_turn q r p) as T2. pose proof (area2_swap q r p) as S2.
  pose proof (area2_swap r p q) as S3.
  destruct D as [(->& ->& ->)|[(->& ->& ->)|[(->& ->& ->)|[(->& ->& ->)|[(->& ->& ->)|(->& ->& ->)]]]]].
  - exact (F _ _ _ P1 P2 P3).
  - pose proof (F _ _ _ P1 P3 P2). split; lra.
  - pose proof (F _ _ _ P2 P1 P3). split; lra.
  - pose proof (F _ _ _ P3 P1 P2). split; lra.
  - pose proof (F _ _ _ P2 P3 P1). split; lra.
  - pose proof (F _ _ _ P3 P2 P1). split; lra.
Qed.

Lemma tiny_pos : (0 < tiny)%Q.
Proof. reflexivity. Qed.

Lemma big_enough p q r :
  Qltb tiny (Qabs_ (determinant p q r)) = true <->
  ~ (- (1 / inject_Z (10 ^ 50)) <= area2 p q r <= 1 / inject_Z (10 ^ 50))%Q.
Proof.
  change (1 / inject_Z (10 ^ 50))%Q with tiny. rewrite Qltb_lt. unfold Qabs_.
  pose proof (determinant_area p q r) as D. pose proof tiny_pos as T. generalize dependent tiny.
  intros t T. destruct (Qltb (determinant p q r) 0) eqn:E.
  - apply Qltb_lt in E. split; [intros H (A & B); lra|]. intros H.
    apply Qnot_le_lt. intros Z. apply H. split; lra.
  - assert (E' : ~ (determinant p q r < 0)%Q) by (intros Z; apply Qltb_lt in Z; congruence).
    split; [intros H (A & B); lra|]. intros H. apply Qnot_le_lt. intros Z. apply H. split; lra.
Qed.

(** ** Sections of a file. *)
Section Sections.
Variable readVertex : str -> position.
Variable readEdge : str -> option (Z * list nat).
Variable readElement : str -> option (list nat).
Notation oneLine := (oneLine readVertex readEdge readElement).
Notation lineLoop := (lineLoop readVertex readEdge readElement).
Notation convert := (convert readVertex readEdge readElement).

Lemma lineLoop_app a b c :
  lineLoop (a ++ b) c = match lineLoop a c with Works c' => lineLoop b c' | Fails => Fails end.
Proof.
  revert c. induction a as [|l a IH]; intros c; [reflexivity|].
  cbn [List.app ArtModel.lineLoop]. destruct (oneLine l c) as [c'|]; [apply IH|reflexivity].
Qed.

Lemma oneLine_empty l c : contentOf l [] -> oneLine l c = Works c.
Proof. intros H. unfold ArtModel.oneLine. rewrite (clean_content _ _ H). reflexivity. Qed.

Definition nextMode (m : parseMode) : parseMode :=
  match m with Vertex => Edge | Edge => Element | _ => Finished end.

Lemma oneLine_mark l c : contentOf l ["$"%char] -> oneLine l c = Works (setMode (nextMode (mode c)) c).
Proof. intros H. unfold ArtModel.oneLine. rewrite (clean_content _ _ H). reflexivity. Qed.

Lemma oneLine_line l t c :
  contentOf l t -> t <> [] -> t <> ["$"%char] ->
  oneLine l c = match mode c with
                | Vertex => vertexLine readVertex t c | Edge => edgeLine readEdge t c
                | Element => elementLine readElement t c | Finished => Fails end.
Proof.
  intros H N M. unfold ArtModel.oneLine. rewrite (clean_content _ _ H).
  destruct (str_eqb t mark) eqn:E; [apply str_eqb_spec in E; contradiction|].
  destruct t as [|x t]; [contradiction|]. reflexivity.
Qed.

Lemma blank_section B c : sectionOf B [] -> lineLoop B c = Works c.
Proof.
  intros H. remember [] as ts eqn:E. induction H as [|l ls ts Hl H IH|]; [reflexivity| |discriminate E].
  cbn [ArtModel.lineLoop]. rewrite (oneLine_empty _ _ Hl). apply IH. exact E.
Qed.

Lemma vertex_section V vs c :
  sectionOf V vs -> mode c = Vertex ->
  lineLoop V c = Works (mkConv Vertex (vertexPos c ++ map (fun t => (readVertex t, false)) vs)
                          (edges c) (fractureEdges c) (elements c)).
Proof.
  intros H. revert c. induction H as [|l ls ts Hl H IH|l ls t ts Hl Ht Hm H IH]; intros c M.
  - cbn. rewrite app_nil_r. destruct c; cbn in *. now subst.
  - cbn [ArtModel.lineLoop]. rewrite (oneLine_empty _ _ Hl). apply IH. exact M.
  - cbn [ArtModel.lineLoop]. rewrite (oneLine_line _ _ _ Hl Ht Hm), M. unfold vertexLine.
    rewrite IH by exact M. cbn [vertexPos edges fractureEdges elements map].
    rewrite <- app_assoc. reflexivity.
Qed.

(** Edges. *)
Definition markEdge (l : list (position * bool)) (e : Z * (nat * nat)) : list (position * bool) :=
  if (fst e <? 0)%Z then markVertex (markVertex l (fst (snd e))) (snd (snd e)) else l.
Definition fracturesOf (es : list (Z * (nat * nat))) : list (nat * nat) :=
  map snd (filter (fun e => (fst e <? 0)%Z) es).

Lemma markEdge_length l e : List.length (markEdge l e) = List.length l.
Proof. unfold markEdge. destruct (fst e <? 0)%Z; [rewrite !markVertex_length|]; reflexivity. Qed.

Lemma edgeLine_ok t e c :
  edgeOf readEdge (List.length (vertexPos c)) t e ->
  edgeLine readEdge t c = Works (mkConv (mode c) (markEdge (vertexPos c) e) (edges c ++ [snd e])
                              (fractureEdges c ++ fracturesOf [e]) (elements c)).
Proof.
  destruct e as [d [a b]]. cbn [fst snd]. intros (R & A & B). cbn [fst snd] in *.
  unfold edgeLine. rewrite R. apply Nat.ltb_lt in A, B. rewrite A, B. cbn [andb].
  unfold markEdge, fracturesOf. cbn [fst snd filter map].
  destruct (d <? 0)%Z; cbn [map]; [reflexivity|]. rewrite app_nil_r. reflexivity.
Qed.

Lemma edgeLine_works t c c' :
  edgeLine readEdge t c = Works c' -> exists e, edgeOf readEdge (List.length (vertexPos c)) t e.
Proof.
  unfold edgeLine. destruct (readEdge t) as [[d [|a [|b [|x l]]]]|] eqn:R; try discriminate.
  destruct ((a <? _) && (b <? _)) eqn:L; [|discriminate]. intros _.
  apply andb_prop in L. destruct L as [L1 L2]. apply Nat.ltb_lt in L1, L2.
  exists (d, (a, b)). split; [exact R|]. split; assumption.
Qed.

Lemma edge_section E ts es c :
  sectionOf E ts -> mode c = Edge -> Forall2 (edgeOf readEdge (List.length (vertexPos c))) ts es ->
  lineLoop E c = Works (mkConv Edge (fold_left markEdge es (vertexPos c)) (edges c ++ map snd es)
                          (fractureEdges c ++ fracturesOf es) (elements c)).
Proof.
  intros H. revert c es. induction H as [|l ls ts Hl H IH|l ls t ts Hl Ht Hm H IH]; intros c es M F.
  - inversion F; subst. cbn. rewrite !app_nil_r. destruct c; cbn in *. now subst.
  - cbn [ArtModel.lineLoop]. rewrite (oneLine_empty _ _ Hl). apply IH; assumption.
  - inversion F as [|? e ? es' Fe F' Q1 Q2]; subst. cbn [ArtModel.lineLoop].
    rewrite (oneLine_line _ _ _ Hl Ht Hm), M. rewrite (edgeLine_ok _ _ _ Fe).
    rewrite (IH _ es'); cbn [mode vertexPos edges fractureEdges elements].
    + cbn [fold_left map]. rewrite <- !app_assoc. unfold fracturesOf. cbn [filter map].
      destruct (fst e <? 0)%Z; reflexivity.
    + exact M.
    + rewrite markEdge_length. exact F'.
Qed.

Lemma edge_section_works E ts c c' :
  sectionOf E ts -> mode c = Edge -> lineLoop E c = Works c' ->
  exists es, Forall2 (edgeOf readEdge (List.length (vertexPos c))) ts es.
Proof.
  intros H. revert c. induction H as [|l ls ts Hl H IH|l ls t ts Hl Ht Hm H IH]; intros c M.
  - intros _. exists []. constructor.
  - cbn [ArtModel.lineLoop]. rewrite (oneLine_empty _ _ Hl). apply IH. exact M.
  - cbn [ArtModel.lineLoop]. rewrite (oneLine_line _ _ _ Hl Ht Hm), M.
    destruct (edgeLine readEdge t c) as [c1|] eqn:E1; [|discriminate].
    destruct (edgeLine_works _ _ _ E1) as (e & He). rewrite (edgeLine_ok _ _ _ He) in E1.
    injection E1 as <-. intros W. eapply IH in W; [|exact M]. destruct W as (es & F).
    cbn [vertexPos] in F. rewrite markEdge_length in F. exists (e :: es). constructor; assumption.
Qed.

Lemma marks_fst es l : map fst (fold_left markEdge es l) = map fst l.
Proof.
  revert l. induction es as [|e es IH]; intros l; [reflexivity|]. cbn [fold_left].
  rewrite IH. unfold markEdge. destruct (fst e <? 0)%Z; [|reflexivity]. now rewrite !markVertex_fst.
Qed.

Lemma marks_length es l : List.length (fold_left markEdge es l) = List.length l.
Proof.
  revert l. induction es as [|e es IH]; intros l; [reflexivity|]. cbn [fold_left].
  rewrite IH. apply markEdge_length.
Qed.

Lemma onFracture_cons e es v :
  onFracture (e :: es) v <-> ((fst e < 0)%Z /\ isEnd v (snd e)) \/ onFracture es v.
Proof.
  destruct e as [d e]. cbn [fst snd]. split.
  - intros (d' & e' & [E|H] & D & I).
    + injection E as -> ->. left. split; assumption.
    + right. exists d', e'. auto.
  - intros [(D & I)|(d' & e' & H & D & I)].
    + exists d, e. split; [left; reflexivity|]. auto.
    + exists d', e'. split; [right; exact H|]. auto.
Qed.

Lemma marks_nth es l v p b :
  nth_error (fold_left markEdge es l) v = Some (p, b) ->
  exists b0, nth_error l v = Some (p, b0) /\ (b = true <-> b0 = true \/ onFracture es v).
Proof.
  revert l. induction es as [|e es IH]; intros l H.
  - exists b. split; [exact H|]. split; [auto|]. intros [Z|(d & e & [] & _)]. exact Z.
  - cbn [fold_left] in H. destruct (IH _ H) as (b1 & E1 & I1). unfold markEdge in E1.
    destruct (Z.ltb_spec (fst e) 0) as [D|D].
    + rewrite !markVertex_nth in E1. destruct (nth_error l v) as [[q b0]|]; [|discriminate E1].
      injection E1 as -> <-. exists b0. split; [reflexivity|].
      rewrite I1, onFracture_cons. unfold isEnd. rewrite !orb_true_iff, !Nat.eqb_eq. tauto.
    + exists b1. split; [exact E1|]. rewrite I1, onFracture_cons. split; [tauto|]. intros [Z|[(Z & _)|Z]]; [auto|lia|auto].
Qed.

(** Elements. *)
Lemma at1_nth c i : at1 c i = nth_error (map fst (vertexPos c)) i.
Proof. unfold at1. symmetry. apply nth_error_map. Qed.

Lemma nth_error_bound {A} (l : list A) i : i < List.length l -> exists x, nth_error l i = Some x.
Proof. intros H. apply nth_error_Some in H. destruct (nth_error l i); [eauto|contradiction]. Qed.

Lemma elementLine_triangle t a b c k :
  triangleOf readElement (edges k) t a b c ->
  (forall e, In e (edges k) -> fst e < List.length (vertexPos k) /\ snd e < List.length (vertexPos k)) ->
  (~ flat (map fst (vertexPos k)) a b c ->
   exists x y z, elementLine readElement t k =
     Works (mkConv (mode k) (vertexPos k) (edges k) (fractureEdges k) (elements k ++ [[x; y; z]])) /\
     triangleOf readElement (edges k) t x y z /\ counterClockwise (map fst (vertexPos k)) x y z) /\
  (flat (map fst (vertexPos k)) a b c -> elementLine readElement t k = Fails).
Proof.
  intros (i & j & l & e1 & e2 & e3 & R & E1 & E2 & E3 & Nab & Nbc & Nac & I) B.
  destruct (ends_spec e1 e2 e3) as (ND & IN).
  unfold elementLine. rewrite R, E1, E2, E3.
  set (vs := addEdge (addEdge (addEdge [] e1) e2) e3) in *. cbv zeta.
  assert (IN' : forall v, In v vs <-> v = a \/ v = b \/ v = c) by (intros v; rewrite IN; apply I).
  destruct (three_corners vs a b c ND Nab Nbc Nac IN') as (x & y & z & Ev & Nxy & Nyz & Nxz & J).
  assert (BE : forall v, In v vs -> v < List.length (vertexPos k)).
  { intros v Hv. apply IN in Hv. apply nth_error_In in E1, E2, E3.
    pose proof (B _ E1). pose proof (B _ E2). pose proof (B _ E3). unfold isEnd in Hv.
    destruct Hv as [[->| ->]|[[->| ->]|[->| ->]]]; tauto. }
  rewrite Ev in *. cbn [nth_error]. rewrite !at1_nth.
  assert (BE' : forall v, In v [x; y; z] -> exists p, nth_error (map fst (vertexPos k)) v = Some p).
  { intros v Hv. apply nth_error_bound. rewrite map_length. apply BE. exact Hv. }
  destruct (BE' x ltac:(cbn; auto)) as (p & Px). destruct (BE' y ltac:(cbn; auto)) as (q & Py).
  destruct (BE' z ltac:(cbn; auto)) as (r & Pz). rewrite Px, Py, Pz.
  pose proof (big_enough p q r) as BG.
  assert (FL : flat (map fst (vertexPos k)) a b c <->
               (- (1 / inject_Z (10 ^ 50)) <= area2 p q r <= 1 / inject_Z (10 ^ 50))%Q).
  { split; intros F.
    - exact (flat_perm _ _ _ _ _ _ _ Nab Nbc Nac J F p q r Px Py Pz).
    - refine (flat_perm (map fst (vertexPos k)) x y z a b c Nxy Nyz Nxz _ _).
      + intros v. symmetry. apply J.
      + intros p' q' r' P1 P2 P3. rewrite Px in P1. rewrite Py in P2. rewrite Pz in P3.
        injection P1 as <-. injection P2 as <-. injection P3 as <-. exact F. }
  split; intros F.
  - destruct (Qltb tiny (Qabs_ (determinant p q r))) eqn:G.
    2:{ exfalso. assert (X : ~ (- (1 / inject_Z (10 ^ 50)) <= area2 p q r <= 1 / inject_Z (10 ^ 50))%Q)
          by (intros X; apply F, FL; exact X).
        apply BG in X. congruence. }
    assert (TR : forall u v w, u <> v -> v <> w -> u <> w ->
                   (forall n, n = u \/ n = v \/ n = w <-> n = x \/ n = y \/ n = z) ->
                   triangleOf readElement (edges k) t u v w).
    { intros u v w N1 N2 N3 K. exists i, j, l, e1, e2, e3. repeat (split; [assumption|]).
      intros n. rewrite I, <- J. symmetry. apply K. }
    pose proof (determinant_area p q r) as DA. destruct (Qltb (determinant p q r) 0) eqn:S.
    + apply Qltb_lt in S. exists x, z, y. split; [reflexivity|]. split.
      * apply TR; auto. intros n. tauto.
      * exists p, r, q. repeat (split; [assumption|]). rewrite area2_swap. lra.
    + apply Qltb_ge in S. exists x, y, z. split; [reflexivity|]. split.
      * apply TR; auto. intros n. tauto.
      * exists p, q, r. repeat (split; [assumption|]).
        pose proof (proj1 BG eq_refl) as X. pose proof tiny_pos as TP.
        change (1 / inject_Z (10 ^ 50))%Q with tiny in X. clear - X TP S DA. generalize dependent tiny.
        intros tn X TP. apply Qnot_le_lt. intros Z. apply X. split; lra.
  - destruct (Qltb tiny (Qabs_ (determinant p q r))) eqn:G; [|reflexivity].
    exfalso. exact (proj1 BG eq_refl (proj1 FL F)).
Qed.

Lemma element_section T ts c :
  sectionOf T ts -> mode c = Element ->
  (forall e, In e (edges c) -> fst e < List.length (vertexPos c) /\ snd e < List.length (vertexPos c)) ->
  Forall (fun t => exists x y z, triangleOf readElement (edges c) t x y z) ts ->
  (Forall (fun t => forall x y z, triangleOf readElement (edges c) t x y z ->
                      ~ flat (map fst (vertexPos c)) x y z) ts ->
   exists new, lineLoop T c =
     Works (mkConv Element (vertexPos c) (edges c) (fractureEdges c) (elements c ++ new)) /\
     Forall2 (fun t tri => exists x y z, tri = [x; y; z] /\ triangleOf readElement (edges c) t x y z /\
                             counterClockwise (map fst (vertexPos c)) x y z) ts new) /\
  ((exists c', lineLoop T c = Works c') ->
   Forall (fun t => forall x y z, triangleOf readElement (edges c) t x y z ->
                      ~ flat (map fst (vertexPos c)) x y z) ts).
Proof.
  intros H. revert c. induction H as [|l ls ts Hl H IH|l ls t ts Hl Ht Hm H IH]; intros c M B F.
  - split; [|constructor]. intros _. exists []. split; [|constructor].
    cbn. rewrite app_nil_r. destruct c; cbn in *. now subst.
  - cbn [ArtModel.lineLoop]. rewrite (oneLine_empty _ _ Hl). apply IH; assumption.
  - inversion F as [|? ? (a & b & d & Ft) F' Q1]; subst. cbn [ArtModel.lineLoop].
    rewrite (oneLine_line _ _ _ Hl Ht Hm), M. split.
    + intros N. inversion N as [|? ? Nt N' Q1]; subst.
      destruct (elementLine_triangle t a b d c Ft B) as (W & _).
      destruct (W (Nt _ _ _ Ft)) as (x & y & z & E & Tr & CC). rewrite E.
      destruct (IH (mkConv (mode c) (vertexPos c) (edges c) (fractureEdges c) (elements c ++ [[x; y; z]]))
                   M B F') as (P & _).
      destruct (P N') as (new & E' & F2). exists ([x; y; z] :: new). split.
      * rewrite E'. cbn [vertexPos edges fractureEdges elements]. rewrite <- app_assoc. reflexivity.
      * constructor; [|exact F2]. exists x, y, z. auto.
    + intros (c' & W).
      assert (NF : forall x y z, triangleOf readElement (edges c) t x y z ->
                     ~ flat (map fst (vertexPos c)) x y z).
      { intros x y z Tr FL. destruct (elementLine_triangle t x y z c Tr B) as (_ & K).
        rewrite (K FL) in W. discriminate W. }
      constructor; [exact NF|].
      destruct (elementLine_triangle t a b d c Ft B) as (W1 & _).
      destruct (W1 (NF _ _ _ Ft)) as (x & y & z & E & Tr & CC). rewrite E in W.
      destruct (IH (mkConv (mode c) (vertexPos c) (edges c) (fractureEdges c) (elements c ++ [[x; y; z]]))
                   M B F') as (_ & P).
      apply P. eauto.
Qed.

(** ** The whole file. *)
Lemma sectionOf_snoc_content B l : sectionOf B [] -> In l B -> contentOf l [].
Proof.
  intros H. remember [] as ts eqn:E. induction H; subst; intros I; [destruct I| |discriminate E].
  destruct I as [->|I]; auto.
Qed.

(** The rounds of the loop: nothing happens in the last one if the file ends with a mark or
    with lines without content. *)
Lemma rounds_file text A m3 B :
  lines_of text = A ++ m3 :: B -> contentOf m3 ["$"%char] -> sectionOf B [] ->
  exists X, rounds text = A ++ m3 :: B ++ X /\
            Forall (fun l => contentOf l [] \/ contentOf l ["$"%char]) X.
Proof.
  intros E M S. unfold rounds. rewrite E. destruct (last (A ++ m3 :: B) []) as [|x r] eqn:L.
  - exists []. split; [now rewrite app_nil_r|constructor].
  - exists [clean (x :: r)]. split; [rewrite <- app_assoc; reflexivity|]. constructor; [|constructor].
    assert (I : In (x :: r) (m3 :: B)).
    { rewrite <- L. clear - L. destruct (@exists_last _ (m3 :: B) ltac:(discriminate)) as (B' & y & ->).
      rewrite app_assoc, last_last. apply in_or_app. right. left. reflexivity. }
    assert (J : clean (x :: r) = [] \/ clean (x :: r) = ["$"%char]).
    { destruct I as [<-|I]; [right; apply clean_content; exact M|left]. apply clean_content.
      eapply sectionOf_snoc_content; eassumption. }
    pose proof (content_clean (clean (x :: r))) as CC. rewrite clean_idem in CC.
    destruct J as [J|J]; rewrite J in CC at 2; auto.
Qed.

Lemma tail_rounds X c :
  Forall (fun l => contentOf l [] \/ contentOf l ["$"%char]) X -> mode c = Finished ->
  lineLoop X c = Works c.
Proof.
  intros H M. induction H as [|l X [Hl|Hl] H IH]; [reflexivity| |]; cbn [ArtModel.lineLoop].
  - rewrite (oneLine_empty _ _ Hl). exact IH.
  - rewrite (oneLine_mark _ _ Hl), M. cbn [nextMode]. destruct c; cbn in *. subst. exact IH.
Qed.

Definition vertexStart (vs : list str) : list (position * bool) :=
  map (fun t => (readVertex t, false)) vs.

Definition outOf (vs : list (position * bool)) (fr : list (nat * nat)) (ts : list (list nat)) :=
  Some (map (fun v => (fst v, if 0 <? List.length fr then Some (snd v) else None)) vs, ts).

Lemma convert_file text vs es ts :
  artFile text vs es ts ->
  (forall es', Forall2 (edgeOf readEdge (List.length vs)) es es' ->
     exists T c2, sectionOf T ts /\ mode c2 = Element /\
       vertexPos c2 = fold_left markEdge es' (vertexStart vs) /\ edges c2 = map snd es' /\
       fractureEdges c2 = fracturesOf es' /\ elements c2 = [] /\
       convert text = match lineLoop T c2 with
                      | Works c => outOf (vertexPos c) (fractureEdges c) (elements c)
                      | Fails => None end) /\
  ((forall es', ~ Forall2 (edgeOf readEdge (List.length vs)) es es') -> convert text = None).
Proof.
  intros (V & m1 & E & m2 & T & m3 & B & L & SV & SE & ST & SB & M1 & M2 & M3).
  assert (L' : lines_of text = (V ++ m1 :: E ++ m2 :: T) ++ m3 :: B).
  { rewrite L, <- app_assoc. cbn [List.app]. rewrite <- app_assoc. reflexivity. }
  destruct (rounds_file _ _ _ _ L' M3 SB) as (X & R & FX).
  unfold ArtModel.convert. rewrite R, <- app_assoc. cbn [List.app]. rewrite <- app_assoc. cbn [List.app].
  rewrite lineLoop_app, (vertex_section V vs newConv SV eq_refl). cbn [vertexPos edges fractureEdges elements newConv List.app].
  fold (vertexStart vs).
  cbn [ArtModel.lineLoop]. rewrite (oneLine_mark _ _ M1). cbn [mode nextMode setMode]. unfold setMode.
  cbn [vertexPos edges fractureEdges elements].
  rewrite lineLoop_app. split.
  - intros es' F.
    match goal with |- context [lineLoop E ?c] => rewrite (edge_section E es es' c SE eq_refl) end.
    2:{ cbn [vertexPos]. unfold vertexStart. rewrite map_length. exact F. }
    cbn [vertexPos edges fractureEdges elements List.app ArtModel.lineLoop].
    rewrite (oneLine_mark _ _ M2). cbn [mode nextMode]. unfold setMode.
    cbn [vertexPos edges fractureEdges elements].
    match goal with |- context [lineLoop (T ++ _) ?c] => exists T, c; set (c2 := c) end.
    split; [exact ST|]. split; [|split; [|split; [|split; [|split]]]].
    6:{ rewrite lineLoop_app. destruct (lineLoop T c2) as [c3|] eqn:E3; [|reflexivity].
        cbn [ArtModel.lineLoop]. rewrite (oneLine_mark _ _ M3).
        rewrite lineLoop_app, (blank_section _ _ SB).
        assert (MF : nextMode (mode c3) = Finished).
        { assert (G : forall T c c', lineLoop T c = Works c' -> (mode c = Element \/ mode c = Finished) ->
                        mode c' = Element \/ mode c' = Finished).
          { clear. induction T as [|l T IH]; intros c c' W M; [injection W as <-; exact M|].
            cbn [ArtModel.lineLoop] in W. destruct (oneLine l c) as [c1|] eqn:O; [|discriminate W].
            apply (IH c1 c' W). unfold ArtModel.oneLine in O.
            destruct (str_eqb (clean l) mark).
            { injection O as <-. cbn [mode setMode]. destruct M as [-> | ->]; auto. }
            destruct (clean l) as [|x r]; [injection O as <-; exact M|].
            destruct M as [M|M]; rewrite M in O; [|discriminate O].
            unfold elementLine in O.
            repeat match type of O with
                   | context [match ?e with _ => _ end] => destruct e; try discriminate O
                   end; injection O as <-; left; exact M. }
          destruct (G _ _ _ E3 (or_introl eq_refl)) as [-> | ->]; reflexivity. }
        rewrite (tail_rounds X _ FX) by exact MF. reflexivity. }
    all: reflexivity.
  - intros N. match goal with |- context [lineLoop E ?c] => set (c1 := c) end.
    destruct (lineLoop E c1) as [c'|] eqn:W; [|reflexivity]. exfalso.
    destruct (edge_section_works E es c1 c' SE eq_refl W) as (es' & F).
    apply (N es'). cbn [vertexPos c1] in F. unfold vertexStart in F. rewrite map_length in F. exact F.
Qed.

Lemma edges_in_range n ts es :
  Forall2 (edgeOf readEdge n) ts es -> forall e, In e (map snd es) -> fst e < n /\ snd e < n.
Proof.
  intros F e He. apply in_map_iff in He. destruct He as (x & <- & Hx).
  induction F as [|t y ts es (R & A & B) F IH]; [destruct Hx|].
  destruct Hx as [->|Hx]; auto.
Qed.

Lemma start_fst vs : map fst (vertexStart vs) = map readVertex vs.
Proof. unfold vertexStart. rewrite map_map. reflexivity. Qed.

Lemma fracturesOf_none es : 0 <? List.length (fracturesOf es) = false <-> Forall (fun e => (0 <= fst e)%Z) es.
Proof.
  unfold fracturesOf. rewrite map_length. induction es as [|e es IH]; [split; [constructor|reflexivity]|].
  cbn [filter]. destruct (Z.ltb_spec (fst e) 0) as [D|D].
  - cbn [List.length]. split; [discriminate|]. intros H. inversion H; subst. lia.
  - rewrite IH. split; [constructor; assumption|]. intros H. inversion H; assumption.
Qed.

Lemma convert_result text vs es ts es' :
  artFile text vs es ts -> Forall2 (edgeOf readEdge (List.length vs)) es es' ->
  Forall (fun t => exists x y z, triangleOf readElement (map snd es') t x y z) ts ->
  let pos := map readVertex vs in
  let good := Forall (fun t => forall x y z, triangleOf readElement (map snd es') t x y z ->
                                 ~ flat pos x y z) ts in
  (good -> exists V T,
     convert text = Some (V, T) /\ map fst V = pos /\
     (forall v p m, nth_error V v = Some (p, m) ->
        (Forall (fun e => (0 <= fst e)%Z) es' -> m = None) /\
        (~ Forall (fun e => (0 <= fst e)%Z) es' -> exists b, m = Some b /\ (b = true <-> onFracture es' v))) /\
     Forall2 (fun t tri => exists x y z, tri = [x; y; z] /\ triangleOf readElement (map snd es') t x y z /\
                             counterClockwise pos x y z) ts T) /\
  (convert text <> None -> good).
Proof.
  intros A F FT pos good.
  destruct (convert_file _ _ _ _ A) as (K & _). destruct (K es' F) as (T & c2 & ST & M & EV & EE & EF & EL & EC).
  assert (P : map fst (vertexPos c2) = pos) by (rewrite EV, marks_fst; apply start_fst).
  assert (B : forall e, In e (edges c2) -> fst e < List.length (vertexPos c2) /\ snd e < List.length (vertexPos c2)).
  { rewrite EE, EV, marks_length. unfold vertexStart. rewrite map_length. apply (edges_in_range _ _ _ F). }
  rewrite <- EE in FT. destruct (element_section T ts c2 ST M B FT) as (G1 & G2).
  rewrite EE, P in G1. rewrite EE, P in G2. rewrite EL in G1. cbn [List.app] in G1. split.
  - intros G. destruct (G1 G) as (new & W & F2). rewrite EC, W. cbn [vertexPos fractureEdges elements].
    unfold outOf. eexists _, new. split; [reflexivity|].
    rewrite EF. split; [rewrite map_map; cbn [fst]; exact P|]. split; [|exact F2].
    intros v p m N. rewrite nth_error_map, EV in N.
    destruct (nth_error (fold_left markEdge es' (vertexStart vs)) v) as [[q b]|] eqn:Q; [|discriminate N].
    cbn [option_map fst snd] in N. injection N as -> <-.
    destruct (0 <? List.length (fracturesOf es')) eqn:L.
    + split.
      * intros H. apply fracturesOf_none in H. congruence.
      * intros _. exists b. split; [reflexivity|]. destruct (marks_nth _ _ _ _ _ Q) as (b0 & S0 & I).
        unfold vertexStart in S0. rewrite nth_error_map in S0.
        destruct (nth_error vs v); [|discriminate S0]. cbn in S0. injection S0 as _ <-.
        rewrite I. split; [intros [Z|Z]; [discriminate Z|exact Z]|auto].
    + split; [reflexivity|]. intros H. apply fracturesOf_none in L. contradiction.
  - rewrite EC. intros W. apply G2. destruct (lineLoop T c2) as [c'|]; [eauto|contradiction].
Qed.

(** A file without end marks: only vertices. *)
Lemma no_marks ls c :
  mode c = Vertex -> Forall (fun l => ~ contentOf l ["$"%char]) ls ->
  exists new, lineLoop ls c = Works (mkConv Vertex (vertexPos c ++ new) (edges c) (fractureEdges c) (elements c)).
Proof.
  intros M H. revert c M. induction H as [|l ls Hl H IH]; intros c M.
  - exists []. cbn. rewrite app_nil_r. destruct c; cbn in *. now subst.
  - cbn [ArtModel.lineLoop]. pose proof (content_clean l) as C. unfold ArtModel.oneLine.
    destruct (str_eqb (clean l) mark) eqn:E.
    { apply str_eqb_spec in E. exfalso. apply Hl. unfold mark in E. rewrite <- E. exact C. }
    destruct (clean l) as [|x r]; [apply IH; exact M|]. rewrite M. unfold vertexLine.
    destruct (IH (mkConv (mode c) (vertexPos c ++ [(readVertex (x :: r), false)]) (edges c)
                    (fractureEdges c) (elements c)) M) as (new & W).
    rewrite W. cbn [vertexPos edges fractureEdges elements]. rewrite <- app_assoc. eauto.
Qed.
End Sections.
