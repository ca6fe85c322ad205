From Coq Require Import Qpower.
From Verif Require Import StepFileModel StepFileSpec.
Open Scope char_scope.

Arguments is_digit : simpl never.
Arguments is_space : simpl never.
Arguments is_sign : simpl never.
Arguments is_e : simpl never.
Arguments nat_of_digits : simpl never.
Arguments pow10 : simpl never.
Arguments Ascii.eqb : simpl never.

(** What cannot continue a number. *)
Definition stops (l : list ascii) : Prop :=
  match l with [] => True | c :: _ => is_digit c = false /\ Ascii.eqb c "." = false /\ is_e c = false /\ is_sign c = false end.

Lemma space_stops w l : blank w -> w <> [] -> stops (w ++ l).
Proof.
  intros H Hn. destruct w as [|c w]; [congruence|]. inversion H as [|? ? Hc _]; subst. cbn.
  unfold is_space in Hc. unfold is_digit, is_e, is_sign. 
  destruct c as [[] [] [] [] [] [] [] []]; vm_compute in Hc; try discriminate; vm_compute; auto.
Qed.

Lemma digits_app d l : Forall (fun c => is_digit c = true) d ->
  match l with [] => True | c :: _ => is_digit c = false end -> digits (d ++ l) = (d, l).
Proof.
  intros H Hl. induction d as [|c d IH]; cbn.
  - destruct l as [|c l]; auto. cbn. rewrite Hl. auto.
  - inversion H as [|? ? Hc Hd]; subst. rewrite Hc, (IH Hd). reflexivity.
Qed.

Lemma take_sign_app (s : option ascii) l : (forall c, s = Some c -> c = "+" \/ c = "-") ->
  match l with [] => True | c :: _ => is_sign c = false end -> take_sign (opt_list s ++ l) = (s, l).
Proof.
  intros H Hl. destruct s as [c|]; cbn.
  - destruct (H c eq_refl) as [-> | ->]; reflexivity.
  - destruct l as [|c l]; auto. cbn. rewrite Hl. reflexivity.
Qed.

Lemma digit_not_sign c : is_digit c = true -> is_sign c = false /\ Ascii.eqb c "." = false /\ is_e c = false.
Proof.
  unfold is_digit, is_sign, is_e. destruct c as [[] [] [] [] [] [] [] []]; vm_compute; auto; discriminate.
Qed.

Lemma is_e_not c : c = "e" \/ c = "E" -> is_e c = true /\ is_digit c = false /\ Ascii.eqb c "." = false.
Proof. intros [-> | ->]; vm_compute; auto. Qed.

Lemma Forall_app_l {A} (P : A -> Prop) a b : Forall P (a ++ b) -> Forall P a.
Proof. intros H. apply Forall_app in H. tauto. Qed.
Lemma Forall_app_r {A} (P : A -> Prop) a b : Forall P (a ++ b) -> Forall P b.
Proof. intros H. apply Forall_app in H. tauto. Qed.

Lemma scan_text n l : well_formed n -> stops l -> scan (text n ++ l) = (n, l).
Proof.
  intros (Hs & Hd & Hne & He) Hl. unfold scan, text.
  set (E := match n_exp n with Some (e, s, d) => e :: opt_list s ++ d | None => [] end).
  set (Fr := match n_frac n with Some d => "." :: d | None => [] end).
  rewrite <- !app_assoc.
  pose proof (Forall_app_l _ _ _ Hd) as Hi. pose proof (Forall_app_r _ _ _ Hd) as Hf.
  assert (TE : match E ++ l with [] => True | c :: _ => is_digit c = false /\ Ascii.eqb c "." = false end).
  { unfold E. destruct (n_exp n) as [[[e s] d]|]; cbn.
    - destruct (He e s d eq_refl) as (H1 & _). destruct (is_e_not e H1) as (_ & A & B). auto.
    - destruct l; cbn in *; tauto. }
  assert (TF : match Fr ++ E ++ l with [] => True | c :: _ => is_digit c = false end).
  { unfold Fr. destruct (n_frac n); cbn; [reflexivity|]. destruct (E ++ l); tauto. }
  assert (TS : match n_int n ++ Fr ++ E ++ l with [] => True | c :: _ => is_sign c = false end).
  { destruct (n_int n) as [|c i] eqn:Ei; cbn.
    - unfold Fr. destruct (n_frac n) as [f|] eqn:Ef; cbn; [reflexivity|].
      exfalso. apply Hne. unfold frac_of. rewrite Ef. reflexivity.
    - inversion Hi as [|? ? Hc _]; subst. apply (digit_not_sign c Hc). }
  rewrite take_sign_app by auto. rewrite (digits_app _ _ Hi TF).
  assert (P : (match Fr ++ E ++ l with
               | c :: l' => if Ascii.eqb c "." then let '(d, r) := digits l' in (Some d, r) else (None, Fr ++ E ++ l)
               | [] => (None, [])
               end) = (n_frac n, E ++ l)).
  { unfold Fr, frac_of in *. destruct (n_frac n) as [f|]; cbn [app].
    - rewrite Ascii.eqb_refl. rewrite digits_app; auto. destruct (E ++ l); tauto.
    - destruct (E ++ l) as [|c q]; auto. destruct TE as [_ ->]. reflexivity. }
  rewrite P.
  assert (HD : negb (match n_int n with [] => true | _ => false end && match n_frac n with None | Some [] => true | _ => false end) = true).
  { unfold frac_of in Hne. destruct (n_int n); cbn; auto. destruct (n_frac n) as [[|]|]; cbn in *; auto; congruence. }
  rewrite HD.
  assert (PE : (match E ++ l with
               | c :: l' => if is_e c && true then
                              let '(s, r) := take_sign l' in let '(d, r') := digits r in (Some (c, s, d), r')
                            else (None, E ++ l)
               | [] => (None, [])
               end) = (n_exp n, l)).
  { unfold E. destruct (n_exp n) as [[[e s] d]|] eqn:Ex; cbn [app].
    - destruct (He e s d eq_refl) as (H1 & H2 & H3 & H4). destruct (is_e_not e H1) as (-> & _). cbn [andb].
      rewrite <- app_assoc. rewrite take_sign_app; auto.
      + rewrite digits_app; auto. destruct l; cbn in *; tauto.
      + destruct d as [|c d]; [congruence|]. cbn. inversion H3 as [|? ? Hc _]; subst. apply (digit_not_sign c Hc).
    - destruct l as [|c l']; auto. destruct Hl as (_ & _ & -> & _). reflexivity. }
  rewrite PE. destruct n; reflexivity.
Qed.

Lemma value_some n : well_formed n -> exists q, value n = Some q.
Proof.
  intros (_ & _ & Hne & He). unfold value. destruct (n_int n ++ frac_of n) as [|c l] eqn:E; [congruence|].
  destruct (n_exp n) as [[[e s] [|x d]]|] eqn:Ex; eauto.
  destruct (He e s [] eq_refl) as (_ & _ & _ & H). congruence.
Qed.

Lemma text_starts n l : well_formed n -> exists c q, text n ++ l = c :: q /\ is_space c = false.
Proof.
  intros (Hs & Hd & Hne & _). unfold text. destruct (n_sign n) as [c|]; cbn.
  - destruct (Hs c eq_refl) as [-> | ->]; eauto.
  - unfold frac_of in *. destruct (n_int n) as [|c i]; cbn.
    + destruct (n_frac n) as [f|]; cbn; [|cbn in Hne; congruence]. eauto.
    + inversion Hd as [|? ? Hc _]; subst. eexists; eexists; split; eauto.
      unfold is_digit in Hc. unfold is_space. destruct c as [[] [] [] [] [] [] [] []]; vm_compute in Hc |- *; auto; discriminate.
Qed.

Lemma skip_blank w l : blank w -> skip_space (w ++ l) = skip_space l.
Proof. intros H. induction w as [|c w IH]; cbn; auto. inversion H as [|? ? Hc Hw]; subst. rewrite Hc. auto. Qed.

Lemma extract_number w n l q : blank w -> well_formed n -> stops l -> value n = Some q ->
  extract (mkStream (w ++ text n ++ l) false false) =
  (Num q, mkStream l (match l with [] => true | _ => false end) false).
Proof.
  intros Hw Hn Hl Hq. unfold extract. cbn [st_eof st_fail st_rest orb].
  rewrite (skip_blank _ _ Hw). destruct (text_starts n l Hn) as (c & r & E & Hc).
  assert (Sk : skip_space (text n ++ l) = text n ++ l) by (rewrite E; cbn; rewrite Hc; reflexivity).
  rewrite Sk, E, <- E, (scan_text n l Hn Hl), Hq. reflexivity.
Qed.

Lemma read_eof fuel l f acc : read_loop fuel (mkStream l true f) acc = Some acc.
Proof. destruct fuel; reflexivity. Qed.

Definition nums (items : list (list ascii * number)) : list cell :=
  map (fun '(w, n) => match value n with Some q => Num q | None => FailZero end) items.

(** After the numbers the stream is at [tail]. *)
Lemma read_numbers items tail fuel acc : file_ok items -> (items <> [] -> stops tail) -> tail <> [] ->
  read_loop (length items + fuel) (mkStream (file_text items ++ tail) false false) acc =
  read_loop fuel (mkStream tail false false) (acc ++ nums items).
Proof.
  intros Hok Hst Ht. revert acc. induction items as [|[w n] items IH]; intros acc.
  - cbn. rewrite app_nil_r. reflexivity.
  - destruct Hok as [H1 H2]. inversion H1 as [|? ? Hwn Hi]; subst. cbn in Hwn. destruct Hwn as [Hw Hn]. cbn [length file_text map concat].
    rewrite <- app_assoc. rewrite <- app_assoc.
    destruct (value_some n Hn) as [q Hq].
    assert (Hs : stops (concat (map (fun '(w0, n0) => w0 ++ text n0) items) ++ tail)).
    { destruct items as [|[w2 n2] items].
      - cbn. apply Hst. congruence.
      - cbn. cbn in H2. inversion H2 as [|? ? Hw2 _]; subst. inversion Hi as [|? ? Hbn _]; subst. cbn in Hbn. destruct Hbn as [Hb _].
        rewrite <- !app_assoc. apply space_stops; auto. }
    cbn [plus read_loop st_eof]. rewrite (extract_number w n _ q Hw Hn Hs Hq).
    destruct (concat (map (fun '(w0, n0) => w0 ++ text n0) items) ++ tail) as [|c rest] eqn:E.
    { apply app_eq_nil in E. destruct E as [_ E]. congruence. }
    rewrite <- E. fold (file_text items). rewrite IH.
    + cbn. rewrite Hq. rewrite <- app_assoc. reflexivity.
    + split; auto. destruct items as [|x items]; [constructor|]. cbn in H2. inversion H2; auto.
    + intros Hne. apply Hst. congruence.
Qed.

Lemma file_text_snoc items w n : file_text (items ++ [(w, n)]) = file_text items ++ w ++ text n.
Proof. unfold file_text. rewrite map_app, concat_app. cbn. rewrite app_nil_r. reflexivity. Qed.

Lemma read_exact items : file_ok items -> items <> [] ->
  read_steps (length items) (Some (file_text items)) = Some (nums items).
Proof.
  intros Hok Hne. destruct (exists_last Hne) as (its & [w n] & E). subst items.
  destruct Hok as [H1 H2]. apply Forall_app in H1. destruct H1 as [H1 H1']. inversion H1' as [|? ? Hwn _]; subst. cbn in Hwn. destruct Hwn as [Hw Hn].
  rewrite file_text_snoc. unfold read_steps, open_file. rewrite app_length. cbn [length].
  destruct (value_some n Hn) as [q Hq]. destruct (text_starts n [] Hn) as (c & r & Et & _). rewrite app_nil_r in Et.
  rewrite read_numbers.
  - cbn [read_loop st_eof]. rewrite <- (app_nil_r (text n)). rewrite (extract_number w n [] q Hw Hn I Hq).
    cbn. unfold nums. rewrite map_app. cbn. rewrite Hq. reflexivity.
  - split; auto. destruct its as [|x its]; [constructor|]. cbn in H2. apply Forall_app in H2. tauto.
  - intros Hi. destruct its as [|x its]; [congruence|]. cbn in H2. apply Forall_app in H2. destruct H2 as [_ H2].
    inversion H2; subst. apply space_stops; auto.
  - rewrite Et. destruct w; cbn; congruence.
Qed.

Lemma read_trailing items w : file_ok items -> blank w -> w <> [] ->
  read_steps (length items + 1) (Some (file_text items ++ w)) = Some (nums items ++ [Uninit]).
Proof.
  intros Hok Hw Hne. unfold read_steps, open_file. rewrite read_numbers; auto.
  - cbn [read_loop st_eof]. unfold extract. cbn [st_eof st_fail st_rest orb].
    rewrite <- (app_nil_r w), skip_blank by auto. cbn. reflexivity.
  - intros _. rewrite <- (app_nil_r w). apply space_stops; auto.
Qed.

(** A failed stream which is not at the end never ends. *)
Lemma read_stuck l fuel acc : read_loop fuel (mkStream l false true) acc = None.
Proof. revert acc. induction fuel as [|f IH]; intros acc; cbn; auto. Qed.

Lemma read_missing fuel : read_steps fuel None = None.
Proof. apply read_stuck. Qed.

Lemma read_fuel a fuel s acc : read_loop (a + fuel) s acc = None -> read_loop a s acc = None.
Proof.
  revert s acc. induction a as [|a IH]; intros s acc; cbn.
  - destruct fuel; cbn; destruct (st_eof s); auto; discriminate.
  - destruct (st_eof s); auto. destruct (extract s). apply IH.
Qed.

Lemma read_junk items w c rest fuel : file_ok items -> blank w -> (items <> [] -> w <> []) ->
  is_space c = false -> is_digit c = false -> is_sign c = false -> Ascii.eqb c "." = false ->
  read_steps fuel (Some (file_text items ++ w ++ c :: rest)) = None.
Proof.
  intros Hok Hw Hs C1 C2 C3 C4. apply (read_fuel fuel (length items + 1)).
  replace (fuel + (length items + 1))%nat with (length items + (S fuel))%nat by lia.
  unfold open_file. rewrite read_numbers; auto.
  - cbn [read_loop st_eof]. unfold extract. cbn [st_eof st_fail st_rest orb].
    rewrite skip_blank by auto. cbn [skip_space]. rewrite C1.
    assert (E : scan (c :: rest) = (mkNumber None [] None None, c :: rest)).
    { unfold scan. cbn [take_sign]. rewrite C3. cbn [digits]. rewrite C2, C4. cbn [andb negb].
      rewrite andb_false_r. reflexivity. }
    rewrite E. cbn [value n_int frac_of n_frac app n_exp n_sign]. apply read_stuck.
  - intros Hi. apply space_stops; auto.
  - destruct w; cbn; congruence.
Qed.

(** ** The value read is the usual meaning *)
Lemma digit_val_digit c : is_digit c = true -> digit c = inject_Z (digit_val c) /\ (0 <= digit_val c <= 9)%Z.
Proof. unfold is_digit. destruct c as [[] [] [] [] [] [] [] []]; vm_compute; intros H; try discriminate; split; auto; split; discriminate. Qed.

Lemma nod_acc l a : fold_left (fun a c => a * 10 + digit_val c)%Z l a = (a * 10 ^ Z.of_nat (length l) + nat_of_digits l)%Z.
Proof.
  revert a. induction l as [|c l IH]; intros a.
  - unfold nat_of_digits. cbn. lia.
  - unfold nat_of_digits. cbn [fold_left length]. rewrite !IH. rewrite Nat2Z.inj_succ, Z.pow_succ_r by lia. lia.
Qed.
Lemma nod_cons c l : nat_of_digits (c :: l) = (digit_val c * 10 ^ Z.of_nat (length l) + nat_of_digits l)%Z.
Proof. unfold nat_of_digits at 1. cbn [fold_left]. rewrite nod_acc. lia. Qed.
Lemma nod_app a b : nat_of_digits (a ++ b) = (nat_of_digits a * 10 ^ Z.of_nat (length b) + nat_of_digits b)%Z.
Proof. unfold nat_of_digits at 1. rewrite fold_left_app. fold (nat_of_digits a). apply nod_acc. Qed.
Lemma nod_partZ l : Forall (fun c => is_digit c = true) l -> int_partZ l = nat_of_digits l.
Proof.
  induction l as [|c l IH]; intros H; [reflexivity|]. inversion H as [|? ? Hc Hl]; subst.
  rewrite nod_cons. cbn [int_partZ]. rewrite (IH Hl). destruct (digit_val_digit c Hc) as [-> _]. reflexivity.
Qed.
Lemma Qpower_Z n : (0 <= n)%Z -> Qpower 10 n == inject_Z (10 ^ n).
Proof. intros H. rewrite Zpower_Qpower by auto. reflexivity. Qed.
Lemma int_part_nod l : Forall (fun c => is_digit c = true) l -> int_part l == inject_Z (nat_of_digits l).
Proof.
  induction l as [|c l IH]; intros H; [reflexivity|]. inversion H as [|? ? Hc Hl]; subst.
  rewrite nod_cons. cbn [int_part]. rewrite (IH Hl). destruct (digit_val_digit c Hc) as [-> _].
  rewrite Qpower_Z by lia. rewrite inject_Z_plus, inject_Z_mult. reflexivity.
Qed.
Lemma Qpower10_nz e : ~ Qpower 10 e == 0.
Proof. apply Qpower_not_0. discriminate. Qed.
Lemma Qpower10_plus a b : Qpower 10 (a + b) == Qpower 10 a * Qpower 10 b.
Proof. apply Qpower_plus. discriminate. Qed.
Lemma frac_part_nod l : Forall (fun c => is_digit c = true) l ->
  frac_part l == inject_Z (nat_of_digits l) * Qpower 10 (- Z.of_nat (length l)).
Proof.
  induction l as [|c l IH]; intros H; [reflexivity|]. inversion H as [|? ? Hc Hl]; subst.
  rewrite nod_cons. cbn [frac_part length]. rewrite (IH Hl). destruct (digit_val_digit c Hc) as [-> _].
  rewrite inject_Z_plus, inject_Z_mult, <- Qpower_Z by lia.
  set (n := Z.of_nat (length l)). replace (- Z.of_nat (S (length l)))%Z with (- n + -1)%Z by (unfold n; lia).
  rewrite Qpower10_plus. assert (E : Qpower 10 n * Qpower 10 (- n) == 1).
  { rewrite <- Qpower10_plus. replace (n + - n)%Z with 0%Z by lia. reflexivity. }
  change (Qpower 10 (-1)) with (/ 10)%Q. unfold Qdiv. 
  transitivity ((inject_Z (digit_val c) * (Qpower 10 n * Qpower 10 (- n)) + inject_Z (nat_of_digits l) * Qpower 10 (- n)) * / 10); [rewrite E; ring|ring].
Qed.

Lemma value_meaning n q : well_formed n -> value n = Some q -> q == meaning n.
Proof.
  intros (Hs & Hd & Hne & He) H. unfold value in H. unfold meaning.
  pose proof (Forall_app_l _ _ _ Hd) as Hi. pose proof (Forall_app_r _ _ _ Hd) as Hf.
  assert (M : inject_Z (nat_of_digits (n_int n ++ frac_of n)) * pow10 (- Z.of_nat (length (frac_of n)))
              == int_part (n_int n) + frac_part (frac_of n)).
  { rewrite int_part_nod, frac_part_nod by auto. rewrite nod_app, inject_Z_plus, inject_Z_mult, <- Qpower_Z by lia.
    set (k := Z.of_nat (length (frac_of n))). unfold pow10. change (10 # 1) with 10.
    assert (E : Qpower 10 k * Qpower 10 (- k) == 1).
    { rewrite <- Qpower10_plus. replace (k + - k)%Z with 0%Z by lia. reflexivity. }
    transitivity (inject_Z (nat_of_digits (n_int n)) * (Qpower 10 k * Qpower 10 (- k)) + inject_Z (nat_of_digits (frac_of n)) * Qpower 10 (- k)); [ring|rewrite E; ring]. }
  set (m := inject_Z (nat_of_digits (n_int n ++ frac_of n)) * pow10 (- Z.of_nat (length (frac_of n)))) in *.
  cbv zeta in H. 
  assert (S : match n_sign n with Some c => if Ascii.eqb c "-" then - m else m | None => m end == signed (n_sign n) (int_part (n_int n) + frac_part (frac_of n))).
  { unfold signed. destruct (n_sign n) as [c|]; [destruct (Ascii.eqb c "-")|]; rewrite M; reflexivity. }
  destruct (n_int n ++ frac_of n) as [|x l] eqn:Ed; [discriminate|].
  destruct (n_exp n) as [[[e s] d]|] eqn:Ex.
  - destruct (He e s d eq_refl) as (_ & _ & Hd' & Hdn). destruct d as [|y d]; [congruence|].
    apply (f_equal (fun o => match o with Some a => a | None => 0 end)) in H. rewrite <- H.
    rewrite S. rewrite nod_partZ by auto. unfold Zsigned, pow10. change (10 # 1) with 10. reflexivity.
  - apply (f_equal (fun o => match o with Some a => a | None => 0 end)) in H. rewrite <- H. rewrite S. cbn. ring.
Qed.
