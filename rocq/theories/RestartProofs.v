From Coq Require Import Lqa.
From Verif Require Import RestartModel RestartSpec StepFileProofs FloatTextProofs.
Open Scope Q_scope.

Definition live (l : list ascii) : stream := mkStream l false false.
Definition no_nl (l : list ascii) : Prop := Forall (fun c => Ascii.eqb c "010" = false) l.

Lemma no_nl_app a b : no_nl a -> no_nl b -> no_nl (a ++ b).
Proof. intros. apply Forall_app. auto. Qed.
Lemma digit_no_nl c : is_digit c = true -> Ascii.eqb c "010" = false.
Proof. unfold is_digit. destruct c as [[] [] [] [] [] [] [] []]; vm_compute; auto; discriminate. Qed.
Lemma digits_no_nl l : Forall (fun c => is_digit c = true) l -> no_nl l.
Proof. intros H. eapply Forall_impl; [|exact H]. apply digit_no_nl. Qed.
Lemma show_no_nl z : no_nl (show_Z z).
Proof.
  unfold show_Z. destruct (Z.ltb_spec z 0) as [N|N].
  - constructor; [reflexivity|]. apply digits_no_nl, show_nat_ok. lia.
  - apply digits_no_nl, show_nat_ok. lia.
Qed.
Lemma text_no_nl n : well_formed n -> no_nl (text n).
Proof.
  intros (Hs & Hd & _ & He). unfold text. apply no_nl_app; [|apply no_nl_app; [|apply no_nl_app]].
  - destruct (n_sign n) as [c|]; [|constructor]. constructor; [|constructor]. destruct (Hs c eq_refl); subst; reflexivity.
  - apply digits_no_nl. apply (Forall_app_l _ _ _ Hd).
  - apply Forall_app_r in Hd. unfold frac_of in Hd. destruct (n_frac n) as [d|]; [|constructor].
    constructor; [reflexivity|]. apply digits_no_nl. auto.
  - destruct (n_exp n) as [[[e s] d]|]; [|constructor]. destruct (He e s d eq_refl) as (H1 & H2 & H3 & _).
    constructor; [destruct H1; subst; reflexivity|]. apply no_nl_app.
    + destruct s as [c|]; [|constructor]. constructor; [|constructor]. destruct (H2 c eq_refl); subst; reflexivity.
    + apply digits_no_nl. auto.
Qed.
Lemma put_no_nl x : no_nl (put_double x).
Proof. unfold put_double, print_g. rewrite chars_text. apply text_no_nl, fmt_ok. lia. Qed.
Lemma vals_no_nl l : no_nl (write_vals l).
Proof. induction l as [|x l IH]; [constructor|]. unfold write_vals. cbn [map concat]. apply no_nl_app; auto. apply no_nl_app; [apply put_no_nl|repeat constructor]. Qed.
Lemma ints_no_nl l : no_nl (write_ints l).
Proof. induction l as [|x l IH]; [constructor|]. unfold write_ints. cbn [map concat]. apply no_nl_app; auto. apply no_nl_app; [apply show_no_nl|repeat constructor]. Qed.
Lemma extra_no_nl e l : no_nl (write_extra e l).
Proof. induction e as [|x e IH]; [constructor|]. unfold write_extra. cbn [map concat]. apply no_nl_app; auto. apply put_no_nl. Qed.
Lemma entity_no_nl k d : no_nl (write_entity k d).
Proof.
  destruct k; cbn [write_entity]; repeat apply no_nl_app; auto using vals_no_nl, ints_no_nl, extra_no_nl.
Qed.
Lemma cookie_no_nl g : no_nl (cookie g).
Proof. unfold cookie. repeat apply no_nl_app; try apply show_no_nl; repeat constructor. Qed.

Lemma upto_line a r : no_nl a -> upto_newline (a ++ nl :: r) = (a, Some r).
Proof. induction a as [|c a IH]; intros H; cbn; auto. inversion H as [|? ? Hc Ha]; subst. rewrite Hc, (IH Ha). reflexivity. Qed.
Lemma getline_app old a r : no_nl a -> getline old (live (a ++ nl :: r)) = (a, live r).
Proof. intros H. unfold getline, live. cbn [st_eof st_fail st_rest orb]. rewrite upto_line by auto. reflexivity. Qed.

Lemma bind_some {A B} (p : parser A) (q : A -> parser B) s a s' : p s = Some (a, s') -> bind p q s = q a s'.
Proof. unfold bind. intros ->. reflexivity. Qed.
Lemma p_line_app old a r : no_nl a -> p_line old (live (a ++ nl :: r)) = Some (a, live r).
Proof. intros H. unfold p_line. rewrite getline_app by auto. reflexivity. Qed.
Lemma is_good_live l : is_good (live l) = Some (true, live l).
Proof. reflexivity. Qed.

Lemma begin_ok c r : no_nl c -> read_begin c (live (c ++ nl :: r)) = Some (tt, live r).
Proof.
  intros H. unfold read_begin. erewrite bind_some; [|apply is_good_live]. cbv iota.
  erewrite bind_some; [|apply p_line_app; auto]. destruct (list_eq_dec ascii_dec c c); [reflexivity|congruence].
Qed.
Lemma end_ok w r : blank w -> no_nl w -> read_end (live (w ++ nl :: r)) = Some (tt, live r).
Proof.
  intros Hw H. unfold read_end. erewrite bind_some; [|apply p_line_app; auto].
  assert (forallb is_space w = true) as ->; [|reflexivity]. apply forallb_forall. apply Forall_forall. exact Hw.
Qed.

Lemma twenty : (2 ^ 56 <= 10 ^ (Z.of_nat 20 - 1))%Z. Proof. vm_compute. discriminate. Qed.

Lemma sp_stops l : stops (sp :: l).
Proof. vm_compute. auto. Qed.
Lemma nl_stops l : stops (nl :: l).
Proof. vm_compute. auto. Qed.
Lemma p_double_ok x old w l : is_double x -> blank w -> l <> [] -> stops l ->
  exists v, v == x /\ p_double old (live (w ++ put_double x ++ l)) = Some (v, live l).
Proof.
  intros Dx Hw Hl Hs. destruct (get_printed 20 x old w l Dx twenty Hw Hs) as (v & Hv & E).
  exists v. split; auto. unfold p_double, live, put_double. rewrite E. destruct l; [congruence|reflexivity].
Qed.
Lemma p_int_ok z old w l : blank w -> l <> [] -> match l with [] => True | c :: _ => is_digit c = false end ->
  p_int old (live (w ++ show_Z z ++ l)) = Some (z, live l).
Proof. intros Hw Hl Hs. unfold p_int, live. rewrite get_shown by auto. destruct l; [congruence|reflexivity]. Qed.

Lemma blank_sp : blank [sp]. Proof. repeat constructor. Qed.
Lemma blank_nil : blank []. Proof. constructor. Qed.
#[local] Hint Resolve blank_sp blank_nil sp_stops nl_stops : core.
Lemma sp_nondigit : is_digit sp = false. Proof. reflexivity. Qed.

Lemma read_vals_ok xs : forall old w l, length old = length xs -> Forall is_double xs -> blank w ->
  exists vs w', Forall2 Qeq vs xs /\ blank w' /\ (xs <> [] -> w' = [sp]) /\
    read_vals old (live (w ++ write_vals xs ++ l)) = Some (vs, live ((if xs then w else w') ++ l)).
Proof.
  induction xs as [|x xs IH]; intros old w l Hlen Hd Hw.
  - destruct old; [|discriminate]. exists [], [sp]. auto.
  - destruct old as [|o old]; [discriminate|]. inversion Hd as [|? ? Dx Dxs]; subst.
    unfold write_vals. cbn [map concat]. rewrite <- !app_assoc. fold (write_vals xs).
    destruct (p_double_ok x o w ([sp] ++ write_vals xs ++ l) Dx Hw) as (v & Hv & E); [discriminate|apply sp_stops|].
    destruct (IH old [sp] l) as (vs & w' & F & B & Hw' & E'); auto.
    exists (v :: vs), [sp]. split; [constructor; auto|]. split; auto. split; auto.
    cbn [read_vals]. erewrite bind_some; [|apply is_good_live]. cbv iota. erewrite bind_some; [|exact E].
    erewrite bind_some; [|exact E']. unfold ret. destruct xs; auto. rewrite Hw' by discriminate. reflexivity.
Qed.

Lemma read_ints_ok zs : forall w l, blank w ->
  read_ints (length zs) (live (w ++ write_ints zs ++ l)) = Some (zs, live ((if zs then w else [sp]) ++ l)).
Proof.
  induction zs as [|z zs IH]; intros w l Hw; [reflexivity|].
  unfold write_ints. cbn [map concat length read_ints]. rewrite <- !app_assoc. fold (write_ints zs).
  erewrite bind_some; [|apply p_int_ok; auto; [discriminate|reflexivity]].
  erewrite bind_some; [|apply (IH [sp]); auto]. unfold ret. destruct zs; reflexivity.
Qed.

Lemma Forall2_nth_Qeq vs xs i : Forall2 Qeq vs xs -> nth i vs 0 == nth i xs 0.
Proof. intros H. revert i. induction H as [|a b la lb Hab Hl IH]; intros [|i]; cbn; auto; reflexivity. Qed.
Lemma set_nth_same vs xs i v : Forall2 Qeq vs xs -> v == nth i xs 0 -> Forall2 Qeq (set_nth i v vs) xs.
Proof.
  intros H. revert i v. induction H as [|a b la lb Hab Hl IH]; intros i v Hv.
  - unfold set_nth. cbn. constructor.
  - unfold set_nth. destruct i as [|i].
    + cbn in *. constructor; auto.
    + cbn [length firstn skipn app] in *. cbn in Hv. specialize (IH i v Hv). unfold set_nth in IH.
      change (S i <? S (length la))%nat with (i <? length la)%nat.
      destruct (i <? length la)%nat; cbn; constructor; auto.
Qed.

(** Which entity lines can be read back. *)
Definition readable (k : kind) : Prop := match k with BlackOil extra => (length extra <= 1)%nat | _ => True end.

Lemma entity_ok k n d old : readable k -> shape k n d -> shape k n old -> proper_dof d -> (1 <= n)%nat ->
  exists v s, same_dof v d /\ read_entity k old (live (write_entity k d)) = Some (v, s).
Proof.
  intros Hr [L1 L2] [O1 O2] Hp Hn. unfold shape in *.
  assert (Lo : length (f_vals old) = length (f_vals d)) by lia.
  destruct k as [| |extra]; cbn [read_entity write_entity].
  - destruct (read_vals_ok (f_vals d) (f_vals old) [] [] Lo Hp) as (vs & w & F & _ & _ & E); auto.
    rewrite app_nil_r in E. eexists. eexists. split; [|erewrite bind_some; [|exact E]; reflexivity].
    split; auto. cbn. destruct (f_ints d); [|discriminate]. destruct (f_ints old); [reflexivity|discriminate].
  - destruct (read_vals_ok (f_vals d) (f_vals old) [] (write_ints (f_ints d)) Lo Hp) as (vs & w & F & _ & Hw & E); auto.
    assert (Hne : f_vals d <> []) by (destruct (f_vals d); [cbn in *; lia|discriminate]).
    destruct (f_vals d) as [|x0 xs] eqn:Ed; [congruence|]. rewrite <- Ed in *. rewrite Hw in E by auto.
    pose proof (read_ints_ok (f_ints d) [sp] [] blank_sp) as I. rewrite L2, app_nil_r in I.
    eexists. eexists. split; [|erewrite bind_some; [|exact E]; erewrite bind_some; [|apply is_good_live]; cbv iota;
      erewrite bind_some; [|exact I]; reflexivity].
    split; auto.
  - destruct (read_vals_ok (f_vals d) (f_vals old) [] (write_ints (f_ints d) ++ write_extra extra (f_vals d)) Lo Hp) as (vs & w & F & _ & Hw & E); auto.
    assert (Hne : f_vals d <> []) by (destruct (f_vals d); [cbn in *; lia|discriminate]).
    destruct (f_vals d) as [|x0 xs] eqn:Ed; [congruence|]. rewrite <- Ed in *. rewrite Hw in E by auto.
    pose proof (read_ints_ok (f_ints d) [sp] (write_extra extra (f_vals d)) blank_sp) as I. rewrite L2 in I.
    destruct (f_ints d) as [|z0 zs] eqn:Ez; [discriminate|]. rewrite <- Ez in *.
    cbn [readable] in Hr. destruct extra as [|i [|j extra]]; [| |cbn in Hr; lia].
    + eexists. eexists. split; [|erewrite bind_some; [|exact E]; erewrite bind_some; [|exact I];
        erewrite bind_some; [|apply is_good_live]; cbv iota; reflexivity].
      split; auto.
    + unfold write_extra in I, E. cbn [map concat] in I, E. rewrite app_nil_r in I, E.
      assert (Di : is_double (nth i (f_vals d) 0)).
      { destruct (Nat.lt_ge_cases i (length (f_vals d))) as [L|L].
        - apply (proj1 (Forall_forall _ _) Hp). apply nth_In. auto.
        - rewrite nth_overflow by auto. exists 0%Z, 0%Z. split; [reflexivity|]. split; [lia|reflexivity]. }
      destruct (get_printed 20 (nth i (f_vals d) 0) (nth i vs 0) [sp] [] Di twenty blank_sp Logic.I) as (v & Hv & G).
      rewrite app_nil_r in G.
      exists (mkDof (set_nth i v vs) (f_ints d)). eexists. split.
      * split; [|reflexivity]. cbn. apply set_nth_same; auto.
      * unfold write_extra. cbn [map concat]. rewrite app_nil_r.
        erewrite bind_some; [|exact E]. erewrite bind_some; [|exact I]. erewrite bind_some; [|apply is_good_live]. cbv iota.
        erewrite bind_some; [|cbn [read_extra]; erewrite bind_some; [|unfold p_double, live; cbn [app] in G |- *; unfold put_double; rewrite G; reflexivity]; reflexivity].
        reflexivity.
Qed.

Lemma lines_ok k n ds : readable k -> Forall (shape k n) ds -> Forall proper_dof ds -> (1 <= n)%nat ->
  forall old l, length old = length ds -> Forall (shape k n) old ->
  exists vs, Forall2 same_dof vs ds /\
    read_lines k old (live (concat (map (fun d => write_entity k d ++ [nl]) ds) ++ l)) = Some (vs, live l).
Proof.
  intros Hr Hs Hp Hn. induction ds as [|d ds IH]; intros old l Hlen Ho.
  - destruct old; [|discriminate]. exists []. split; [constructor|reflexivity].
  - destruct old as [|o old]; [discriminate|]. inversion Hs; inversion Hp; inversion Ho; subst.
    destruct (entity_ok k n d o) as (v & s & Sv & Ev); auto.
    destruct (IH ltac:(auto) ltac:(auto) old l) as (vs & F & E); auto.
    exists (v :: vs). split; [constructor; auto|].
    cbn [map concat read_lines]. rewrite <- !app_assoc. cbn [app].
    erewrite bind_some; [|unfold read_line; erewrite bind_some; [|apply is_good_live]; cbv iota;
      erewrite bind_some; [|apply p_line_app; apply entity_no_nl]; fold (live (write_entity k d)); rewrite Ev; reflexivity].
    erewrite bind_some; [|exact E]. reflexivity.
Qed.

Lemma entities_ok k n codim ds old l : readable k -> Forall (shape k n) ds -> Forall proper_dof ds -> (1 <= n)%nat ->
  length old = length ds -> Forall (shape k n) old ->
  exists vs, Forall2 same_dof vs ds /\
    read_entities k codim old (live (write_entities k codim ds ++ l)) = Some (vs, live l).
Proof.
  intros Hr Hs Hp Hn Hlen Ho. destruct (lines_ok k n ds Hr Hs Hp Hn old ([nl] ++ l) Hlen Ho) as (vs & F & E).
  exists vs. split; auto. unfold read_entities, write_entities, section_begin, section_end. rewrite <- !app_assoc.
  erewrite bind_some; [|rewrite app_assoc; apply begin_ok; apply no_nl_app; [repeat constructor|apply show_no_nl]].
  erewrite bind_some; [|exact E]. erewrite bind_some; [|apply (end_ok [])]; [reflexivity|auto|constructor].
Qed.

Lemma simulator_ok d old l : proper_sim d ->
  exists v, same_sim v d /\ read_simulator old (live (write_simulator d ++ l)) = Some (v, live l).
Proof.
  intros (D1 & D2 & D3 & D4). unfold write_simulator, section_begin, section_end, read_simulator. rewrite <- !app_assoc.
  match goal with |- context [live (str "Simulator" ++ [nl] ++ ?r)] => pose proof (begin_ok (str "Simulator") r) as B end.
  match goal with |- context [show_Z (d_epidx d) ++ ?r] => pose proof (p_int_ok (d_epidx d) (d_epidx old) [] r) as P1 end.
  match goal with |- context [[sp] ++ put_double (d_epstart d) ++ ?r] => destruct (p_double_ok (d_epstart d) (d_epstart old) [sp] r D1) as (v1 & V1 & P2); [auto|discriminate|apply sp_stops|] end.
  match goal with |- context [[sp] ++ put_double (d_eplen d) ++ ?r] => destruct (p_double_ok (d_eplen d) (d_eplen old) [sp] r D2) as (v2 & V2 & P3); [auto|discriminate|apply sp_stops|] end.
  match goal with |- context [[sp] ++ put_double (d_start d) ++ ?r] => destruct (p_double_ok (d_start d) (d_start old) [sp] r D3) as (v3 & V3 & P4); [auto|discriminate|apply sp_stops|] end.
  match goal with |- context [[sp] ++ put_double (d_time d) ++ ?r] => destruct (p_double_ok (d_time d) (d_time old) [sp] r D4) as (v4 & V4 & P5); [auto|discriminate|apply sp_stops|] end.
  match goal with |- context [[sp] ++ show_Z (d_idx d) ++ ?r] => pose proof (p_int_ok (d_idx d) (d_idx old) [sp] r blank_sp) as P6 end.
  exists (mkSimdata (d_epidx d) v1 v2 v3 v4 (d_idx d)). split; [unfold same_sim; cbn; auto 10|].
  erewrite bind_some; [|apply B; repeat constructor].
  erewrite bind_some; [|apply P1; auto; [discriminate|reflexivity]].
  erewrite bind_some; [|exact P2]. erewrite bind_some; [|exact P3]. erewrite bind_some; [|exact P4]. erewrite bind_some; [|exact P5].
  erewrite bind_some; [|apply P6; [discriminate|reflexivity]].
  erewrite bind_some; [|apply (end_ok [sp])]; [reflexivity|auto|repeat constructor].
Qed.

Definition vtk_read (rank : Z) (old v : vtk) : vtk := mkVtk (v_num v) (if (rank =? 0)%Z then v_file v else v_file old).

Lemma vtk_ok rank v old l : (forall b p, v_file v = Some (b, p) -> b <> []) ->
  read_vtk rank old (live (write_vtk rank v ++ l)) = Some (vtk_read rank old v, live l).
Proof.
  intros Hf. unfold write_vtk, section_begin, section_end, read_vtk, vtk_read. rewrite <- !app_assoc.
  erewrite bind_some; [|apply begin_ok; repeat constructor].
  erewrite bind_some; [|apply (p_int_ok (v_num v) (v_num old) []); auto; [discriminate|reflexivity]].
  destruct (rank =? 0)%Z.
  - set (bp := match v_file v with Some f => f | None => ([], 0%Z) end). destruct bp as [b pos] eqn:Eb.
    rewrite <- !app_assoc.
    erewrite bind_some.
    2:{ erewrite bind_some; [|apply (p_line_app [] []); constructor].
        erewrite bind_some; [|apply (p_int_ok _ 0 []); auto; [discriminate|reflexivity]].
        erewrite bind_some; [|apply (p_int_ok _ 0 [sp; sp]); [repeat constructor|discriminate|reflexivity]].
        erewrite bind_some; [|apply (p_line_app [] []); constructor].
        instantiate (1 := live ([nl] ++ l)). instantiate (1 := v_file v).
        destruct (v_file v) as [[b' p']|] eqn:Ev; unfold bp in Eb; inversion Eb; subst.
        - destruct b as [|c b]; [destruct (Hf [] pos eq_refl); reflexivity|]. 
          assert ((0 <? Z.of_nat (length (c :: b)))%Z = true) as -> by (apply Z.ltb_lt; cbn; lia).
          erewrite bind_some; [reflexivity|]. unfold p_read. change (good (live _)) with true. cbv iota. cbn [st_rest live].
          rewrite !app_length. destruct (Z.ltb_spec (Z.of_nat (length (c :: b) + (length [nl] + length l))) (Z.of_nat (length (c :: b)))) as [X|X]; [lia|].
          rewrite Nat2Z.id, firstn_app, skipn_app, Nat.sub_diag, firstn_all, skipn_all. cbn [firstn skipn]. rewrite app_nil_r. reflexivity.
        - reflexivity. }
    erewrite bind_some; [|apply (end_ok [])]; [reflexivity|auto|constructor].
  - cbn [app]. erewrite bind_some; [|erewrite bind_some; [|apply (p_line_app [] []); constructor]; reflexivity].
    erewrite bind_some; [|apply (end_ok [])]; [reflexivity|auto|constructor].
Qed.

Lemma header_ok g withVtk d v old l : proper_sim d ->
  (forall b p, v_file v = Some (b, p) -> b <> []) ->
  exists d', same_sim d' d /\
    read_header g withVtk old (live (section_begin (cookie g) ++ section_end ++ write_simulator d ++
       (if withVtk then write_vtk (g_rank g) v else []) ++ l)) =
    Some ((d', if withVtk then vtk_read (g_rank g) (s_vtk old) v else s_vtk old), live l).
Proof.
  intros Hd Hv. destruct (simulator_ok d (s_sim old) ((if withVtk then write_vtk (g_rank g) v else []) ++ l) Hd) as (d' & S & E).
  exists d'. split; auto. unfold read_header, section_begin, section_end. rewrite <- !app_assoc.
  erewrite bind_some; [|apply begin_ok, cookie_no_nl].
  erewrite bind_some; [|apply (end_ok [])]; [|auto|constructor].
  erewrite bind_some; [|exact E].
  destruct withVtk.
  - erewrite bind_some; [|apply vtk_ok; auto]. reflexivity.
  - erewrite bind_some; [|reflexivity]. reflexivity.
Qed.

Lemma restart_round_trip k n g codim withVtk s old : readable k -> (1 <= n)%nat ->
  proper_sim (s_sim s) -> (forall b p, v_file (s_vtk s) = Some (b, p) -> b <> []) ->
  Forall (shape k n) (s_sol s) -> Forall proper_dof (s_sol s) ->
  length (s_sol old) = length (s_sol s) -> Forall (shape k n) (s_sol old) ->
  exists s', read_all k g codim withVtk old (Some (write_all k g codim withVtk s)) = Some s' /\
    same_sim (s_sim s') (s_sim s) /\ Forall2 same_dof (s_sol s') (s_sol s) /\
    s_vtk s' = if withVtk then vtk_read (g_rank g) (s_vtk old) (s_vtk s) else s_vtk old.
Proof.
  intros Hr Hn Hd Hv Hs Hp Hl Ho.
  destruct (header_ok g withVtk (s_sim s) (s_vtk s) old (write_entities k codim (s_sol s)) Hd Hv) as (d' & S & E).
  destruct (entities_ok k n codim (s_sol s) (s_sol old) [] Hr Hs Hp Hn Hl Ho) as (vs & F & E2). rewrite app_nil_r in E2.
  exists (mkState d' (if withVtk then vtk_read (g_rank g) (s_vtk old) (s_vtk s) else s_vtk old) vs).
  split; [|auto]. unfold read_all, write_all. 
  assert (NE : exists c r, section_begin (cookie g) ++ section_end ++ write_simulator (s_sim s) ++
    (if withVtk then write_vtk (g_rank g) (s_vtk s) else []) ++ write_entities k codim (s_sol s) = c :: r) by (eexists; eexists; reflexivity).
  destruct NE as (c & r & NE). rewrite NE, <- NE. fold (live (section_begin (cookie g) ++ section_end ++ write_simulator (s_sim s) ++
    (if withVtk then write_vtk (g_rank g) (s_vtk s) else []) ++ write_entities k codim (s_sol s))).
  erewrite bind_some; [|exact E]. erewrite bind_some; [|exact E2]. reflexivity.
Qed.

(** ** Truncated files *)
Definition dead (s : stream) : Prop := good s = false.

(** Reading the beginning [P] of a file [P ++ X] either throws, or runs into the end, or
    does the same as reading the whole file. *)
Definition simul {A} (p : parser A) : Prop :=
  (forall s, dead s -> match p s with None => True | Some (_, s') => dead s' end) /\
  (forall P X, match p (live P) with
               | None => True
               | Some (a, s') => dead s' \/ exists r, s' = live r /\ p (live (P ++ X)) = Some (a, live (r ++ X))
               end).

Lemma simul_ret {A} (a : A) : simul (ret a).
Proof. split; cbn; auto. intros P X. right. exists P. auto. Qed.
Lemma simul_throw {A} : simul (@throw A).
Proof. split; cbn; auto. Qed.
Lemma simul_bind {A B} (p : parser A) (q : A -> parser B) : simul p -> (forall a, simul (q a)) -> simul (bind p q).
Proof.
  intros [P1 P2] Q. split.
  - intros s D. unfold bind. specialize (P1 s D). destruct (p s) as [[a s']|]; auto. apply (proj1 (Q a)). auto.
  - intros P X. unfold bind. specialize (P2 P X). destruct (p (live P)) as [[a s']|]; auto.
    destruct P2 as [D|(r & -> & E)].
    + pose proof (proj1 (Q a) s' D). destruct (q a s') as [[b s'']|]; auto.
    + rewrite E. apply (proj2 (Q a) r X).
Qed.
Lemma simul_if {A} (b : bool) (p q : parser A) : simul p -> simul q -> simul (if b then p else q).
Proof. destruct b; auto. Qed.
(** A check of the stream followed by an exception. *)
Lemma simul_good {A} (p : parser A) : simul p -> simul (do g <- is_good; if g then p else throw).
Proof.
  intros [P1 P2]. split.
  - intros s D. unfold bind, is_good. unfold dead in D. rewrite D. exact I.
  - intros P X. apply P2.
Qed.

Lemma dead_cases s : dead s -> st_eof s || st_fail s = true.
Proof. unfold dead, good. destruct (st_eof s), (st_fail s); cbn; auto; discriminate. Qed.

Lemma upto_newline_app l X : match upto_newline l with
  | (a, Some r) => upto_newline (l ++ X) = (a, Some (r ++ X)) | (_, None) => True end.
Proof.
  induction l as [|c l IH]; cbn; auto. destruct (Ascii.eqb c "010"); auto.
  destruct (upto_newline l) as [a [r|]]; auto. rewrite IH. reflexivity.
Qed.
Lemma simul_line old : simul (p_line old).
Proof.
  split.
  - intros s D. unfold p_line, getline. rewrite (dead_cases s D). unfold dead, good. cbn. rewrite andb_false_r. reflexivity.
  - intros P X. unfold p_line, getline, live. cbn [st_eof st_fail st_rest orb].
    pose proof (upto_newline_app P X) as U. destruct (upto_newline P) as [a [r|]].
    + right. exists r. rewrite U. auto.
    + left. reflexivity.
Qed.

Lemma digits_prefix l X : let '(d, r) := digits l in r <> [] -> digits (l ++ X) = (d, r ++ X).
Proof.
  induction l as [|c l IH]; cbn; [congruence|]. destruct (is_digit c) eqn:E.
  - destruct (digits l) as [d r]. intros H. rewrite (IH H). reflexivity.
  - intros _. reflexivity.
Qed.
Lemma take_sign_prefix l X : let '(s, r) := take_sign l in r <> [] -> take_sign (l ++ X) = (s, r ++ X).
Proof. destruct l as [|c l]; cbn; [congruence|]. destruct (is_sign c); auto. Qed.
Lemma digits_nonnil l X : let '(d, r) := digits l in d <> [] -> fst (digits (l ++ X)) <> [].
Proof. destruct l as [|c l]; cbn; [congruence|]. destruct (is_digit c); [|congruence]. destruct (digits l), (digits (l ++ X)). cbn. congruence. Qed.

Lemma scan_prefix l X : let '(n, r) := scan l in r <> [] -> scan (l ++ X) = (n, r ++ X).
Proof.
  unfold scan.
  pose proof (take_sign_prefix l X) as T. destruct (take_sign l) as [sg l1].
  pose proof (digits_prefix l1 X) as D. destruct (digits l1) as [ip l2] eqn:ED.
  set (F := fun l2 : list ascii => match l2 with
       | c :: l' => if Ascii.eqb c "." then let '(d, r) := digits l' in (Some d, r) else (None, l2)
       | [] => (None, []) end).
  change (match l2 with
       | c :: l' => if Ascii.eqb c "." then let '(d, r) := digits l' in (Some d, r) else (None, l2)
       | [] => (None, []) end) with (F l2).
  assert (Fp : let '(f, r) := F l2 in r <> [] -> F (l2 ++ X) = (f, r ++ X)).
  { unfold F. destruct l2 as [|c l']; cbn; [congruence|]. destruct (Ascii.eqb c ".").
    - pose proof (digits_prefix l' X) as D'. destruct (digits l') as [d r]. intros H. rewrite (D' H). reflexivity.
    - auto. }
  assert (Fn : let '(f, r) := F l2 in l2 = [] -> r = []) by (unfold F; destruct l2; [auto|]; cbn; destruct (Ascii.eqb a "."); [destruct (digits l2)|]; congruence).
  destruct (F l2) as [fr l3] eqn:EF.
  set (G := fun (h : bool) (l3 : list ascii) => match l3 with
       | c :: l' => if is_e c && h then let '(s, r) := take_sign l' in let '(d, r') := digits r in (Some (c, s, d), r') else (None, l3)
       | [] => (None, []) end).
  set (h := negb (match ip with [] => true | _ => false end && match fr with None | Some [] => true | _ => false end)).
  change (match l3 with
       | c :: l' => if is_e c && h then let '(s, r) := take_sign l' in let '(d, r') := digits r in (Some (c, s, d), r') else (None, l3)
       | [] => (None, []) end) with (G h l3).
  assert (Gp : let '(e, r) := G h l3 in r <> [] -> G h (l3 ++ X) = (e, r ++ X)).
  { unfold G. destruct l3 as [|c l']; cbn; [congruence|]. destruct (is_e c && h); auto.
    pose proof (take_sign_prefix l' X) as T'. destruct (take_sign l') as [s r].
    pose proof (digits_prefix r X) as D'. destruct (digits r) as [d r'] eqn:Edr. intros H. rewrite T'.
    - rewrite (D' H). reflexivity.
    - intros ->. cbn in Edr. inversion Edr; subst. congruence. }
  assert (Gn : let '(e, r) := G h l3 in l3 = [] -> r = []) by (unfold G; destruct l3; [auto|]; destruct (is_e a && h); [destruct (take_sign l3) as [? q]; destruct (digits q)|]; congruence).
  destruct (G h l3) as [ex l4] eqn:EG. intros H.
  assert (H3 : l3 <> []) by (intros ->; apply H; auto).
  assert (H2 : l2 <> []) by (intros ->; apply H3; auto).
  assert (H1 : l1 <> []).
  { intros ->. cbn in ED. inversion ED. congruence. }
  rewrite (T H1), (D H2). fold (F (l2 ++ X)). rewrite (Fp H3). fold h. fold (G h (l3 ++ X)). rewrite (Gp H). reflexivity.
Qed.

Lemma skip_prefix l X : skip_space l <> [] -> skip_space (l ++ X) = skip_space l ++ X.
Proof. induction l as [|c l IH]; cbn; [congruence|]. destruct (is_space c); auto. Qed.

Lemma simul_double old : simul (p_double old).
Proof.
  split.
  - intros s D. unfold p_double, get_double, extract. rewrite (dead_cases s D). unfold dead, good. cbn. rewrite andb_false_r. reflexivity.
  - intros P X. unfold p_double, get_double, extract, live. cbn [st_eof st_fail st_rest orb].
    destruct (skip_space P) as [|c l] eqn:E; [left; reflexivity|].
    pose proof (skip_prefix P X) as K. rewrite E in K. rewrite K by discriminate. cbn [app].
    pose proof (scan_prefix (c :: l) X) as S. destruct (scan (c :: l)) as [n r] eqn:Es. cbn [app] in S.
    destruct (value n) as [q|] eqn:Ev.
    + destruct r as [|d r]; [left; reflexivity|]. right. exists (d :: r). split; auto. rewrite S by discriminate. rewrite Ev. reflexivity.
    + left. unfold dead, good. cbn. rewrite andb_false_r. reflexivity.
Qed.
Lemma simul_int old : simul (p_int old).
Proof.
  split.
  - intros s D. unfold p_int, get_int. rewrite (dead_cases s D). unfold dead, good. cbn. rewrite andb_false_r. reflexivity.
  - intros P X. unfold p_int, get_int, live. cbn [st_eof st_fail st_rest orb].
    destruct (skip_space P) as [|c l] eqn:E; [left; reflexivity|].
    pose proof (skip_prefix P X) as K. rewrite E in K. rewrite K by discriminate.
    pose proof (take_sign_prefix (c :: l) X) as T. cbn [app] in *. destruct (take_sign (c :: l)) as [sg l1].
    pose proof (digits_prefix l1 X) as D. destruct (digits l1) as [d r] eqn:Ed.
    destruct d as [|c0 d].
    + left. unfold dead, good. cbn. rewrite andb_false_r. reflexivity.
    + destruct r as [|c1 r]; [left; reflexivity|]. right. exists (c1 :: r). split; auto.
      assert (l1 <> []) by (intros ->; cbn in Ed; discriminate).
      rewrite T by auto. rewrite D by discriminate. reflexivity.
Qed.
Lemma simul_read n : simul (p_read n).
Proof.
  split.
  - intros s D. unfold p_read. unfold dead in D. rewrite D. unfold dead, good. cbn. rewrite andb_false_r. reflexivity.
  - intros P X. unfold p_read. change (good (live P)) with true. change (good (live (P ++ X))) with true. cbv iota. cbn [st_rest live].
    destruct (Z.ltb_spec (Z.of_nat (length P)) n) as [L|L]; [left; reflexivity|].
    right. exists (skipn (Z.to_nat n) P). split; auto.
    rewrite app_length. destruct (Z.ltb_spec (Z.of_nat (length P + length X)) n) as [L2|L2]; [lia|].
    rewrite firstn_app, skipn_app. replace (Z.to_nat n - length P)%nat with 0%nat by lia. cbn [firstn skipn]. rewrite app_nil_r. reflexivity.
Qed.

Lemma simul_begin c : simul (read_begin c).
Proof.
  unfold read_begin. apply simul_good. apply simul_bind; [apply simul_line|]. intros l.
  destruct (list_eq_dec ascii_dec l c); [apply simul_ret|apply simul_throw].
Qed.
Lemma simul_end : simul read_end.
Proof. unfold read_end. apply simul_bind; [apply simul_line|]. intros l. apply simul_if; [apply simul_ret|apply simul_throw]. Qed.
Ltac simul := repeat (first [apply simul_begin | apply simul_end | apply simul_bind; [|intro] | apply simul_int | apply simul_double
                           | apply simul_line | apply simul_read | apply simul_ret | apply simul_throw | apply simul_if]).
Lemma simul_simulator old : simul (read_simulator old).
Proof. unfold read_simulator. simul. Qed.
Lemma simul_vtk rank old : simul (read_vtk rank old).
Proof. unfold read_vtk. simul. Qed.
Lemma simul_header g w old : simul (read_header g w old).
Proof.
  unfold read_header. simul; auto using simul_simulator, simul_vtk.
Qed.
Lemma simul_read_line k old : simul (read_line k old).
Proof.
  unfold read_line. apply simul_good. apply simul_bind; [apply simul_line|]. intros l.
  destruct (read_entity k old (mkStream l false false)) as [[d s]|]; [apply simul_ret|apply simul_throw].
Qed.
Lemma simul_lines k old : simul (read_lines k old).
Proof. induction old as [|d old IH]; cbn [read_lines]; [apply simul_ret|]. apply simul_bind; [apply simul_read_line|intros v]. apply simul_bind; [exact IH|intros l]. apply simul_ret. Qed.

Lemma read_lines_app k a b s : read_lines k (a ++ b) s =
  match read_lines k a s with Some (va, s') => match read_lines k b s' with Some (vb, s'') => Some (va ++ vb, s'') | None => None end | None => None end.
Proof.
  revert s. induction a as [|d a IH]; intros s; cbn [app read_lines].
  - unfold ret. destruct (read_lines k b s) as [[]|]; reflexivity.
  - unfold bind at 1. unfold bind at 2. destruct (read_line k d s) as [[v s']|]; auto.
    unfold bind, ret. rewrite IH. destruct (read_lines k a s') as [[va s'']|]; auto. destruct (read_lines k b s'') as [[vb s3]|]; reflexivity.
Qed.

(** Reading up to the last line. *)
Definition upto_last k g codim withVtk old olds : parser (list dof) :=
  do h <- read_header g withVtk old; do _ <- read_begin (str "Entities: Codim " ++ show_Z codim); read_lines k olds.
Lemma simul_upto k g codim w old olds : simul (upto_last k g codim w old olds).
Proof. unfold upto_last. apply simul_bind; [apply simul_header|intros h]. apply simul_bind; [apply simul_begin|intros u]. apply simul_lines. Qed.

Lemma split_at {A} (a b : list A) k : (k <= length a)%nat -> firstn k (a ++ b) = firstn k a.
Proof. intros H. rewrite firstn_app. replace (k - length a)%nat with 0%nat by lia. cbn. apply app_nil_r. Qed.

Lemma truncated k n g codim withVtk s ds d old cut : readable k -> (1 <= n)%nat ->
  proper_sim (s_sim s) -> (forall b p, v_file (s_vtk s) = Some (b, p) -> b <> []) ->
  s_sol s = ds ++ [d] ->
  Forall (shape k n) (s_sol s) -> Forall proper_dof (s_sol s) ->
  length (s_sol old) = length (s_sol s) -> Forall (shape k n) (s_sol old) ->
  let whole := write_all k g codim withVtk s in
  (cut + length (write_entity k d) + 2 < length whole)%nat ->
  read_all k g codim withVtk old (Some (firstn cut whole)) = None.
Proof.
  intros Hr Hn Hd Hv Hsol Hs Hp Hl Ho whole Hc.
  assert (Lo : exists olds o, s_sol old = olds ++ [o] /\ length olds = length ds).
  { rewrite Hsol, app_length in Hl. cbn in Hl. destruct (exists_last (l := s_sol old)) as (olds & o & E).
    - intros E. rewrite E in Hl. cbn in Hl. lia.
    - exists olds, o. split; auto. rewrite E, app_length in Hl. cbn in Hl. lia. }
  destruct Lo as (olds & o & Eo & Lo). rewrite Hsol in Hs, Hp. rewrite Eo in Ho.
  apply Forall_app in Hs, Hp, Ho. destruct Hs as [Hs _], Hp as [Hp _], Ho as [Ho _].
  set (tail := write_entity k d ++ [nl] ++ section_end).
  destruct (header_ok g withVtk (s_sim s) (s_vtk s) old (write_entities k codim (s_sol s)) Hd Hv) as (d' & S & E).
  destruct (lines_ok k n ds Hr Hs Hp Hn olds tail Lo Ho) as (vs & F & E2).
  assert (U : upto_last k g codim withVtk old olds (live whole) = Some (vs, live tail)).
  { unfold upto_last. unfold whole, write_all. erewrite bind_some; [|exact E].
    unfold write_entities, section_begin. rewrite Hsol, map_app, concat_app. cbn [map concat]. rewrite app_nil_r. rewrite <- !app_assoc.
    erewrite bind_some; [|rewrite app_assoc; apply begin_ok; apply no_nl_app; [repeat constructor|apply show_no_nl]].
    exact E2. }
  unfold read_all. destruct (firstn cut whole) as [|c0 l0] eqn:EP; auto. rewrite <- EP. fold (live (firstn cut whole)).
  pose proof (proj2 (simul_upto k g codim withVtk old olds) (firstn cut whole) (skipn cut whole)) as Sim.
  rewrite firstn_skipn in Sim. rewrite U in Sim.
  unfold upto_last in Sim. unfold bind at 1. unfold bind at 1 in Sim.
  destruct (read_header g withVtk old (live (firstn cut whole))) as [[h s1]|]; auto.
  unfold bind at 1 in Sim. unfold bind at 1. unfold read_entities. unfold bind at 1.
  destruct (read_begin (str "Entities: Codim " ++ show_Z codim) s1) as [[u s2]|]; auto.
  rewrite Eo. unfold bind at 1. rewrite read_lines_app.
  destruct (read_lines k olds s2) as [[vs' s3]|]; auto.
  destruct Sim as [D|(r & -> & Eq)].
  - cbn [read_lines]. unfold bind at 1. unfold read_line. unfold bind at 1. unfold is_good. unfold dead in D. rewrite D. reflexivity.
  - exfalso. inversion Eq as [[H1 H2]]. apply (f_equal (@length ascii)) in H2. unfold tail in H2. rewrite !app_length, skipn_length in H2.
    unfold section_end in H2. cbn [length] in H2. lia.
Qed.

(** ** A file of another grid or process *)
Lemma show_sep z z' l l' c c' : is_digit c = false -> is_digit c' = false ->
  show_Z z ++ c :: l = show_Z z' ++ c' :: l' -> z = z' /\ c :: l = c' :: l'.
Proof.
  intros Hc Hc' E. pose proof (get_shown z 0 [] (c :: l) blank_nil Hc) as A. pose proof (get_shown z' 0 [] (c' :: l') blank_nil Hc') as B.
  cbn [app] in A, B. rewrite E, B in A. inversion A; auto.
Qed.
Lemma show_inj z z' : show_Z z = show_Z z' -> z = z'.
Proof. intros E. apply (f_equal (fun x => x ++ [sp])) in E. apply show_sep in E; [tauto| |]; reflexivity. Qed.
Lemma cookie_inj g g' : cookie g = cookie g' -> g = g'.
Proof.
  unfold cookie. intros H. apply app_inv_head in H.
  destruct g as [a b c d e], g' as [a' b' c' d' e']. cbn [g_cpus g_rank g_elements g_edges g_vertices] in H.
  apply show_sep in H; [|reflexivity|reflexivity]. destruct H as [-> H]. apply (app_inv_head (str " myRank=")) in H.
  apply show_sep in H; [|reflexivity|reflexivity]. destruct H as [-> H]. apply (app_inv_head (str " numElements=")) in H.
  apply show_sep in H; [|reflexivity|reflexivity]. destruct H as [-> H]. apply (app_inv_head (str " numEdges=")) in H.
  apply show_sep in H; [|reflexivity|reflexivity]. destruct H as [-> H]. apply (app_inv_head (str " numVertices=")) in H.
  apply show_inj in H. subst. reflexivity.
Qed.
Lemma other_grid k g g' codim codim' w w' s old : g <> g' ->
  read_all k g' codim' w' old (Some (write_all k g codim w s)) = None.
Proof.
  intros NE. unfold read_all. destruct (write_all k g codim w s) as [|c0 l0] eqn:E; auto. rewrite <- E. fold (live (write_all k g codim w s)).
  unfold bind at 1. unfold read_header. unfold bind at 1. unfold read_begin. unfold bind at 1.
  rewrite is_good_live. unfold write_all, section_begin. rewrite <- !app_assoc. cbn [app]. unfold bind at 1.
  rewrite p_line_app by apply cookie_no_nl.
  destruct (list_eq_dec ascii_dec (cookie g) (cookie g')) as [C|C]; [apply cookie_inj in C; tauto|reflexivity].
Qed.

(** ** File names *)
Lemma under_stops l : stops ("_"%char :: l).
Proof. vm_compute. auto. Qed.
Lemma name_inj dir sim t t' r r' : restart_name dir sim t r = restart_name dir sim t' r' ->
  rounded 6 t == rounded 6 t' /\ r = r'.
Proof.
  unfold restart_name. intros H. apply app_inv_head in H. apply app_inv_head in H. apply (app_inv_head (str "_time=")) in H.
  unfold print_g in H. rewrite !chars_text in H.
  assert (P6 : (1 <= 6)%nat) by lia.
  pose proof (scan_text (fmt_g 6 t) (str "_rank=" ++ show_Z r ++ str ".ers") (fmt_ok 6 t P6) (under_stops _)) as A.
  pose proof (scan_text (fmt_g 6 t') (str "_rank=" ++ show_Z r' ++ str ".ers") (fmt_ok 6 t' P6) (under_stops _)) as B.
  assert (C : scan (text (fmt_g 6 t) ++ str "_rank=" ++ show_Z r ++ str ".ers") = scan (text (fmt_g 6 t') ++ str "_rank=" ++ show_Z r' ++ str ".ers")) by (f_equal; exact H).
  rewrite A, B in C. pose proof (f_equal fst C) as A1. pose proof (f_equal snd C) as A2. cbn [fst snd] in A1, A2. apply (app_inv_head (str "_rank=")) in A2.
  split.
  - rewrite <- !(fmt_meaning 6) by auto. rewrite A1. reflexivity.
  - apply show_sep in A2; [|reflexivity|reflexivity]. destruct A2. auto.
Qed.

Lemma rounded_rel t : Qabs (rounded 6 t - t) * 200000 <= Qabs t.
Proof.
  destruct (Qeq_dec t 0) as [Z|NZ].
  - unfold rounded. assert (Qeq_bool t 0 = true) as -> by (apply Qeq_bool_iff; auto). rewrite Z. vm_compute. discriminate.
  - pose proof (rounded_close 6 t ltac:(lia) NZ) as C. destruct (flog_spec 10 (Qabs t) ten (abs_pos t NZ)) as [F _].
    assert (E : bpow 10 (flog 10 (Qabs t) - Z.of_nat 6 + 1) * 100000 == bpow 10 (flog 10 (Qabs t))).
    { change 100000 with (bpow 10 5). rewrite <- bpow_plus by auto. replace (flog 10 (Qabs t) - Z.of_nat 6 + 1 + 5)%Z with (flog 10 (Qabs t)) by lia. reflexivity. }
    lra.
Qed.
Lemma names_differ dir sim t t' r r' :
  Qabs t + Qabs t' < Qabs (t - t') * 200000 \/ r <> r' -> restart_name dir sim t r <> restart_name dir sim t' r'.
Proof.
  intros H E. apply name_inj in E. destruct E as [E1 E2]. destruct H as [H|H]; [|tauto].
  pose proof (rounded_rel t). pose proof (rounded_rel t').
  pose proof (Qabs_triangle (t - rounded 6 t) (rounded 6 t' - t')) as T.
  assert (Q : t - rounded 6 t + (rounded 6 t' - t') == t - t') by (rewrite E1; ring). rewrite Q in T.
  rewrite (Qabs_Qminus t (rounded 6 t)) in T. lra.
Qed.
