From Verif Require Import PvdModel PvdSpec FloatTextProofs.

Definition body (l : list dataset) : list ascii := header ++ concat (map (fun d => entry (fst d) (snd d)) l).

Lemma body_footer l : body l ++ footer = collection l.
Proof.
  unfold body, collection, unlines. rewrite !map_app, !concat_app.
  assert (E : concat (map (fun x => x ++ [nl]) (map (fun d : Q * list ascii => str "   <DataSet timestep=""" ++ print_g 16 (fst d) ++ str """ file=""" ++ snd d ++ str """/>") l))
            = concat (map (fun d => entry (fst d) (snd d)) l)).
  { rewrite map_map. f_equal. apply map_ext. intros d. unfold entry. rewrite !app_assoc. reflexivity. }
  rewrite E. rewrite <- app_assoc. reflexivity.
Qed.
Lemma body_snoc l d : body (l ++ [d]) = body l ++ entry (fst d) (snd d).
Proof. unfold body. rewrite map_app, concat_app. cbn [map concat]. rewrite app_nil_r, app_assoc. reflexivity. Qed.

Lemma entry_long t n : (length footer <= length (entry t n))%nat.
Proof. unfold entry. rewrite !app_length. cbn [length str list_ascii_of_string]. vm_compute (length footer). lia. Qed.

Lemma put_ok b tl t : put t (mkStream (b ++ tl) (length b)) = mkStream (b ++ t ++ skipn (length t) tl) (length (b ++ t)).
Proof.
  unfold put. cbn [f_pos f_data]. rewrite firstn_app, firstn_all, Nat.sub_diag. cbn [firstn]. rewrite app_nil_r.
  rewrite skipn_app. rewrite skipn_all2 by lia. cbn [app]. f_equal.
  - do 3 f_equal. lia.
  - rewrite app_length. reflexivity.
Qed.

Arguments header : simpl never.
Arguments footer : simpl never.
Arguments entry : simpl never.
Arguments body : simpl never.
Arguments put : simpl never.

(** The file holds the given data sets, with or without the closing tags, and the next one
    goes to the right place. *)
Definition holds (l : list dataset) (f : stream) : Prop :=
  f_pos f = length (body l) /\ (f_data f = body l \/ f_data f = body l ++ footer).
Definition complete (l : list dataset) (f : stream) : Prop :=
  f_pos f = length (body l) /\ f_data f = body l ++ footer.

Lemma complete_holds l f : complete l f -> holds l f.
Proof. intros (A & B). split; auto. Qed.
Lemma holds_new : holds [] (put header (mkStream [] 0)).
Proof. vm_compute. auto. Qed.
Lemma holds_entry l f d : holds l f -> holds (l ++ [d]) (put (entry (fst d) (snd d)) f).
Proof.
  intros (P & D). destruct f as [data pos]. cbn in *. subst pos. pose proof (entry_long (fst d) (snd d)) as L.
  destruct D as [-> | ->].
  - rewrite <- (app_nil_r (body l)) at 1. rewrite put_ok. rewrite skipn_nil, app_nil_r, <- body_snoc. split; cbn; auto.
  - rewrite put_ok. rewrite skipn_all2 by exact L. rewrite app_nil_r, <- body_snoc. split; cbn; auto.
Qed.
Lemma footer_put l f : holds l f -> f_data (put footer f) = body l ++ footer.
Proof.
  intros (P & D). destruct f as [data pos]. cbn in *. subst pos. destruct D as [-> | ->].
  - rewrite <- (app_nil_r (body l)) at 1. rewrite put_ok. rewrite skipn_nil, app_nil_r. reflexivity.
  - rewrite put_ok. rewrite skipn_all, app_nil_r. reflexivity.
Qed.

Lemma outputs_app name a : forall n b,
  outputs name n (a ++ b) = outputs name n a ++ outputs name (n + length (outputs name n a)) b.
Proof.
  induction a as [|[t [|]] a IH]; intros n b; cbn [outputs app].
  - cbn. rewrite Nat.add_0_r. auto.
  - apply IH.
  - rewrite IH. cbn [app length]. rewrite Nat.add_succ_r. reflexivity.
Qed.

Section W.
  Context (sim : list ascii) (dune : list ascii -> list ascii).
  Definition nm (n : nat) : list ascii := dune (file_name sim n).
  Local Notation outs := (outputs nm 0).

  (** ** Synchronous output *)
  Definition good (l : list dataset) (w : writer) : Prop :=
    w_queue w = 0%nat /\ w_num w = length l /\
    match w_file w with Some f => holds l f | None => l = [] end.

  Lemma sync_write l w t d : good l w ->
    let w' := acts true false sim dune (write_script (t, d)) w in
    let l' := if d then l else l ++ [(t, nm (length l))] in
    good l' w' /\ exists f, w_file w' = Some f /\ complete l' f.
  Proof.
    intros (Q & N & F). cbn [write_script fst snd acts fold_left act waits].
    set (f0 := match w_file w with Some f => Some f | None => Some (put header (mkStream [] 0)) end).
    assert (X : exists f, f0 = Some f /\ holds l f).
    { unfold f0. destruct (w_file w) as [f|]; eauto. subst l. eexists. split; [reflexivity|]. apply holds_new. }
    clearbody f0. destruct X as (f & -> & H).
    assert (C : forall l' f' n t' nm', holds l' f' -> n = length l' ->
       let w' := on_file (fun f => mkStream (f_data f) (f_pos f')) (on_file (put footer) (mkWriter (Some f') n t' nm' (w_queue w) (f_pos f') (w_closed w))) in
       good l' w' /\ exists f, w_file w' = Some f /\ complete l' f).
    { intros l' f' n t' nm' H' Hn. cbn [on_file option_map with_file w_file w_num w_queue w_reg w_time w_name w_closed f_data f_pos].
      assert (E : complete l' (mkStream (f_data (put footer f')) (f_pos f'))).
      { split; cbn; [apply H'|apply footer_put; auto]. }
      split; [|eauto]. split; [|split]; cbn; auto. apply complete_holds. auto. }
    destruct d.
    - apply C; auto. 
    - cbn [task on_file option_map with_file w_file w_num w_queue w_reg w_time w_name w_closed].
      apply C; [|rewrite app_length; cbn; lia]. rewrite N. apply (holds_entry l f (t, nm (length l)) H).
  Qed.

  Lemma acts_app r a x y w : acts r a sim dune (x ++ y) w = acts r a sim dune y (acts r a sim dune x w).
  Proof. unfold acts. apply fold_left_app. Qed.

  Lemma sync_writes ws : forall l w, good l w ->
    let w' := acts true false sim dune (script ws) w in
    let l' := l ++ outputs nm (length l) ws in
    good l' w' /\ (ws <> [] -> exists f, w_file w' = Some f /\ complete l' f).
  Proof.
    induction ws as [|[t d] ws IH]; intros l w G.
    - cbn. rewrite app_nil_r. split; auto. congruence.
    - unfold script. cbn [flat_map]. rewrite acts_app. destruct (sync_write l w t d G) as (G' & C').
      destruct (IH _ _ G') as (G2 & C2). fold (script ws).
      set (w' := acts true false sim dune (write_script (t, d)) w) in *.
      assert (E : (if d then l else l ++ [(t, nm (length l))]) ++ outputs nm (length (if d then l else l ++ [(t, nm (length l))])) ws
               = l ++ outputs nm (length l) ((t, d) :: ws)).
      { destruct d; cbn [outputs]; auto. rewrite <- app_assoc, app_length. cbn [length app]. rewrite Nat.add_1_r. reflexivity. }
      rewrite E in *. split; auto. intros _. destruct ws as [|x ws].
      + destruct C' as (f & A & B). exists f. split; auto. cbn [outputs] in E. rewrite app_nil_r in E. rewrite E in B. auto.
      + apply C2. discriminate.
  Qed.

  Lemma good_new : good [] new_writer.
  Proof. repeat split. Qed.

  Lemma sync_destructor l w : good l w ->
    let w' := acts true false sim dune destructor_script w in
    match w_file w with
    | Some _ => exists f, w_file w' = Some f /\ complete l f
    | None => w_file w' = None
    end.
  Proof.
    intros (Q & N & F). cbn [destructor_script acts fold_left act on_file with_file w_file w_reg w_num w_time w_name w_queue w_closed].
    destruct (w_file w) as [f|]; cbn [option_map]; auto. eexists. split; [reflexivity|]. split; cbn; [apply F|apply footer_put; auto].
  Qed.

  Lemma good_restart l w : good l w -> good l (restart_writer w).
  Proof.
    intros (Q & N & F). split; [reflexivity|]. split; [exact N|]. cbn [restart_writer w_file].
    destruct (w_file w) as [[dt ps]|]; auto. cbn [f_data f_pos]. destruct (length dt =? 0)%nat eqn:E; auto.
    apply Nat.eqb_eq in E. destruct dt; [|discriminate]. exfalso. destruct F as (_ & [D|D]); cbn in D; discriminate D.
  Qed.

  (** ** Other ranks *)
  Lemma rank_other a l : forall w, w_file w = None -> w_file (acts false a sim dune l w) = None.
  Proof.
    induction l as [|x l IH]; intros w H; cbn; auto. apply IH. destruct x; cbn; unfold task, on_file, with_file; cbn; rewrite ?H; auto.
    destruct a; cbn; rewrite ?H; auto.
  Qed.

  (** ** Asynchronous output, without overlap *)
  Variable ws : list (Q * bool).

  (** What has been written, what is pending, after the writes [done]. *)
  Definition pend (w : writer) : list dataset :=
    match w_queue w with O => [] | _ => [(w_time w, dune (w_name w))] end.
  Definition part (done : list (Q * bool)) (w : writer) (P : list dataset -> stream -> Prop) : Prop :=
    (w_queue w <= 1)%nat /\ w_num w = length (outs done) /\
    exists l, outs done = l ++ pend w /\
      match w_file w with Some f => P l f | None => done = [] end.

  Inductive at_ : list action -> writer -> Prop :=
  | at_idle done rest w : ws = done ++ rest -> part done w holds ->
      at_ (script rest ++ destructor_script) w
  | at_begun done t d rest w : ws = done ++ (t, d) :: rest ->
      w_queue w = 0%nat -> w_num w = S (length (outs done)) -> w_time w = t -> w_name w = file_name sim (length (outs done)) ->
      (exists f, w_file w = Some f /\ holds (outs done) f) ->
      at_ ((if d then ADiscard else ADispatch) :: [ATell; AFooter; ASeek] ++ script rest ++ destructor_script) w
  | at_tell done rest tail w : ws = done ++ rest -> part done w holds ->
      (tail = script rest ++ destructor_script \/ rest = [] /\ tail = [AClose] /\ w_queue w = 0%nat) ->
      at_ ([ATell; AFooter; ASeek] ++ tail) w
  | at_footer done rest tail w : ws = done ++ rest -> part done w (fun l f => holds l f /\ w_reg w = length (body l)) ->
      (tail = script rest ++ destructor_script \/ rest = [] /\ tail = [AClose] /\ w_queue w = 0%nat) ->
      at_ ([AFooter; ASeek] ++ tail) w
  | at_seek done rest tail w : ws = done ++ rest ->
      part done w (fun l f => f_data f = body l ++ footer /\ w_reg w = length (body l)) ->
      (tail = script rest ++ destructor_script \/ rest = [] /\ tail = [AClose] /\ w_queue w = 0%nat) ->
      at_ ([ASeek] ++ tail) w
  | at_close w : w_queue w = 0%nat ->
      match w_file w with Some f => complete (outs ws) f | None => ws = [] end -> at_ [AClose] w
  | at_end w : w_queue w = 0%nat ->
      match w_file w with Some f => complete (outs ws) f | None => ws = [] end -> at_ [] w.

  Lemma part_impl done w (P Q : list dataset -> stream -> Prop) : (forall l f, P l f -> Q l f) -> part done w P -> part done w Q.
  Proof. intros H (A & B & l & C & D). split; auto. split; auto. exists l. split; auto. destruct (w_file w); auto. Qed.

  (** A write task keeps things in order. *)
  Lemma part_task done w : (0 < w_queue w)%nat -> part done w holds -> part done (run_task dune w) holds.
  Proof.
    intros Hq (A & B & l & C & D). assert (E : w_queue w = 1%nat) by lia.
    unfold pend in C. rewrite E in C.
    assert (F : exists f, w_file w = Some f).
    { destruct (w_file w) as [f|]; eauto. subst done. destruct l; discriminate C. }
    destruct F as (f & F). rewrite F in D.
    split; [|split].
    - cbn. rewrite E. auto.
    - cbn. auto.
    - exists (outs done). unfold pend. cbn [run_task task on_file with_file option_map w_queue w_file]. rewrite E, F. cbn [Nat.pred option_map].
      split; [rewrite app_nil_r; auto|]. rewrite C. apply (holds_entry l f (w_time w, dune (w_name w)) D).
  Qed.

  Lemma at_step l w l' w' : at_ l w -> step true true sim dune (l, w) (l', w') -> (l' = l -> closing l = false) -> at_ l' w'.
  Proof.
    intros H S Q. inversion S as [a lr w0 Hw E1 E2|l0 w0 Hq E1 E2]; subst.
    - (* main *)
      clear Q S. remember (a :: l') as L eqn:E.
      destruct H as
        [done rest w W P|done t d rest w W Hq Hn Ht Hnm Hf|done rest tail w W P HT|done rest tail w W P HT
        |done rest tail w W P HT|w Hq Hf|w Hq Hf]; [| | | | | |discriminate E].
      + destruct rest as [|[t d] rest]; cbn [script flat_map app write_script destructor_script fst snd] in E.
        * injection E as <- <-. cbn [act]. specialize (Hw eq_refl).
          apply (at_tell done [] [AClose]); auto.
        * injection E as <- <-. specialize (Hw eq_refl). destruct P as (Pq & Pn & l & Pl & Pf).
          unfold pend in Pl. rewrite Hw, app_nil_r in Pl. subst l.
          apply (at_begun done t d rest); auto; cbn [act w_queue w_num w_time w_name w_file]; auto.
          destruct (w_file w) as [f|]; [eauto|]. subst done. eexists. split; [reflexivity|]. apply holds_new.
      + injection E as <- <-. destruct Hf as (f & Ff & Hf).
        apply (at_tell (done ++ [(t, d)]) rest); auto; [rewrite <- app_assoc; auto|].
        destruct d; cbn [act].
        * split; cbn; [lia|]. split; [rewrite Hn; cbn; rewrite outputs_app; cbn; rewrite app_nil_r; auto|].
          exists (outs done). unfold pend. cbn [w_queue w_file]. rewrite Hq, Ff. rewrite outputs_app. cbn. auto.
        * split; cbn; [lia|]. split; [rewrite Hn, outputs_app, app_length; cbn; lia|].
          exists (outs done). unfold pend. cbn [w_queue w_file w_time w_name]. rewrite Ff. rewrite outputs_app. cbn [outputs Nat.add].
          rewrite Ht, Hnm. auto.
      + injection E as <- <-. apply (at_footer done rest tail); auto.
        destruct P as (Pq & Pn & l & Pl & Pf). split; [exact Pq|]. split; [exact Pn|]. exists l. split; [exact Pl|]. cbn [act w_file w_reg].
        destruct (w_file w); auto. split; auto. apply Pf.
      + injection E as <- <-. apply (at_seek done rest tail); auto.
        destruct P as (Pq & Pn & l & Pl & Pf). split; [exact Pq|]. split; [exact Pn|]. exists l. split; [exact Pl|].
        cbn [act w_file w_reg on_file with_file]. destruct (w_file w) as [f|]; cbn [option_map]; auto. destruct Pf as (Pf & Pr).
        split; auto. apply footer_put. auto.
      + injection E as <- <-.
        destruct P as (Pq & Pn & l & Pl & Pf).
        assert (C : match w_file (act true true sim dune ASeek w) with Some f => complete l f | None => done = [] end).
        { cbn [act on_file with_file w_file]. destruct (w_file w) as [f|]; cbn [option_map]; auto. destruct Pf. split; auto. }
        destruct HT as [->|(-> & -> & Hq)].
        * apply (at_idle done rest); auto. split; [exact Pq|]. split; [exact Pn|]. exists l. split; [exact Pl|].
          destruct (w_file (act true true sim dune ASeek w)); auto. apply complete_holds. auto.
        * apply at_close; [exact Hq|]. unfold pend in Pl. rewrite Hq, app_nil_r in Pl. rewrite app_nil_r in *. subst ws l. exact C.
      + injection E as <- <-. apply at_end; auto.
    - (* task *)
      specialize (Q eq_refl). clear S. destruct H as
        [done rest w W P|done t d rest w W Hq' Hn Ht Hnm Hf|done rest tail w W P HT|done rest tail w W P HT
        |done rest tail w W P HT|w Hq' Hf|w Hq' Hf]; try discriminate Q; try lia.
      + apply (at_idle done rest); auto. apply part_task; auto.
      + apply (at_tell done rest tail); auto. apply part_task; auto. destruct HT as [?|(_ & _ & ?)]; [left; auto|lia].
  Qed.

  Lemma at_steps x : quiet_steps true true sim dune (script ws ++ destructor_script, new_writer) x -> at_ (fst x) (snd x).
  Proof.
    intros H. remember (script ws ++ destructor_script, new_writer) as x0 eqn:E0. induction H as [x|x l w z H IH S Q]; subst.
    - cbn [fst snd]. apply (at_idle [] ws); auto. split; cbn; auto. split; auto. exists []. auto.
    - specialize (IH eq_refl). destruct z as [l' w']. cbn [fst snd] in *. eapply at_step; eauto.
  Qed.
End W.

(** File names. *)
Lemma nat_of_zeros k l : nat_of_digits (repeat (ascii_of_nat 48) k ++ l) = nat_of_digits l.
Proof.
  unfold nat_of_digits. rewrite fold_left_app. f_equal. induction k; cbn; auto.
Qed.
Lemma file_name_inj sim n m : file_name sim n = file_name sim m -> n = m.
Proof.
  unfold file_name. intros H. apply app_inv_head, (app_inv_head (str "-")) in H. apply (f_equal nat_of_digits) in H.
  rewrite !nat_of_zeros in H. rewrite (proj1 (proj2 (show_nat_ok (Z.of_nat n) ltac:(lia)))), (proj1 (proj2 (show_nat_ok (Z.of_nat m) ltac:(lia)))) in H. lia.
Qed.
Lemma outputs_names name ws : forall n d, In d (outputs name n ws) -> exists k, (n <= k)%nat /\ snd d = name k.
Proof.
  induction ws as [|[t [|]] ws IH]; intros n d H; cbn in H; [tauto|eauto|]. destruct H as [<-|H].
  - exists n. auto.
  - destruct (IH _ _ H) as (k & A & B). exists k. split; auto. lia.
Qed.
Lemma outputs_nodup name ws : (forall a b, name a = name b -> a = b) -> forall n, NoDup (map snd (outputs name n ws)).
Proof.
  intros I. induction ws as [|[t [|]] ws IH]; intros n; cbn; [constructor|auto|]. constructor; auto.
  intros H. apply in_map_iff in H. destruct H as (d & E & H). apply outputs_names in H. destruct H as (k & A & B).
  rewrite B in E. apply I in E. lia.
Qed.
