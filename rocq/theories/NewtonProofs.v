From Verif Require Import NewtonModel NewtonSpec.
From Coq Require Import Qround.
(** *** The error *)
Lemma nmax_ge_l a b : a <> NaN -> b <> NaN -> nleb a (nmax a b) = true.
Proof.
  intros Ha Hb. unfold nmax. destruct a as [| | |x], b as [| | |y]; cbn; try congruence; auto; try (apply Qle_bool_iff; lra).
  destruct (Qltb x y) eqn:E; cbn; apply Qle_bool_iff; [apply Qltb_lt in E|]; lra.
Qed.
Lemma nmax_ge_r a b : a <> NaN -> b <> NaN -> nleb b (nmax a b) = true.
Proof.
  intros Ha Hb. unfold nmax. destruct a as [| | |x], b as [| | |y]; cbn; try congruence; auto; try (apply Qle_bool_iff; lra).
  destruct (Qltb x y) eqn:E; cbn; apply Qle_bool_iff; [|apply Qltb_ge in E]; lra.
Qed.
Arguments nmax : simpl never.
Arguments nltb : simpl never.
Arguments nleb : simpl never.
Arguments proceed : simpl never.
Arguments global_error : simpl never.
Arguments update_rows : simpl never.

Lemma nmax_either a b : nmax a b = a \/ nmax a b = b.
Proof. unfold nmax. destruct (nltb a b); auto. Qed.
Lemma nmax_not_nan a b : a <> NaN -> nmax a b <> NaN.
Proof.
  unfold nmax. destruct (nltb a b) eqn:E; auto. intros _ ->. rewrite nltb_nan_r in E. discriminate.
Qed.
Lemma nmax_le a b t : nleb a t = true -> nleb b t = true -> nleb (nmax a b) t = true.
Proof. destruct (nmax_either a b) as [-> | ->]; auto. Qed.
Lemma nleb_not_nan a b : nleb a b = true -> a <> NaN.
Proof. intros H ->. destruct b; discriminate. Qed.

Definition fmax := fun e x : num => nmax x e.

Lemma fold_max_le l : forall e t, ~ In NaN l -> e <> NaN ->
  (nleb (fold_left fmax l e) t = true <-> nleb e t = true /\ Forall (fun x => nleb x t = true) l).
Proof.
  induction l as [|x l IH]; intros e t Hn He.
  - cbn. split; [intros H; split; [auto|constructor]|tauto].
  - assert (Hx : x <> NaN) by (intro; apply Hn; left; auto).
    assert (Hl : ~ In NaN l) by (intro; apply Hn; right; auto).
    cbn [fold_left]. unfold fmax at 2. rewrite (IH (nmax x e) t Hl (nmax_not_nan x e Hx)). split.
    + intros [H F]. split; [|constructor; auto].
      * apply (nleb_trans _ (nmax x e)); auto. apply nmax_ge_r; auto.
      * apply (nleb_trans _ (nmax x e)); auto. apply nmax_ge_l; auto.
    + intros [H F]. inversion F as [|? ? F1 F2]; subst. split; auto. apply nmax_le; auto.
Qed.

Lemma fold_max_nan_start l : fold_left fmax l NaN = match l with [] => NaN | x :: l' => fold_left fmax l' x end.
Proof. destruct l as [|x l]; auto. cbn [fold_left]. unfold fmax at 2. rewrite nmax_nan_r. reflexivity. Qed.

Lemma existsb_nan l : existsb is_nan l = true <-> In NaN l.
Proof.
  rewrite existsb_exists. split.
  - intros (x & Hi & H). destruct x; try discriminate. auto.
  - intros H. exists NaN. auto.
Qed.

Lemma behind_split l : In NaN l -> exists a, l = a ++ NaN :: behind_nan l /\ ~ In NaN (behind_nan l).
Proof.
  induction l as [|x l IH]; [intros []|]. intros H. cbn. destruct (existsb is_nan l) eqn:E.
  - apply existsb_nan in E. destruct (IH E) as (a & E1 & N). exists (x :: a). cbn. rewrite <- E1. auto.
  - assert (N : ~ In NaN l) by (intro C; apply existsb_nan in C; congruence).
    destruct H as [-> |H]; [|contradiction]. cbn. exists []. auto.
Qed.

Lemma fold_max_nan l : forall e, In NaN l ->
  fold_left fmax l e = match behind_nan l with [] => NaN | x :: l' => fold_left fmax l' x end.
Proof.
  intros e H. destruct (behind_split l H) as (a & E & _).
  rewrite E at 1. rewrite fold_left_app. cbn [fold_left]. unfold fmax at 2. rewrite nmax_nan_l.
  apply fold_max_nan_start.
Qed.

Lemma behind_no_nan l : ~ In NaN l -> behind_nan l = l.
Proof.
  destruct l as [|x l]; auto. intros N. cbn. 
  destruct (existsb is_nan l) eqn:E. { apply existsb_nan in E. exfalso. apply N. right; auto. }
  destruct x; auto. exfalso. apply N. left; auto.
Qed.


Lemma nan_dec (l : vec) : In NaN l \/ ~ In NaN l.
Proof.
  destruct (existsb is_nan l) eqn:E; [left|right].
  - apply existsb_nan; auto.
  - intro C. apply existsb_nan in C. congruence.
Qed.

Lemma accepted_iff rows tol : nleb (Fin 0) tol = true ->
  (nleb (local_error rows) tol = true <->
   Forall (fun x => nleb x tol = true) (behind_nan (entries rows)) /\
   (In NaN (entries rows) -> behind_nan (entries rows) <> [])).
Proof.
  intros H0. unfold local_error. change (fun e x : num => nmax x e) with fmax.
  destruct (nan_dec (entries rows)) as [Hin|Hn].
  - rewrite (fold_max_nan _ (Fin 0) Hin). destruct (behind_split _ Hin) as (a & _ & N).
    destruct (behind_nan (entries rows)) as [|x l].
    + split; [intros H; destruct tol; discriminate|]. intros [_ C]. exfalso. apply C; auto.
    + assert (Hx : x <> NaN) by (intro; apply N; left; auto).
      assert (Hl : ~ In NaN l) by (intro; apply N; right; auto).
      rewrite (fold_max_le l x tol Hl Hx). split.
      * intros [A B]. split; [constructor; auto|discriminate].
      * intros [A _]. inversion A as [|? ? A1 A2]; subst. auto.
  - rewrite (behind_no_nan _ Hn), (fold_max_le _ (Fin 0) tol Hn); [|discriminate]. tauto.
Qed.

Lemma in_entries rows w r e : In w rows -> w_grid w = true -> w_pos w = true -> w_constraint w = None ->
  In (r, e) (combine (w_res w) (w_weight w)) -> In (nabs (nmul r e)) (entries rows).
Proof.
  intros Hw Hg Hp Hc Hre. unfold entries. apply in_concat. exists (weighted w). split.
  - apply in_map. apply filter_In. split; auto. unfold considered. rewrite Hg, Hp, Hc. reflexivity.
  - unfold weighted. apply in_map_iff. exists (r, e). auto.
Qed.

Lemma global_le rows others tol : ~ In NaN (entries rows) -> ~ In NaN others ->
  nleb (global_error rows others) tol = true ->
  small_residual tol rows /\ Forall (fun e => nleb e tol = true) others.
Proof.
  intros Hn Ho H. unfold global_error in H. change (fun e x : num => nmax x e) with fmax in H.
  assert (HL : local_error rows <> NaN).
  { unfold local_error. change (fun e x : num => nmax x e) with fmax.
    assert (G : forall l e, ~ In NaN l -> e <> NaN -> fold_left fmax l e <> NaN).
    { induction l as [|x l IH]; auto. intros e Nl Ne. cbn. apply IH. intro; apply Nl; right; auto.
      apply nmax_not_nan. intro; apply Nl; left; auto. }
    apply G; auto. discriminate. }
  apply (fold_max_le others _ tol Ho HL) in H. destruct H as [H F]. split; auto.
  unfold local_error in H. change (fun e x : num => nmax x e) with fmax in H.
  apply (fold_max_le _ (Fin 0) tol Hn) in H; [|discriminate]. destruct H as [_ G].
  intros w r e H1 H2 H3 H4 H5. rewrite Forall_forall in G. apply G. eapply in_entries; eauto.
Qed.

(** *** The loop *)
Record Inv (c : config) (ev : env) (sol : solution) (s : nst) : Prop := mkInv {
  v_faithful : faithful ev (n_hist s);
  v_conn : connected ev sol (n_hist s);
  v_sol : n_sol s = after ev sol (n_hist s);
  v_err : forall it rest e, n_hist s = it :: rest -> i_error it = Some e -> n_err s = e;
  v_prev : Forall (fun i => i_stage i = Updated) (tl (n_hist s));
  v_run : n_status s = Running ->
      n_iter s = Z.of_nat (length (n_hist s)) /\
      match n_hist s with
      | [] => True
      | it :: rest => i_stage it = Updated /\ i_error it <> None /\
                      (rest = [] \/ exists e, i_error it = Some e /\ nleb e (c_tol c) = false)
      end;
  v_left : n_status s = LeftLoop ->
      exists it rest e, n_hist s = it :: rest /\ i_stage it = Broke /\ i_error it = Some e;
  v_true : n_status s = Finished true ->
      exists it rest e, n_hist s = it :: rest /\ i_error it = Some e /\ nleb e (c_tol c) = true /\
        (i_stage it = Broke \/ (i_stage it = Updated /\ rest = []));
  v_false : n_status s = Finished false ->
      n_iter s = (2 * c_target c)%Z /\
      exists it rest, n_hist s = it :: rest /\
        (i_stage it = Failed \/ p_end (ev (i_start it) rest) = false \/
         exists e, i_error it = Some e /\ nleb e (c_tol c) = false)
}.

Lemma Inv_start c ev sol err last : Inv c ev sol (mkNst sol err last 0 [] Running).
Proof. constructor; cbn; auto; try discriminate. Qed.

(** A failing iteration, logged as such. *)
Lemma Inv_fail c ev sol s e (oe : option num) :
  Inv c ev sol s -> n_status s = Running ->
  (oe = None \/ (oe = Some e /\ exists rows others, p_lin (ev (n_sol s) (n_hist s)) = LinOk rows others /\ e = global_error rows others)) ->
  forall last x,
  Inv c ev sol (throw c x (log_iter (n_sol s) oe Failed (mkNst (n_sol s) e last (n_iter s) (n_hist s) Running))).
Proof.
  intros I Hr Ho last x. destruct I as [If Ic Is Ie Ip Iu _ _ _].
  assert (A : Forall (fun i => i_stage i = Updated) (n_hist s)).
  { destruct (Iu Hr) as [_ H]. destruct (n_hist s) as [|it rest]; [constructor|]. constructor; [tauto|auto]. }
  assert (F : faithful ev (mkIter (n_sol s) oe Failed :: n_hist s)).
  { cbn. split; auto. intros e' He. destruct Ho as [-> | [-> Hx]]; [discriminate|]. inversion He; subst. auto. }
  assert (K : connected ev sol (mkIter (n_sol s) oe Failed :: n_hist s)) by (cbn; auto).
  assert (Z : n_sol s = after ev sol (mkIter (n_sol s) oe Failed :: n_hist s)) by (cbn; auto).
  destruct x; constructor; cbn [throw fail log_iter n_hist n_sol n_err n_status n_iter tl] in *; auto; try discriminate.
  - intros it rest e' E1 E2. inversion E1; subst. cbn in E2. destruct Ho as [Ho|[Ho _]]; congruence.
  - intros _. split; [lia|]. eexists _, _. split; [reflexivity|]. left. reflexivity.
  - intros it rest e' E1 E2. inversion E1; subst. cbn in E2. destruct Ho as [Ho|[Ho _]]; congruence.
Qed.

Lemma Inv_broke c ev sol s rows others last :
  Inv c ev sol s -> n_status s = Running ->
  p_lin (ev (n_sol s) (n_hist s)) = LinOk rows others ->
  Inv c ev sol (end_iteration c (p_end (ev (n_sol s) (n_hist s))) LeftLoop
     (log_iter (n_sol s) (Some (global_error rows others)) Broke
        (mkNst (n_sol s) (global_error rows others) last (n_iter s) (n_hist s) Running))).
Proof.
  intros I Hr Hl. destruct I as [If Ic Is Ie Ip Iu _ _ _].
  assert (A : Forall (fun i => i_stage i = Updated) (n_hist s)).
  { destruct (Iu Hr) as [_ H]. destruct (n_hist s) as [|it rest]; [constructor|]. constructor; [tauto|auto]. }
  unfold end_iteration. destruct (p_end (ev (n_sol s) (n_hist s))) eqn:Ee;
  constructor; cbn [fail log_iter n_hist n_sol n_err n_status n_iter tl]; auto; try discriminate.
  - cbn. split; auto. intros e H. inversion H; subst. eauto.
  - cbn. auto.
  - intros it rest e' E1 E2. inversion E1; subst. cbn in E2. congruence.
  - intros _. eexists _, _, _. repeat split; reflexivity.
  - cbn. split; auto. intros e H. inversion H; subst. eauto.
  - cbn. auto.
  - intros it rest e' E1 E2. inversion E1; subst. cbn in E2. congruence.
  - intros _. split; [lia|]. eexists _, _. split; [reflexivity|]. cbn. auto.
Qed.

Lemma Inv_updated c ev sol s rows others last u :
  Inv c ev sol s -> n_status s = Running ->
  p_lin (ev (n_sol s) (n_hist s)) = LinOk rows others ->
  p_post (ev (n_sol s) (n_hist s)) = Some u ->
  (n_hist s = [] \/ nleb (global_error rows others) (c_tol c) = false) ->
  Inv c ev sol (end_iteration c (p_end (ev (n_sol s) (n_hist s))) Running
     (log_iter (n_sol s) (Some (global_error rows others)) Updated
        (mkNst (update_rows rows (n_sol s) u) (global_error rows others) last (n_iter s) (n_hist s) Running))).
Proof.
  intros I Hr Hl Hp Hc. destruct I as [If Ic Is Ie Ip Iu _ _ _].
  destruct (Iu Hr) as [Hn Hh].
  assert (A : Forall (fun i => i_stage i = Updated) (n_hist s)).
  { destruct (n_hist s) as [|it rest]; [constructor|]. constructor; [tauto|auto]. }
  assert (Z : update_rows rows (n_sol s) u =
     after ev sol (mkIter (n_sol s) (Some (global_error rows others)) Updated :: n_hist s)).
  { cbn. rewrite <- Is, Hl, Hp. reflexivity. }
  unfold end_iteration. destruct (p_end (ev (n_sol s) (n_hist s))) eqn:Ee;
  constructor; cbn [fail log_iter n_hist n_sol n_err n_status n_iter tl]; auto; try discriminate.
  - cbn. split; auto. intros e H. inversion H; subst. eauto.
  - cbn. auto.
  - intros it rest e' E1 E2. inversion E1; subst. cbn in E2. congruence.
  - intros _. split; [cbn [length]; lia|]. cbn. repeat split; try discriminate. destruct Hc as [Hc|Hc]; eauto.
  - cbn. split; auto. intros e H. inversion H; subst. eauto.
  - cbn. auto.
  - intros it rest e' E1 E2. inversion E1; subst. cbn in E2. congruence.
  - intros _. split; [lia|]. eexists _, _. split; [reflexivity|]. cbn. auto.
Qed.

Lemma Inv_body c ev sol s : Inv c ev sol s -> n_status s = Running -> Inv c ev sol (body c ev s).
Proof.
  intros I Hr. unfold body. 
  assert (Eta : s = mkNst (n_sol s) (n_err s) (n_last s) (n_iter s) (n_hist s) Running) by (destruct s; cbn in *; congruence).
  destruct (p_begin (ev (n_sol s) (n_hist s))).
  2: { change (fail c) with (throw c Caught). rewrite Eta at 2. apply Inv_fail; auto. }
  destruct (p_lin (ev (n_sol s) (n_hist s))) as [x|rows others] eqn:El.
  { rewrite Eta at 2. apply Inv_fail; auto. }
  assert (Fl : forall x, Inv c ev sol (throw c x (log_iter (n_sol s) (Some (global_error rows others)) Failed
      (mkNst (n_sol s) (global_error rows others) (n_err s) (n_iter s) (n_hist s) Running)))).
  { intros x. apply Inv_fail; auto. right. split; auto. eauto. }
  unfold after_error. cbn [n_err n_sol n_iter n_last].
  destruct (nltb (c_maxError c) (global_error rows others)). { apply (Fl Caught). }
  destruct (proceed c (n_iter s) (global_error rows others) (n_err s)) eqn:Ep.
  2: { apply Inv_broke; auto. }
  unfold solve_and_update. cbn [n_err n_sol n_iter n_last n_hist].
  destruct (p_solve (ev (n_sol s) (n_hist s))) as [x| |u0]; [apply Fl|apply (Fl Caught)|].
  destruct (p_post (ev (n_sol s) (n_hist s))) as [u|] eqn:Eu; [|apply (Fl Caught)].
  destruct (is_fin (one_norm u)); [|apply (Fl Caught)].
  apply Inv_updated; auto.
  destruct (n_hist s) as [|it rest] eqn:Eh; [left; auto|right].
  unfold proceed in Ep. destruct (v_run _ _ _ _ I Hr) as [Hn _]. rewrite Eh in Hn. cbn [length] in Hn.
  destruct (n_iter s <? 1)%Z eqn:E1; [apply Z.ltb_lt in E1; lia|].
  unfold converged in Ep. destruct (nleb (global_error rows others) (c_tol c)); congruence.
Qed.

Lemma Inv_conclude c ev sol s : Inv c ev sol s ->
  (n_status s = LeftLoop \/ (n_status s = Running /\ proceed c (n_iter s) (n_err s) (n_last s) = false)) ->
  Inv c ev sol (conclude c s).
Proof.
  intros I Hs. 
  assert (Hh : exists it rest e, n_hist s = it :: rest /\ i_error it = Some e /\
     (i_stage it = Broke \/ (i_stage it = Updated /\ (rest = [] \/ nleb e (c_tol c) = false)))).
  { destruct Hs as [Hs|[Hs Hp]].
    - destruct (v_left _ _ _ _ I Hs) as (it & rest & e & E1 & E2 & E3). exists it, rest, e. auto.
    - destruct (v_run _ _ _ _ I Hs) as [Hn H]. destruct (n_hist s) as [|it rest].
      + unfold proceed in Hp. rewrite Hn in Hp. discriminate.
      + destruct H as (H1 & H2 & H3). destruct (i_error it) as [e|] eqn:Ei; [|congruence].
        exists it, rest, e. repeat split; auto. right. split; auto. destruct H3 as [H3|(e' & H3 & H4)]; auto.
        inversion H3; subst; auto. }
  destruct Hh as (it & rest & e & E1 & E2 & E3).
  pose proof (v_err _ _ _ _ I it rest e E1 E2) as Ee.
  destruct I as [If Ic Is Ie Ip Iu _ _ _].
  unfold conclude, converged. destruct (nleb (n_err s) (c_tol c)) eqn:En;
  constructor; cbn [fail n_hist n_sol n_err n_status n_iter]; auto; try discriminate.
  - intros _. exists it, rest, e. repeat split; auto. congruence.
    destruct E3 as [E3|[E3 [E4|E4]]]; auto. congruence.
  - intros _. split; [lia|]. exists it, rest. split; auto. right; right. exists e. split; congruence.
Qed.

Lemma Inv_round c ev sol s : Inv c ev sol s -> Inv c ev sol (round c ev s).
Proof.
  intros I. unfold round. destruct (n_status s) eqn:Es; auto.
  - destruct (proceed c (n_iter s) (n_err s) (n_last s)) eqn:Ep.
    + apply Inv_body; auto.
    + apply Inv_conclude; auto.
  - apply Inv_conclude; auto.
Qed.

Lemma Inv_rounds c ev sol n : forall s, Inv c ev sol s -> Inv c ev sol (rounds c ev n s).
Proof. induction n as [|n IH]; intros s I; cbn; auto. apply IH, Inv_round, I. Qed.

Lemma Inv_apply c ev n sol err last : Inv c ev sol (apply c ev n sol err last).
Proof. apply Inv_rounds, Inv_start. Qed.

(** *** Termination *)
Definition pow4 (n : nat) : Q := inject_Z (4 ^ Z.of_nat n).
Lemma pow4_S n : pow4 (S n) == 4 * pow4 n.
Proof.
  unfold pow4. rewrite Nat2Z.inj_succ, Z.pow_succ_r by lia. rewrite inject_Z_mult. reflexivity.
Qed.
Lemma pow4_pos n : 0 < pow4 n.
Proof. unfold pow4. change 0 with (inject_Z 0). rewrite <- Zlt_Qlt. apply Z.pow_pos_nonneg; lia. Qed.
Lemma pow4_ge n : inject_Z (Z.of_nat n) <= pow4 n.
Proof.
  unfold pow4. rewrite <- Zle_Qle. induction n as [|n IH]; [cbn; lia|].
  rewrite Nat2Z.inj_succ, Z.pow_succ_r by lia. lia.
Qed.

Section Bound.
  Variables (c : config) (ev : env) (tol M : Q).
  Hypothesis Htol : c_tol c = Fin tol.
  Hypothesis Hpos : 0 < tol.
  Hypothesis HM : c_maxError c = Fin M.
  Definition mm : nat := Z.to_nat (Z.max 2 (c_max c)).

  Definition bounded (k : nat) : Prop := (mm < k)%nat -> pow4 (k - mm) * tol < M.

  (** Bound for a state from which the loop may go on. *)
  Definition Pot (s : nst) : Prop :=
    n_iter s = Z.of_nat (length (n_hist s)) /\
    (n_hist s <> [] -> nltb (Fin M) (n_err s) = false) /\
    (forall x, (mm <= length (n_hist s))%nat -> n_last s = Fin x -> pow4 (length (n_hist s) - mm) * x <= M) /\
    ((mm <= length (n_hist s))%nat -> n_last s <> PInf) /\
    bounded (length (n_hist s)).

  Lemma step_bound s : Pot s -> proceed c (n_iter s) (n_err s) (n_last s) = true -> bounded (S (length (n_hist s))) /\
    ((mm <= length (n_hist s))%nat -> exists x y, n_last s = Fin x /\ n_err s = Fin y /\ 4 * y < x /\ tol < y).
  Proof.
    intros (Hn & He & Hl & Hi & Hb) Hp.
    assert (G : (mm <= length (n_hist s))%nat -> exists x y, n_last s = Fin x /\ n_err s = Fin y /\ 4 * y < x /\ tol < y).
    { intros Hk. unfold proceed in Hp. unfold mm in Hk.
      destruct (n_iter s <? 1)%Z eqn:E1; [apply Z.ltb_lt in E1; lia|].
      unfold converged in Hp. rewrite Htol in Hp.
      destruct (nleb (n_err s) (Fin tol)) eqn:E2; [discriminate|].
      destruct (c_max c <=? n_iter s)%Z eqn:E3; [|apply Z.leb_gt in E3; lia].
      fold mm in Hk. specialize (Hi Hk).
      destruct (n_err s) as [| | |y], (n_last s) as [| | |x]; cbn in Hp, E2; try discriminate; try congruence.
      apply Qltb_lt in Hp. apply Qleb_gt in E2. exists x, y. repeat split; auto. lra. }
    split; auto. intros Hk. assert (Hk' : (mm <= length (n_hist s))%nat) by lia.
    destruct (G Hk') as (x & y & E1 & E2 & E3 & E4). specialize (Hl x Hk' E1).
    replace (S (length (n_hist s)) - mm)%nat with (S (length (n_hist s) - mm)) by lia. rewrite pow4_S.
    pose proof (pow4_pos (length (n_hist s) - mm)) as Pp.
    assert (pow4 (length (n_hist s) - mm) * (4 * tol) < pow4 (length (n_hist s) - mm) * x) by (apply Qmult_lt_l; lra). lra.
  Qed.

  Lemma body_bound s : Pot s -> proceed c (n_iter s) (n_err s) (n_last s) = true -> n_status s = Running ->
    length (n_hist (body c ev s)) = S (length (n_hist s)) /\ bounded (length (n_hist (body c ev s))) /\
    (n_status (body c ev s) = Running -> Pot (body c ev s)).
  Proof.
    intros P Hp Hr. destruct (step_bound s P Hp) as [B G]. destruct P as (Hn & He & Hl & Hi & Hb).
    assert (T : forall x e last oe,
       length (n_hist (throw c x (log_iter (n_sol s) oe Failed (mkNst (n_sol s) e last (n_iter s) (n_hist s) Running)))) = S (length (n_hist s)) /\
       n_status (throw c x (log_iter (n_sol s) oe Failed (mkNst (n_sol s) e last (n_iter s) (n_hist s) Running))) <> Running).
    { intros x e last oe. destruct x; cbn; split; auto; discriminate. }
    assert (T' : forall x e last oe, let s' := throw c x (log_iter (n_sol s) oe Failed (mkNst (n_sol s) e last (n_iter s) (n_hist s) Running)) in
       length (n_hist s') = S (length (n_hist s)) /\ bounded (length (n_hist s')) /\ (n_status s' = Running -> Pot s')).
    { intros x e last oe s'. destruct (T x e last oe) as [T1 T2]. subst s'. rewrite T1. repeat split; auto; contradiction. }
    assert (Eta : s = mkNst (n_sol s) (n_err s) (n_last s) (n_iter s) (n_hist s) Running) by (destruct s; cbn in *; congruence).
    unfold body. destruct (p_begin (ev (n_sol s) (n_hist s))).
    2: { rewrite Eta at 2 4 6 7. apply (T' Caught). }
    destruct (p_lin (ev (n_sol s) (n_hist s))) as [x|rows others].
    { rewrite Eta at 2 4 6 7. apply T'. }
    unfold after_error. cbn [n_err n_sol n_iter n_last]. rewrite HM.
    destruct (nltb (Fin M) (global_error rows others)) eqn:EM. { apply (T' Caught). }
    destruct (proceed c (n_iter s) (global_error rows others) (n_err s)) eqn:Ep.
    2: { unfold end_iteration. destruct (p_end _); cbn; repeat split; auto; discriminate. }
    unfold solve_and_update. cbn [n_err n_sol n_iter n_last n_hist].
    destruct (p_solve (ev (n_sol s) (n_hist s))) as [x| |u0]; [apply T'|apply (T' Caught)|].
    destruct (p_post (ev (n_sol s) (n_hist s))) as [u|] eqn:Eu; [|apply (T' Caught)].
    destruct (is_fin (one_norm u)); [|apply (T' Caught)].
    unfold end_iteration. destruct (p_end _); [|cbn; repeat split; auto; discriminate].
    cbn [log_iter n_hist n_sol n_err n_status n_iter n_last length]. repeat split; auto.
    - unfold Pot. cbn [log_iter n_hist n_sol n_err n_status n_iter n_last length]. lia.
    - cbn [log_iter n_hist n_sol n_err n_status n_iter n_last length]. intros y Hk Ey.
      destruct (Nat.eq_dec mm (S (length (n_hist s)))) as [E|E].
      + rewrite <- E, Nat.sub_diag. assert (Hne : n_hist s <> []).
        { intro C. rewrite C in E. unfold mm in E. cbn in E. lia. }
        specialize (He Hne). rewrite Ey in He. cbn in He. apply Qltb_ge in He. change (pow4 0) with 1. lra.
      + assert (Hk' : (mm <= length (n_hist s))%nat) by lia.
        destruct (G Hk') as (x & y' & E1 & E2 & E3 & E4). rewrite E2 in Ey. inversion Ey; subst y'.
        specialize (Hl x Hk' E1). replace (S (length (n_hist s)) - mm)%nat with (S (length (n_hist s) - mm)) by lia. rewrite pow4_S.
        pose proof (pow4_pos (length (n_hist s) - mm)) as Pp.
        assert (pow4 (length (n_hist s) - mm) * (4 * y) < pow4 (length (n_hist s) - mm) * x) by (apply Qmult_lt_l; lra). lra.
    - cbn [log_iter n_hist n_sol n_err n_status n_iter n_last length]. intros Hk C.
      assert (Hne : n_hist s <> []). { intro Ce. rewrite Ce in Hk. unfold mm in Hk. cbn in Hk. lia. }
      specialize (He Hne). rewrite C in He. discriminate.
  Qed.

  Definition BInv (n : nat) (s : nst) : Prop :=
    bounded (length (n_hist s)) /\
    (n_status s = Running -> Pot s /\ length (n_hist s) = n) /\
    (n_status s = LeftLoop -> (length (n_hist s) <= n)%nat).

  Lemma conclude_status s : n_status (conclude c s) <> Running /\ n_status (conclude c s) <> LeftLoop /\ n_hist (conclude c s) = n_hist s.
  Proof. unfold conclude. destruct (converged c (n_err s)); cbn; repeat split; discriminate. Qed.

  Lemma round_bound n s : BInv n s -> BInv (S n) (round c ev s).
  Proof.
    intros (B & R & L). unfold round. destruct (n_status s) eqn:Es.
    - destruct (R eq_refl) as [P E]. destruct (proceed c (n_iter s) (n_err s) (n_last s)) eqn:Ep.
      + destruct (body_bound s P Ep Es) as (E1 & E2 & E3). split; [auto|]. split; [intros H; split; [auto|lia]|intros _; lia].
      + destruct (conclude_status s) as (C1 & C2 & C3). unfold BInv. rewrite C3. repeat split; auto; try contradiction; intros; contradiction.
    - destruct (conclude_status s) as (C1 & C2 & C3). unfold BInv. rewrite C3. repeat split; auto; try contradiction; intros; contradiction.
    - unfold BInv. rewrite Es. repeat split; auto; discriminate.
    - unfold BInv. rewrite Es. repeat split; auto; discriminate.
  Qed.

  Lemma rounds_bound m : forall n s, BInv n s -> BInv (n + m) (rounds c ev m s).
  Proof.
    induction m as [|m IH]; intros n s H; cbn; [rewrite Nat.add_0_r; auto|].
    rewrite Nat.add_succ_r. apply (IH (S n)), round_bound, H.
  Qed.

  Lemma start_bound sol err last : BInv 0 (mkNst sol err last 0 [] Running).
  Proof.
    unfold BInv, Pot, bounded, mm. cbn. repeat split; auto; intros; try lia; try congruence.
  Qed.

  Lemma apply_bounded n sol err last : bounded (length (n_hist (apply c ev n sol err last))).
  Proof. exact (proj1 (rounds_bound n 0 _ (start_bound sol err last))). Qed.

  Lemma left_step s : n_status s = LeftLoop -> n_status (round c ev s) <> Running /\ n_status (round c ev s) <> LeftLoop.
  Proof. intros H. unfold round. rewrite H. destruct (conclude_status s) as (C1 & C2 & _). auto. Qed.

  Lemma rounds_snoc m : forall s, rounds c ev (S m) s = round c ev (rounds c ev m s).
  Proof. induction m as [|m IH]; intros s; [reflexivity|]. cbn [rounds] in *. rewrite <- IH. reflexivity. Qed.

  Lemma apply_terminates j sol err last : M <= pow4 j * tol ->
    n_status (apply c ev (mm + j + 1) sol err last) <> Running /\
    n_status (apply c ev (mm + j + 1) sol err last) <> LeftLoop.
  Proof.
    intros Hj. unfold apply. rewrite Nat.add_1_r, rounds_snoc.
    set (s := rounds c ev (mm + j) (mkNst sol err last 0 [] Running)).
    pose proof (rounds_bound (mm + j) 0 _ (start_bound sol err last)) as (B & R & L). fold s in B, R, L. cbn in R, L.
    destruct (n_status s) eqn:Es.
    - destruct (R eq_refl) as [P E]. unfold round. rewrite Es.
      destruct (proceed c (n_iter s) (n_err s) (n_last s)) eqn:Ep.
      + exfalso. destruct (step_bound s P Ep) as [Bs _]. unfold bounded in Bs. rewrite E in Bs.
        specialize (Bs ltac:(lia)). replace (S (mm + j) - mm)%nat with (S j) in Bs by lia. rewrite pow4_S in Bs.
        pose proof (pow4_pos j). assert (0 < pow4 j * tol) by (apply Qmult_lt_0_compat; auto). lra.
      + destruct (conclude_status s) as (C1 & C2 & _). auto.
    - apply left_step; auto.
    - unfold round. rewrite Es, Es. split; discriminate.
    - unfold round. rewrite Es, Es. split; discriminate.
  Qed.
End Bound.

Lemma archimedes tol M : 0 < tol -> exists j, M <= pow4 j * tol.
Proof.
  intros H. exists (Z.to_nat (Qceiling (M / tol))).
  assert (E : M / tol <= pow4 (Z.to_nat (Qceiling (M / tol)))).
  { destruct (Z_le_gt_dec 0 (Qceiling (M / tol))) as [L|L].
    - eapply Qle_trans; [apply Qle_ceiling|]. rewrite <- (Z2Nat.id _ L) at 1. apply pow4_ge.
    - pose proof (Qle_ceiling (M / tol)) as Q1. pose proof (pow4_pos (Z.to_nat (Qceiling (M / tol)))).
      assert (inject_Z (Qceiling (M / tol)) <= 0) by (change 0 with (inject_Z 0); rewrite <- Zle_Qle; lia). lra. }
  apply (Qmult_le_compat_r _ _ tol) in E; [|lra].
  setoid_replace (M / tol * tol) with M in E by (field; lra). exact E.
Qed.

(** *** Non-finite updates *)
Lemma norm_nonfin l : forall s, is_fin s = false -> (s = NaN \/ s = PInf) ->
  is_fin (fold_left (fun s x => nadd s (nabs x)) l s) = false.
Proof.
  induction l as [|x l IH]; intros s H Hs; cbn; auto.
  assert (G : nadd s (nabs x) = NaN \/ nadd s (nabs x) = PInf).
  { destruct Hs as [-> | ->]; destruct x; cbn; auto. }
  apply IH; auto. destruct G as [-> | ->]; reflexivity.
Qed.

Lemma norm_nonfinite l : forall s, (is_fin s = true \/ s = NaN \/ s = PInf) -> (exists x, In x l /\ is_fin x = false) ->
  is_fin (fold_left (fun s x => nadd s (nabs x)) l s) = false.
Proof.
  induction l as [|y l IH]; intros s Hs (x & Hi & Hx); [destruct Hi|]. cbn.
  assert (G : is_fin (nadd s (nabs y)) = true \/ nadd s (nabs y) = NaN \/ nadd s (nabs y) = PInf).
  { destruct Hs as [Hs|[-> | ->]]; [destruct s; try discriminate|..]; destruct y; cbn; auto. }
  destruct Hi as [-> |Hi]; [|apply IH; eauto].
  assert (N : nadd s (nabs x) = NaN \/ nadd s (nabs x) = PInf).
  { destruct Hs as [Hs|[-> | ->]]; [destruct s; try discriminate|..]; destruct x; cbn in *; auto; discriminate. }
  apply norm_nonfin; auto. destruct N as [-> | ->]; reflexivity.
Qed.

Lemma one_norm_nonfinite u v x : In v u -> In x v -> is_fin x = false -> is_fin (one_norm u) = false.
Proof.
  intros H1 H2 H3. apply norm_nonfinite; [left; reflexivity|]. exists x. split; auto. apply in_concat. eauto.
Qed.

Definition UInv (ev : env) (s : nst) : Prop :=
  forall it rest pre, n_hist s = pre ++ it :: rest -> i_stage it = Updated ->
    exists u, p_post (ev (i_start it) rest) = Some u /\ is_fin (one_norm u) = true.

Lemma UInv_hist ev s s' : n_hist s' = n_hist s -> UInv ev s -> UInv ev s'.
Proof. unfold UInv. intros ->. auto. Qed.
Lemma UInv_fail ev c x s a e f : UInv ev s -> UInv ev (throw c x (log_iter a e Failed (mkNst (n_sol s) f (n_last s) (n_iter s) (n_hist s) Running))).
Proof.
  intros U it rest pre E S. destruct x; cbn in E.
  all: destruct pre as [|p pre]; cbn in E; inversion E; subst; cbn in *; try discriminate; eapply U; eauto.
Qed.

Lemma UInv_log ev a e st s s' : n_hist s' = mkIter a e st :: n_hist s -> UInv ev s ->
  (st = Updated -> exists u, p_post (ev a (n_hist s)) = Some u /\ is_fin (one_norm u) = true) -> UInv ev s'.
Proof.
  intros H U Hst it rest pre E S. rewrite H in E. destruct pre as [|p pre]; cbn in E; inversion E; subst.
  - auto.
  - eapply U; eauto.
Qed.

Lemma UInv_body c ev s : UInv ev s -> UInv ev (body c ev s).
Proof.
  intros U. unfold body, after_error, solve_and_update. cbn [n_sol n_err n_last n_iter n_hist].
  destruct (p_begin (ev (n_sol s) (n_hist s))); [|eapply (UInv_log ev _ _ _ s); [reflexivity|exact U|discriminate]].
  destruct (p_lin (ev (n_sol s) (n_hist s))) as [x|rows others].
  { destruct x; (eapply (UInv_log ev _ _ _ s); [reflexivity|exact U|discriminate]). }
  destruct (nltb _ _); [eapply (UInv_log ev _ _ _ s); [reflexivity|exact U|discriminate]|].
  destruct (proceed _ _ _ _).
  - destruct (p_solve _) as [x| |u0].
    + destruct x; (eapply (UInv_log ev _ _ _ s); [reflexivity|exact U|discriminate]).
    + eapply (UInv_log ev _ _ _ s); [reflexivity|exact U|discriminate].
    + destruct (p_post (ev (n_sol s) (n_hist s))) as [u|] eqn:Ep; [|eapply (UInv_log ev _ _ _ s); [reflexivity|exact U|discriminate]].
      destruct (is_fin (one_norm u)) eqn:Ef; [|eapply (UInv_log ev _ _ _ s); [reflexivity|exact U|discriminate]].
      unfold end_iteration. destruct (p_end _); (eapply (UInv_log ev _ _ _ s); [reflexivity|exact U|intros _; eauto]).
  - unfold end_iteration. destruct (p_end _); (eapply (UInv_log ev _ _ _ s); [reflexivity|exact U|discriminate]).
Qed.

Lemma UInv_apply c ev n sol err last : UInv ev (apply c ev n sol err last).
Proof.
  unfold apply.
  assert (G : forall n s, UInv ev s -> UInv ev (rounds c ev n s)).
  { clear. induction n as [|n IH]; intros s U; cbn; auto. apply IH. unfold round. destruct (n_status s); auto.
    - destruct (proceed _ _ _ _); [apply UInv_body; auto|]. unfold conclude. destruct (converged _ _); auto.
    - unfold conclude. destruct (converged _ _); auto. }
  apply G. intros it rest pre E. destruct pre; discriminate.
Qed.

(** *** Step sizes *)
Lemma Qmax_spec a b : (a <= b /\ Qmax a b == b) \/ (b < a /\ Qmax a b == a).
Proof. destruct (Qlt_le_dec b a) as [H|H]; [right|left]; split; auto. apply Q.max_l; lra. apply Q.max_r; lra. Qed.

Lemma suggest_shrinks numIter target minDt oldDt : (0 < target)%Z -> (target < numIter)%Z -> 0 < oldDt ->
  suggestTimeStepSize numIter target minDt oldDt == Qmax minDt (oldDt * inject_Z target / inject_Z numIter) /\
  (suggestTimeStepSize numIter target minDt oldDt < oldDt \/ oldDt <= minDt /\ suggestTimeStepSize numIter target minDt oldDt == minDt).
Proof.
  intros Ht Hn Ho. unfold suggestTimeStepSize. rewrite (proj2 (Z.ltb_lt _ _) Hn).
  assert (T : 0 < inject_Z target) by (change 0 with (inject_Z 0); rewrite <- Zlt_Qlt; auto).
  assert (N : inject_Z target < inject_Z numIter) by (rewrite <- Zlt_Qlt; auto).
  assert (E : oldDt / (1 + inject_Z (numIter - target) / inject_Z target) == oldDt * inject_Z target / inject_Z numIter).
  { rewrite <- Z.add_opp_r, inject_Z_plus, inject_Z_opp. field. split; lra. }
  assert (L : oldDt * inject_Z target / inject_Z numIter < oldDt).
  { apply Qlt_shift_div_r; [lra|]. apply Qmult_lt_l; auto. }
  split; [rewrite E; reflexivity|]. rewrite E.
  destruct (Qmax_spec minDt (oldDt * inject_Z target / inject_Z numIter)) as [[A B]|[A B]]; rewrite B.
  - left; auto.
  - destruct (Qlt_le_dec minDt oldDt); [left; auto|right; split; [lra|reflexivity]].
Qed.

Lemma suggest_grows numIter target minDt oldDt : (0 < target)%Z -> (0 <= numIter <= target)%Z -> 0 < oldDt ->
  suggestTimeStepSize numIter target minDt oldDt == Qmax minDt (oldDt * (1 + inject_Z (target - numIter) / inject_Z target / (12 # 10))) /\
  oldDt <= oldDt * (1 + inject_Z (target - numIter) / inject_Z target / (12 # 10)) <= oldDt * (1 + 1 / (12 # 10)).
Proof.
  intros Ht Hn Ho. unfold suggestTimeStepSize. rewrite (proj2 (Z.ltb_ge _ _) (proj2 Hn)). split; [reflexivity|].
  assert (T : 0 < inject_Z target) by (change 0 with (inject_Z 0); rewrite <- Zlt_Qlt; auto).
  assert (B : 0 <= inject_Z (target - numIter) / inject_Z target <= 1).
  { split.
    - apply Qle_shift_div_l; auto. rewrite Qmult_0_l. change 0 with (inject_Z 0). rewrite <- Zle_Qle. lia.
    - apply Qle_shift_div_r; auto. rewrite Qmult_1_l. rewrite <- Zle_Qle. lia. }
  set (p := inject_Z (target - numIter) / inject_Z target) in *.
  assert (0 <= p / (12 # 10) <= 1 / (12 # 10)).
  { unfold Qdiv. change (/ (12 # 10)) with (10 # 12). lra. }
  split.
  - rewrite <- (Qmult_1_r oldDt) at 1. apply Qmult_le_l; lra.
  - apply Qmult_le_l; lra.
Qed.

Lemma suggest_monotone n1 n2 target minDt oldDt : (0 < target)%Z -> (0 <= n1 <= n2)%Z -> 0 < oldDt ->
  suggestTimeStepSize n2 target minDt oldDt <= suggestTimeStepSize n1 target minDt oldDt.
Proof.
  intros Ht Hn Ho.
  assert (T : 0 < inject_Z target) by (change 0 with (inject_Z 0); rewrite <- Zlt_Qlt; auto).
  assert (MM : forall a b, a <= b -> Qmax minDt a <= Qmax minDt b).
  { intros a b H. apply Q.max_le_compat_l. auto. }
  destruct (Z_le_gt_dec n1 target) as [L1|L1]; destruct (Z_le_gt_dec n2 target) as [L2|L2].
  - unfold suggestTimeStepSize. rewrite (proj2 (Z.ltb_ge _ _) L1), (proj2 (Z.ltb_ge _ _) L2). apply MM.
    apply Qmult_le_l; auto. apply Qplus_le_r. unfold Qdiv. apply Qmult_le_compat_r; [|discriminate].
    apply Qmult_le_compat_r; [|apply Qlt_le_weak, Qinv_lt_0_compat; auto]. rewrite <- Zle_Qle. lia.
  - destruct (suggest_shrinks n2 target minDt oldDt Ht ltac:(lia) Ho) as [E2 _].
    destruct (suggest_grows n1 target minDt oldDt Ht ltac:(lia) Ho) as [E1 [B1 _]]. rewrite E1, E2. apply MM.
    eapply Qle_trans; [|exact B1]. apply Qle_shift_div_r. { change 0 with (inject_Z 0); rewrite <- Zlt_Qlt; lia. }
    apply Qmult_le_l; auto. rewrite <- Zle_Qle. lia.
  - lia.
  - destruct (suggest_shrinks n1 target minDt oldDt Ht ltac:(lia) Ho) as [E1 _].
    destruct (suggest_shrinks n2 target minDt oldDt Ht ltac:(lia) Ho) as [E2 _]. rewrite E1, E2. apply MM.
    assert (N1 : 0 < inject_Z n1) by (change 0 with (inject_Z 0); rewrite <- Zlt_Qlt; lia).
    assert (N2 : 0 < inject_Z n2) by (change 0 with (inject_Z 0); rewrite <- Zlt_Qlt; lia).
    assert (L : inject_Z n1 <= inject_Z n2) by (rewrite <- Zle_Qle; lia).
    apply Qle_shift_div_l; auto.
    setoid_replace (oldDt * inject_Z target / inject_Z n2 * inject_Z n1) with (oldDt * inject_Z target * inject_Z n1 / inject_Z n2) by (field; lra).
    apply Qle_shift_div_r; auto. apply Qmult_le_l; auto. apply Qmult_lt_0_compat; auto.
Qed.

Lemma suggest_min numIter target minDt oldDt : minDt <= suggestTimeStepSize numIter target minDt oldDt.
Proof. unfold suggestTimeStepSize. destruct (target <? numIter)%Z; apply Q.le_max_l. Qed.
