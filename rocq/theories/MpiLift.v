(** * Programs exchanging messages of several kinds

    A part of a program which only uses one kind of messages, as a part of the whole
    program: a message is sent as [inj m], and a message which arrives is read as
    [prj m] (MPI does not look at the types of what is sent). *)

From Coq Require Import Arith List Lia.
From Verif Require Import MpiModel MpiSpec MpiProofs MpiLemmas.
Import ListNotations.

Fixpoint lift {A M R : Type} (inj : A -> M) (prj : M -> A) (p : proc A R) : proc M R :=
  match p with
  | Ret r => Ret r
  | Send q m k => Send q (inj m) (lift inj prj k)
  | Isend q m k => Isend q (inj m) (lift inj prj k)
  | Wait q k => Wait q (lift inj prj k)
  | Recv q k => Recv q (fun m => lift inj prj (k (prj m)))
  | Coll t m k => Coll t (inj m) (fun ms => lift inj prj (k (map prj ms)))
  end.

Section Lift.
Context {A M R : Type}.
Variable inj : A -> M.
Variable prj : M -> A.
Hypothesis prj_inj : forall a, prj (inj a) = a.

Notation lft := (@lift A M R inj prj).

Definition liftS (s : state A R) : state M R :=
  mkState (map lft (procs s)) (map (map inj) (chans s)).

Lemma map_prj : forall ms, map prj (map inj ms) = ms.
Proof. intros. rewrite map_map. erewrite map_ext; [apply map_id|]. auto. Qed.

Lemma liftS_size : forall s, size (liftS s) = size s.
Proof. intros. unfold size, liftS. cbn [procs]. apply map_length. Qed.

Lemma liftS_proc : forall s p pr, nth_error (procs s) p = Some pr ->
  nth_error (procs (liftS s)) p = Some (lft pr).
Proof. intros. unfold liftS. cbn [procs]. apply map_nth_error. auto. Qed.

Lemma liftS_chan : forall s p q, chan (liftS s) p q = map inj (chan s p q).
Proof.
  intros. unfold chan. rewrite liftS_size. unfold liftS. cbn [chans].
  change (@nil M) with (map inj []). apply map_nth.
Qed.

Lemma map_upd : forall X Y (f : X -> Y) l i x, map f (upd l i x) = upd (map f l) i (f x).
Proof. induction l as [|a l IH]; intros [|i] x; cbn; auto. f_equal. auto. Qed.

Lemma liftS_local : forall s p s', step s (Some p) = Some s' -> step (liftS s) (Some p) = Some (liftS s').
Proof.
  intros s p s' H. unfold step in *.
  destruct (nth_error (procs s) p) as [pr|] eqn:E; [|discriminate].
  rewrite (liftS_proc _ _ _ E), liftS_size.
  destruct pr; cbn [lift]; try discriminate.
  - destruct (dst <? size s); [|discriminate]. injection H as <-. rewrite liftS_chan.
    unfold liftS. cbn [procs chans]. rewrite !map_upd, map_app. reflexivity.
  - destruct (dst <? size s); [|discriminate]. injection H as <-. rewrite liftS_chan.
    unfold liftS. cbn [procs chans]. rewrite !map_upd, map_app. reflexivity.
  - destruct (dst <? size s); [|discriminate]. injection H as <-.
    unfold liftS. cbn [procs chans]. rewrite !map_upd. reflexivity.
  - destruct (src <? size s); [|discriminate]. rewrite liftS_chan.
    destruct (chan s src p) as [|m rest]; [discriminate|]. injection H as <-.
    cbn [map]. rewrite prj_inj. unfold liftS. cbn [procs chans]. rewrite !map_upd. reflexivity.
Qed.

Lemma contributions_lift : forall t ps ms, contributions t ps = Some ms ->
  contributions t (map lft ps) = Some (map inj ms)
  /\ map (resume (map inj ms)) (map lft ps) = map lft (map (resume ms) ps).
Proof.
  intros t ps ms H.
  assert (G : forall ps ms, contributions t ps = Some ms -> contributions t (map lft ps) = Some (map inj ms)
    /\ forall vs, map (resume (map inj vs)) (map lft ps) = map lft (map (resume vs) ps)).
  { clear ps ms H. intros ps. induction ps as [|x ps IH]; intros ms H.
    - injection H as <-. auto.
    - destruct x; cbn [contributions] in H; try discriminate.
      destruct (Nat.eqb_spec t tag); [|discriminate].
      destruct (contributions t ps) as [ms'|] eqn:E; [|discriminate].
      injection H as <-. destruct (IH ms' eq_refl) as [I1 I2].
      cbn [map lift contributions]. subst tag. rewrite Nat.eqb_refl, I1. split; [reflexivity|].
      intros vs. rewrite I2. cbn [resume]. rewrite map_prj. reflexivity. }
  destruct (G ps ms H) as [G1 G2]. auto.
Qed.

Lemma liftS_coll : forall s s', step s None = Some s' -> step (liftS s) None = Some (liftS s').
Proof.
  intros s s' H. unfold step in *. unfold liftS at 1 2. cbn [procs chans].
  destruct (procs s) as [|x ps] eqn:E; [discriminate|].
  destruct x; try discriminate.
  destruct (contributions tag (Coll tag m k :: ps)) as [ms|] eqn:Ec; [|discriminate].
  injection H as <-. destruct (contributions_lift _ _ _ Ec) as [H1 H2].
  cbn [map lift] in *. rewrite H1. f_equal. unfold liftS. cbn [procs chans]. f_equal. rewrite E. exact H2.
Qed.

Lemma liftS_assured : forall s s', assured s s' -> assured (liftS s) (liftS s').
Proof.
  intros s s' [p q m k k' Hp Hq Hc|p q m k s'' Hp Hs|p q k s'' Hp Hs|p q k s'' Hp Hc Hs|s'' Hs].
  - replace (liftS (mkState (upd (upd (procs s) p k) q (k' m)) (chans s)))
      with (mkState (upd (upd (procs (liftS s)) p (lft k)) q (lft (k' (prj (inj m))))) (chans (liftS s))).
    + apply (assured_handshake _ p q (inj m) (lft k) (fun m => lft (k' (prj m)))).
      * rewrite (liftS_proc _ _ _ Hp). reflexivity.
      * rewrite (liftS_proc _ _ _ Hq). reflexivity.
      * rewrite liftS_chan, Hc. reflexivity.
    + unfold liftS. cbn [procs chans]. rewrite !map_upd, prj_inj. reflexivity.
  - apply (assured_isend _ p q (inj m) (lft k)).
    + rewrite (liftS_proc _ _ _ Hp). reflexivity.
    + apply liftS_local; auto.
  - apply (assured_recv _ p q (fun m => lft (k (prj m)))).
    + rewrite (liftS_proc _ _ _ Hp). reflexivity.
    + apply liftS_local; auto.
  - apply (assured_wait _ p q (lft k)).
    + rewrite (liftS_proc _ _ _ Hp). reflexivity.
    + rewrite liftS_chan, Hc. reflexivity.
    + apply liftS_local; auto.
  - apply assured_coll. apply liftS_coll; auto.
Qed.

Lemma liftS_run : forall s t, assuredRun s t -> assuredRun (liftS s) (liftS t).
Proof. induction 1; [constructor|]. econstructor; [apply liftS_assured; eauto|auto]. Qed.

Lemma liftS_cfg : forall N f, liftS (cfg N f noMsg) = cfg N (fun p => lft (f p)) noMsg.
Proof.
  intros. unfold liftS, cfg. cbn [procs chans]. f_equal.
  - apply map_map.
  - unfold tab. rewrite !map_map. apply map_ext. intros. reflexivity.
Qed.

Theorem lift_run : forall N f r,
  assuredRun (cfg N f noMsg) (cfg N (fun p => Ret (r p)) noMsg) ->
  assuredRun (cfg N (fun p => lft (f p)) noMsg) (cfg N (fun p => Ret (r p)) noMsg).
Proof.
  intros N f r H. apply liftS_run in H. rewrite !liftS_cfg in H. exact H.
Qed.

End Lift.
