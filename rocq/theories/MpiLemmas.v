(** * Constructing executions of parallel programs *)

From Coq Require Import Arith List Bool Lia.
From Verif Require Import MpiModel MpiSpec MpiProofs.
Import ListNotations.

Section Lemmas.
Context {M : Type}.

(* ----- states given by functions ----- *)

Definition tab (N : nat) (C : nat -> nat -> list M) : list (list M) :=
  map (fun i => C (i / N) (i mod N)) (seq 0 (N * N)).

Definition cfg {R} (N : nat) (f : nat -> proc M R) (C : nat -> nat -> list M) : state M R :=
  mkState (map f (seq 0 N)) (tab N C).

Definition fset {A} (f : nat -> A) (p : nat) (x : A) : nat -> A :=
  fun i => if Nat.eqb i p then x else f i.

Definition cset (C : nat -> nat -> list M) (p q : nat) (x : list M) : nat -> nat -> list M :=
  fun i j => if Nat.eqb i p && Nat.eqb j q then x else C i j.

Definition noMsg : nat -> nat -> list M := fun _ _ => [].

Lemma cfg_size : forall R N (f : nat -> proc M R) C, size (cfg N f C) = N.
Proof. intros. unfold size, cfg. cbn [procs]. now rewrite map_length, seq_length. Qed.

Lemma cfg_wf : forall R N (f : nat -> proc M R) C, wf (cfg N f C).
Proof.
  intros. unfold wf. rewrite cfg_size. unfold cfg, tab. cbn [chans].
  now rewrite map_length, seq_length.
Qed.

Lemma tab_ext : forall N C C',
  (forall p q, p < N -> q < N -> C p q = C' p q) -> tab N C = tab N C'.
Proof.
  intros N C C' H. unfold tab. apply map_ext_in. intros i Hi. apply in_seq in Hi.
  destruct N; [cbn in Hi; lia|]. apply H.
  - apply Nat.div_lt_upper_bound; lia.
  - apply Nat.mod_upper_bound; lia.
Qed.

Lemma cfg_ext : forall R N (f f' : nat -> proc M R) C C',
  (forall p, p < N -> f p = f' p) ->
  (forall p q, p < N -> q < N -> C p q = C' p q) -> cfg N f C = cfg N f' C'.
Proof.
  intros R N f f' C C' Hf HC. unfold cfg. f_equal.
  - apply map_ext_in. intros i Hi. apply in_seq in Hi. apply Hf; lia.
  - apply tab_ext; auto.
Qed.

Lemma cfg_proc : forall R N (f : nat -> proc M R) C p, p < N ->
  nth_error (procs (cfg N f C)) p = Some (f p).
Proof. intros. unfold cfg. cbn [procs]. apply nth_error_map_seq; auto. Qed.

Lemma divmod_idx : forall N p q, q < N ->
  (p * N + q) / N = p /\ (p * N + q) mod N = q.
Proof.
  intros N p q H. split.
  - rewrite Nat.div_add_l by lia. rewrite Nat.div_small by lia. lia.
  - rewrite Nat.add_comm, Nat.mod_add by lia. apply Nat.mod_small; lia.
Qed.

Lemma cfg_chan : forall R N (f : nat -> proc M R) C p q, p < N -> q < N ->
  chan (cfg N f C) p q = C p q.
Proof.
  intros R N f C p q Hp Hq. unfold chan. rewrite cfg_size. unfold cfg, tab. cbn [chans].
  apply nth_error_nth. rewrite nth_error_map_seq by (apply chan_range; auto).
  destruct (divmod_idx N p q Hq) as [-> ->]. reflexivity.
Qed.

Lemma tab_upd : forall N C p q x, p < N -> q < N ->
  upd (tab N C) (p * N + q) x = tab N (cset C p q x).
Proof.
  intros N C p q x Hp Hq. unfold tab. rewrite upd_map_seq by (apply chan_range; auto).
  apply map_ext_in. intros i Hi. apply in_seq in Hi. unfold cset.
  destruct (Nat.eqb_spec i (p * N + q)) as [->|Hne].
  - destruct (divmod_idx N p q Hq) as [-> ->]. now rewrite !Nat.eqb_refl.
  - destruct (Nat.eqb_spec (i / N) p) as [E1|E1]; cbn [andb]; [|reflexivity].
    destruct (Nat.eqb_spec (i mod N) q) as [E2|E2]; [|reflexivity].
    exfalso. apply Hne. rewrite <- E1, <- E2.
    rewrite Nat.mul_comm. apply Nat.div_mod. lia.
Qed.

Lemma start_cfg : forall R N (f : nat -> proc M R), start N f = cfg N f noMsg.
Proof.
  intros R N f. unfold start, cfg. f_equal. unfold tab, noMsg.
  generalize (N * N) 0. intros n b. revert b. induction n; intros b; cbn; [reflexivity|].
  f_equal. apply IHn.
Qed.

Lemma cfg_isend : forall R N (f : nat -> proc M R) C p q m k,
  p < N -> q < N -> f p = Isend q m k ->
  assured (cfg N f C) (cfg N (fset f p k) (cset C p q (C p q ++ [m]))).
Proof.
  intros R N f C p q m k Hp Hq Hf.
  apply (assured_isend _ p q m k).
  - rewrite cfg_proc by auto. now rewrite Hf.
  - rewrite (send_step _ p q m k).
    + rewrite cfg_size, cfg_chan by auto. unfold cfg. cbn [procs chans].
      rewrite upd_map_seq, tab_upd by auto. reflexivity.
    + now rewrite cfg_size.
    + right. rewrite cfg_proc by auto. now rewrite Hf.
Qed.

Lemma cfg_recv : forall R N (f : nat -> proc M R) C p q k m rest,
  p < N -> q < N -> f p = Recv q k -> C q p = m :: rest ->
  assured (cfg N f C) (cfg N (fset f p (k m)) (cset C q p rest)).
Proof.
  intros R N f C p q k m rest Hp Hq Hf HC.
  apply (assured_recv _ p q k).
  - rewrite cfg_proc by auto. now rewrite Hf.
  - rewrite (recv_step _ p q k m rest).
    + rewrite cfg_size. unfold cfg. cbn [procs chans].
      rewrite upd_map_seq, tab_upd by auto. reflexivity.
    + now rewrite cfg_size.
    + rewrite cfg_proc by auto. now rewrite Hf.
    + rewrite cfg_chan by auto. exact HC.
Qed.

Lemma cfg_wait : forall R N (f : nat -> proc M R) C p q k,
  p < N -> q < N -> f p = Wait q k -> C p q = [] ->
  assured (cfg N f C) (cfg N (fset f p k) C).
Proof.
  intros R N f C p q k Hp Hq Hf HC.
  apply (assured_wait _ p q k).
  - rewrite cfg_proc by auto. now rewrite Hf.
  - rewrite cfg_chan by auto. exact HC.
  - rewrite (wait_step _ p q k).
    + unfold cfg. cbn [procs chans]. rewrite upd_map_seq by auto. reflexivity.
    + now rewrite cfg_size.
    + rewrite cfg_proc by auto. now rewrite Hf.
Qed.

Lemma cfg_handshake : forall R N (f : nat -> proc M R) C p q m k k',
  p < N -> q < N -> f p = Send q m k -> f q = Recv p k' -> C p q = [] ->
  assured (cfg N f C) (cfg N (fset (fset f p k) q (k' m)) C).
Proof.
  intros R N f C p q m k k' Hp Hq Hf Hg HC.
  replace (cfg N (fset (fset f p k) q (k' m)) C)
    with (mkState (upd (upd (procs (cfg N f C)) p k) q (k' m)) (chans (cfg N f C))).
  - apply (assured_handshake _ p q m k k').
    + rewrite cfg_proc by auto. now rewrite Hf.
    + rewrite cfg_proc by auto. now rewrite Hg.
    + rewrite cfg_chan by auto. exact HC.
  - unfold cfg. cbn [procs chans]. rewrite upd_map_seq, upd_map_seq by auto. reflexivity.
Qed.

Lemma contributions_map : forall R (f : nat -> proc M R) t v k xs,
  (forall p, In p xs -> f p = Coll t (v p) (k p)) ->
  contributions t (map f xs) = Some (map v xs).
Proof.
  intros R f t v k. induction xs as [|x xs IH]; intros H; [reflexivity|].
  cbn [map contributions]. rewrite (H x) by (left; auto).
  cbn [contributions]. rewrite Nat.eqb_refl, IH; [reflexivity|].
  intros p Hp. apply H. right; auto.
Qed.

Lemma cfg_coll : forall R N (f : nat -> proc M R) C t v k,
  0 < N -> (forall p, p < N -> f p = Coll t (v p) (k p)) ->
  assured (cfg N f C) (cfg N (fun p => k p (map v (seq 0 N))) C).
Proof.
  intros R N f C t v k HN Hf.
  apply assured_coll.
  assert (Hc : contributions t (map f (seq 0 N)) = Some (map v (seq 0 N))).
  { apply (contributions_map _ _ _ _ k). intros p Hp. apply in_seq in Hp. apply Hf; lia. }
  unfold step, cfg. cbn [procs chans].
  destruct N as [|N]; [lia|].
  cbn [seq map]. rewrite (Hf 0) by lia.
  cbn [seq map] in Hc. rewrite (Hf 0) in Hc by lia. rewrite Hc.
  cbn [map resume]. f_equal. f_equal. f_equal.
  rewrite map_map. apply map_ext_in. intros p Hp. apply in_seq in Hp.
  rewrite Hf by lia. reflexivity.
Qed.

Lemma ar_one : forall R (s t : state M R), assured s t -> assuredRun s t.
Proof. intros. econstructor; [eauto|constructor]. Qed.

Lemma ar_trans : forall R (s t u : state M R),
  assuredRun s t -> assuredRun t u -> assuredRun s u.
Proof. induction 1; intros; [auto|]. econstructor; eauto. Qed.

(* ----- all processes returned ----- *)

Lemma done_final : forall R N (res : nat -> R) l,
  step (done N res : state M R) l = None.
Proof.
  intros R N res l. unfold done, start, step. cbn [procs].
  destruct l as [p|].
  - destruct (nth_error (map (fun p0 : nat => Ret (res p0)) (seq 0 N)) p) as [pr|] eqn:E; [|reflexivity].
    rewrite nth_error_map in E. destruct (nth_error (seq 0 N) p); cbn in E; [|discriminate].
    injection E as <-. reflexivity.
  - destruct N; reflexivity.
Qed.

(** One execution that needs no buffering and reaches the end is enough. *)
Theorem ends_intro : forall R N (prog : nat -> proc M R) res,
  assuredRun (start N prog) (done N res) -> ends N prog res.
Proof.
  intros R N prog res H.
  assert (W : wf (start N prog)) by (rewrite start_cfg; apply cfg_wf).
  destruct (assuredRun_run _ _ H W) as (ls & Hls).
  pose proof (done_final R N res) as Hf.
  split.
  - exists (length ls). intros ls' s Hs.
    destruct (confluent _ _ _ Hs W _ _ Hls Hf) as (ls'' & _ & E). lia.
  - intros ls' s Hs. apply (assured_progress _ _ H W _ _ Hs Hf).
  - intros ls' s Hs Hn.
    destruct (confluent _ _ _ Hs W _ _ Hls Hf) as (ls'' & Hr & E).
    inversion Hr as [|? ? ? ? ? Hx]; subst; auto. rewrite Hn in Hx. discriminate.
Qed.

(* ----- sequential composition of phases ----- *)

Fixpoint mapi {A B} (f : nat -> A -> B) (i : nat) (l : list A) : list B :=
  match l with [] => [] | x :: l' => f i x :: mapi f (S i) l' end.

Lemma mapi_length : forall A B (f : nat -> A -> B) l i, length (mapi f i l) = length l.
Proof. induction l; intros; cbn; auto. Qed.

Lemma mapi_nth : forall A B (f : nat -> A -> B) l i p,
  nth_error (mapi f i l) p = option_map (f (i + p)) (nth_error l p).
Proof.
  induction l; intros i [|p]; cbn; auto.
  - now rewrite Nat.add_0_r.
  - rewrite IHl. now replace (S i + p) with (i + S p) by lia.
Qed.

Lemma mapi_upd : forall A B (f : nat -> A -> B) l i p x,
  upd (mapi f i l) p (f (i + p) x) = mapi f i (upd l p x).
Proof.
  induction l; intros i [|p] x; cbn; auto.
  - now rewrite Nat.add_0_r.
  - f_equal. rewrite <- IHl. now replace (S i + p) with (i + S p) by lia.
Qed.

Lemma mapi_map_seq : forall A B (f : nat -> A -> B) g n b,
  mapi f b (map g (seq b n)) = map (fun i => f i (g i)) (seq b n).
Proof. induction n; intros b; cbn; auto. f_equal; auto. Qed.

Definition bindS {A B} (K : nat -> A -> proc M B) (s : state M A) : state M B :=
  mkState (mapi (fun i p => bind p (K i)) 0 (procs s)) (chans s).

Lemma bindS_size : forall A B (K : nat -> A -> proc M B) s, size (bindS K s) = size s.
Proof. intros. unfold size, bindS. cbn [procs]. apply mapi_length. Qed.

Lemma bindS_proc : forall A B (K : nat -> A -> proc M B) s p pr,
  nth_error (procs s) p = Some pr ->
  nth_error (procs (bindS K s)) p = Some (bind pr (K p)).
Proof.
  intros. unfold bindS. cbn [procs]. rewrite mapi_nth, H. reflexivity.
Qed.

Lemma bindS_chan : forall A B (K : nat -> A -> proc M B) s p q,
  chan (bindS K s) p q = chan s p q.
Proof. intros. unfold chan. rewrite bindS_size. reflexivity. Qed.

Lemma bindS_upd : forall A B (K : nat -> A -> proc M B) s p x cs,
  mkState (upd (procs (bindS K s)) p (bind x (K p))) cs
  = bindS K (mkState (upd (procs s) p x) cs).
Proof.
  intros. unfold bindS. cbn [procs chans]. f_equal.
  apply (mapi_upd _ _ (fun i p => bind p (K i)) (procs s) 0 p x).
Qed.

Lemma bindS_local : forall A B (K : nat -> A -> proc M B) s p s',
  step s (Some p) = Some s' -> step (bindS K s) (Some p) = Some (bindS K s').
Proof.
  intros A B K s p s' H. unfold step in *.
  destruct (nth_error (procs s) p) as [pr|] eqn:E; [|discriminate].
  rewrite (bindS_proc _ _ K _ _ _ E). rewrite bindS_size.
  destruct pr; cbn [bind]; try discriminate.
  - destruct (dst <? size s); [|discriminate]. injection H as <-.
    rewrite bindS_upd, bindS_chan. reflexivity.
  - destruct (dst <? size s); [|discriminate]. injection H as <-.
    rewrite bindS_upd, bindS_chan. reflexivity.
  - destruct (dst <? size s); [|discriminate]. injection H as <-.
    rewrite bindS_upd. reflexivity.
  - destruct (src <? size s); [|discriminate]. rewrite bindS_chan.
    destruct (chan s src p) as [|m rest]; [discriminate|]. injection H as <-.
    rewrite bindS_upd. reflexivity.
Qed.

Lemma contributions_bind : forall A B (K : nat -> A -> proc M B) t ps ms i,
  contributions t ps = Some ms ->
  contributions t (mapi (fun i p => bind p (K i)) i ps) = Some ms /\
  forall vs, map (resume vs) (mapi (fun i p => bind p (K i)) i ps)
             = mapi (fun i p => bind p (K i)) i (map (resume vs) ps).
Proof.
  induction ps as [|x ps IH]; intros ms i H.
  - auto.
  - destruct x; cbn [contributions] in H; try discriminate.
    destruct (Nat.eqb_spec t tag); [|discriminate].
    destruct (contributions t ps) as [ms'|] eqn:E; [|discriminate].
    injection H as <-.
    destruct (IH ms' (S i) eq_refl) as [H1 H2].
    cbn [mapi bind contributions]. subst tag. rewrite Nat.eqb_refl, H1.
    split; [reflexivity|]. intros vs. cbn [map resume mapi]. rewrite H2. reflexivity.
Qed.

Lemma bindS_coll : forall A B (K : nat -> A -> proc M B) s s',
  step s None = Some s' -> step (bindS K s) None = Some (bindS K s').
Proof.
  intros A B K s s' H. unfold step in *. unfold bindS. cbn [procs chans].
  destruct (procs s) as [|x ps] eqn:E; [discriminate|].
  destruct x; try discriminate.
  destruct (contributions tag (Coll tag m k :: ps)) as [ms|] eqn:Ec; [|discriminate].
  injection H as <-.
  destruct (contributions_bind _ _ K _ _ _ 0 Ec) as [H1 H2].
  cbn [mapi bind] in *. rewrite H1. cbn [procs chans]. rewrite H2. reflexivity.
Qed.

Lemma bindS_assured : forall A B (K : nat -> A -> proc M B) s s',
  assured s s' -> assured (bindS K s) (bindS K s').
Proof.
  intros A B K s s' [p q m k k' Hp Hq Hc|p q m k s'' Hp Hs|p q k s'' Hp Hs|p q k s'' Hp Hc Hs|s'' Hs].
  - replace (bindS K (mkState (upd (upd (procs s) p k) q (k' m)) (chans s)))
      with (mkState (upd (upd (procs (bindS K s)) p (bind k (K p))) q (bind (k' m) (K q)))
                    (chans (bindS K s))).
    + apply (assured_handshake _ p q m (bind k (K p)) (fun m => bind (k' m) (K q))).
      * rewrite (bindS_proc _ _ K _ _ _ Hp). reflexivity.
      * rewrite (bindS_proc _ _ K _ _ _ Hq). reflexivity.
      * now rewrite bindS_chan.
    + pose proof (bindS_upd _ _ K s p k (chans s)) as E1.
      apply (f_equal procs) in E1. cbn [procs] in E1. rewrite E1.
      exact (bindS_upd _ _ K (mkState (upd (procs s) p k) (chans s)) q (k' m) (chans s)).
  - apply (assured_isend _ p q m (bind k (K p))).
    + rewrite (bindS_proc _ _ K _ _ _ Hp). reflexivity.
    + apply bindS_local; auto.
  - apply (assured_recv _ p q (fun m => bind (k m) (K p))).
    + rewrite (bindS_proc _ _ K _ _ _ Hp). reflexivity.
    + apply bindS_local; auto.
  - apply (assured_wait _ p q (bind k (K p))).
    + rewrite (bindS_proc _ _ K _ _ _ Hp). reflexivity.
    + now rewrite bindS_chan.
    + apply bindS_local; auto.
  - apply assured_coll. apply bindS_coll; auto.
Qed.

Lemma bindS_run : forall A B (K : nat -> A -> proc M B) s t,
  assuredRun s t -> assuredRun (bindS K s) (bindS K t).
Proof.
  induction 1; [constructor|]. econstructor; [apply bindS_assured; eauto|auto].
Qed.

Lemma bindS_cfg : forall A B (K : nat -> A -> proc M B) N f C,
  bindS K (cfg N f C) = cfg N (fun p => bind (f p) (K p)) C.
Proof.
  intros. unfold bindS, cfg. cbn [procs chans]. f_equal. apply mapi_map_seq.
Qed.

(** First one phase on all processes, then the next. *)
Lemma phases : forall A B N (f : nat -> proc M A) (K : nat -> A -> proc M B) C C' r T,
  assuredRun (cfg N f C) (cfg N (fun p => Ret (r p)) C') ->
  assuredRun (cfg N (fun p => K p (r p)) C') T ->
  assuredRun (cfg N (fun p => bind (f p) (K p)) C) T.
Proof.
  intros A B N f K C C' r T H1 H2.
  apply (bindS_run _ _ K) in H1. rewrite !bindS_cfg in H1. cbn [bind] in H1.
  eapply ar_trans; eauto.
Qed.

(* ----- one process at a time ----- *)

Definition chanEq (N : nat) (C C' : nat -> nat -> list M) : Prop :=
  forall p q, p < N -> q < N -> C p q = C' p q.

(** Process p alone makes steps that do not require buffering of blocking sends. *)
Inductive lrun {R} (N p : nat) : proc M R -> (nat -> nat -> list M) ->
    proc M R -> (nat -> nat -> list M) -> Prop :=
| lr_refl pr C C' : chanEq N C C' -> lrun N p pr C pr C'
| lr_isend q m k C pr' C' : q < N ->
    lrun N p k (cset C p q (C p q ++ [m])) pr' C' -> lrun N p (Isend q m k) C pr' C'
| lr_recv q k m rest C pr' C' : q < N -> C q p = m :: rest ->
    lrun N p (k m) (cset C q p rest) pr' C' -> lrun N p (Recv q k) C pr' C'
| lr_wait q k C pr' C' : q < N -> C p q = [] ->
    lrun N p k C pr' C' -> lrun N p (Wait q k) C pr' C'.

Lemma chanEq_refl : forall N C, chanEq N C C.
Proof. intros N C p q _ _. reflexivity. Qed.

Lemma chanEq_trans : forall N C C' C'', chanEq N C C' -> chanEq N C' C'' -> chanEq N C C''.
Proof. intros N C C' C'' H H' p q Hp Hq. rewrite H, H'; auto. Qed.

Lemma chanEq_sym : forall N C C', chanEq N C C' -> chanEq N C' C.
Proof. intros N C C' H p q Hp Hq. symmetry. auto. Qed.

Lemma chanEq_cset : forall N C C' p q x x',
  chanEq N C C' -> x = x' -> chanEq N (cset C p q x) (cset C' p q x').
Proof.
  intros N C C' p q x x' H -> i j Hi Hj. unfold cset.
  destruct (Nat.eqb i p && Nat.eqb j q); auto.
Qed.

Lemma lrun_ext : forall R N p (pr pr' : proc M R) C C' , p < N -> lrun N p pr C pr' C' ->
  forall D D', chanEq N C D -> chanEq N C' D' -> lrun N p pr D pr' D'.
Proof.
  induction 2; intros D D' HD HD'.
  - constructor. apply (chanEq_trans N D C D'); [apply chanEq_sym; auto|].
    apply (chanEq_trans N C C' D'); auto.
  - econstructor; auto. apply IHlrun; auto. apply chanEq_cset; auto.
    rewrite (HD p q) by auto. reflexivity.
  - eapply lr_recv with (m := m) (rest := rest); auto.
    + rewrite <- (HD q p) by auto. auto.
    + apply IHlrun; auto. apply chanEq_cset; auto.
  - eapply lr_wait; auto. rewrite <- (HD p q) by auto. auto.
Qed.

Lemma lrun_trans : forall R N p (a b : proc M R) C C', p < N -> lrun N p a C b C' ->
  forall c C'', lrun N p b C' c C'' -> lrun N p a C c C''.
Proof.
  induction 2; intros c C'' Hn.
  - eapply lrun_ext; eauto; [apply chanEq_sym; auto|apply chanEq_refl].
  - econstructor; eauto.
  - eapply lr_recv; eauto.
  - eapply lr_wait; eauto.
Qed.

Lemma lrun_bind : forall A B N p (a : proc M A) C C' r (K : A -> proc M B) b C'',
  p < N -> lrun N p a C (Ret r) C' -> lrun N p (K r) C' b C'' ->
  lrun N p (bind a K) C b C''.
Proof.
  intros A B N p a C C' r K b C'' Hp H.
  remember (Ret r) as x eqn:Ex. revert Ex.
  induction H; intros Ex Hn; subst.
  - cbn [bind]. eapply lrun_ext; eauto; [apply chanEq_sym; auto|apply chanEq_refl].
  - cbn [bind]. econstructor; eauto.
  - cbn [bind]. eapply lr_recv; eauto.
  - cbn [bind]. eapply lr_wait; eauto.
Qed.

Lemma lrun_cfg : forall R N p (a b : proc M R) C C', p < N -> lrun N p a C b C' ->
  forall f, f p = a -> assuredRun (cfg N f C) (cfg N (fset f p b) C').
Proof.
  induction 2; intros f Hf.
  - rewrite (cfg_ext _ N f (fset f p pr) C C'); [constructor| |exact H0].
    intros i Hi. unfold fset. destruct (Nat.eqb_spec i p); subst; auto.
  - econstructor; [apply (cfg_isend _ N f C p q m k); auto|].
    eapply ar_trans; [apply IHlrun|].
    + unfold fset. now rewrite Nat.eqb_refl.
    + erewrite cfg_ext; [constructor| |apply chanEq_refl].
      intros i Hi. unfold fset. destruct (Nat.eqb i p); auto.
  - econstructor; [apply (cfg_recv _ N f C p q k m rest); auto|].
    eapply ar_trans; [apply IHlrun|].
    + unfold fset. now rewrite Nat.eqb_refl.
    + erewrite cfg_ext; [constructor| |apply chanEq_refl].
      intros i Hi. unfold fset. destruct (Nat.eqb i p); auto.
  - econstructor; [apply (cfg_wait _ N f C p q k); auto|].
    eapply ar_trans; [apply IHlrun|].
    + unfold fset. now rewrite Nat.eqb_refl.
    + erewrite cfg_ext; [constructor| |apply chanEq_refl].
      intros i Hi. unfold fset. destruct (Nat.eqb i p); auto.
Qed.

(** All processes one after the other. *)
Lemma all_local : forall R N (f g : nat -> proc M R) (Cs : nat -> nat -> nat -> list M),
  (forall p, p < N -> lrun N p (f p) (Cs p) (g p) (Cs (S p))) ->
  assuredRun (cfg N f (Cs 0)) (cfg N g (Cs N)).
Proof.
  intros R N f g Cs H.
  assert (G : forall n, n <= N ->
    assuredRun (cfg N f (Cs 0)) (cfg N (fun i => if i <? n then g i else f i) (Cs n))).
  { induction n; intros Hn.
    - erewrite cfg_ext; [constructor| |apply chanEq_refl]. intros i Hi. reflexivity.
    - eapply ar_trans; [apply IHn; lia|].
      pose proof (H n ltac:(lia)) as Hl.
      eapply ar_trans.
      + eapply (lrun_cfg _ N n _ _ _ _ ltac:(lia) Hl (fun i => if i <? n then g i else f i)).
        cbn beta. destruct (Nat.ltb_spec n n); [lia|reflexivity].
      + erewrite cfg_ext; [constructor| |apply chanEq_refl].
        intros i Hi. unfold fset. cbn beta.
        destruct (Nat.eqb_spec i n), (Nat.ltb_spec i n), (Nat.ltb_spec i (S n));
          subst; auto; try lia. }
  eapply ar_trans; [apply (G N); lia|].
  erewrite cfg_ext; [constructor| |apply chanEq_refl].
  intros i Hi. cbn beta. destruct (Nat.ltb_spec i N); auto; lia.
Qed.

(** A loop on one process. *)
Lemma lrun_forEach : forall A S N p (body : A -> S -> proc M S)
    (J : list A -> S -> (nat -> nat -> list M) -> Prop), p < N ->
  (forall x xs s C, J (x :: xs) s C ->
     exists s' C', lrun N p (body x s) C (Ret s') C' /\ J xs s' C') ->
  forall xs s C, J xs s C ->
  exists s' C', lrun N p (forEach xs body s) C (Ret s') C' /\ J [] s' C'.
Proof.
  intros A S N p body J Hp H. induction xs as [|x xs IH]; intros s C HJ.
  - exists s, C. split; [|auto]. cbn. constructor. apply chanEq_refl.
  - destruct (H _ _ _ _ HJ) as (s1 & C1 & H1 & J1).
    destruct (IH _ _ J1) as (s2 & C2 & H2 & J2).
    exists s2, C2. split; [|auto]. cbn [forEach].
    eapply lrun_bind; eauto.
Qed.

End Lemmas.

(* ----- schedules of blocking sends ----- *)

Section Rendezvous.
Context {M : Type}.

Inductive ev : Type :=
| ESend (q : nat) (m : M)
| ERecv (q : nat) (m : M).

(** What one process does. *)
Inductive trace {R} : proc M R -> list ev -> proc M R -> Prop :=
| tr_nil pr : trace pr [] pr
| tr_send q m k es pr' : trace k es pr' -> trace (Send q m k) (ESend q m :: es) pr'
| tr_recv q k m es pr' : trace (k m) es pr' -> trace (Recv q k) (ERecv q m :: es) pr'.

Lemma trace_app : forall R (a b : proc M R) es, trace a es b ->
  forall c es', trace b es' c -> trace a (es ++ es') c.
Proof. induction 1; intros; cbn; auto; [apply tr_send|eapply tr_recv]; auto. Qed.

Lemma trace_bind : forall A B (a : proc M A) es r (K : A -> proc M B) es' b,
  trace a es (Ret r) -> trace (K r) es' b -> trace (bind a K) (es ++ es') b.
Proof.
  intros A B a es r K es' b H. remember (Ret r) as x eqn:Ex. revert Ex.
  induction H; intros Ex Hn; subst; cbn; [auto|apply tr_send; auto|apply tr_recv; auto].
Qed.

(** The part of a list of messages (source, destination, content) a process takes
    part in. *)
Definition proj (p : nat) (G : list (nat * nat * M)) : list ev :=
  flat_map (fun x => match x with (s, d, m) =>
     (if Nat.eqb s p then [ESend d m] else []) ++ (if Nat.eqb d p then [ERecv s m] else [])
   end) G.

Lemma proj_app : forall p G G', proj p (G ++ G') = proj p G ++ proj p G'.
Proof. intros. unfold proj. apply flat_map_app. Qed.

Lemma rendezvous : forall R N C (g : nat -> proc M R) G f,
  (forall s d m, In (s, d, m) G -> s < N /\ d < N /\ s <> d /\ C s d = []) ->
  (forall p, p < N -> trace (f p) (proj p G) (g p)) ->
  assuredRun (cfg N f C) (cfg N g C).
Proof.
  intros R N C g. induction G as [|[[s d] m] G IH]; intros f HG Hf.
  - erewrite cfg_ext; [constructor| |apply chanEq_refl].
    intros p Hp. specialize (Hf p Hp). cbn in Hf. inversion Hf; auto.
  - destruct (HG s d m (or_introl eq_refl)) as (Hs & Hd & Hsd & HC).
    pose proof (Hf s Hs) as Ts. pose proof (Hf d Hd) as Td.
    cbn [proj flat_map] in Ts, Td. fold (proj s G) in Ts. fold (proj d G) in Td.
    rewrite Nat.eqb_refl in Ts. rewrite Nat.eqb_refl in Td.
    destruct (Nat.eqb_spec d s) as [E|_]; [congruence|].
    destruct (Nat.eqb_spec s d) as [E|_]; [congruence|].
    cbn [app] in Ts, Td.
    inversion Ts as [|q0 m0 k es pr' Hk Efs|]; subst.
    inversion Td as [| |q0 k' m0 es pr' Hk' Efd]; subst.
    econstructor.
    { apply (cfg_handshake _ N f C s d m k k'); auto. }
    apply IH.
    + intros s' d' m' Hi. apply (HG s' d' m'). right; auto.
    + intros p Hp. unfold fset.
      destruct (Nat.eqb_spec p d) as [->|Hpd]; [auto|].
      destruct (Nat.eqb_spec p s) as [->|Hps]; [auto|].
      specialize (Hf p Hp). cbn [proj flat_map] in Hf. fold (proj p G) in Hf.
      destruct (Nat.eqb_spec s p) as [E|_]; [congruence|].
      destruct (Nat.eqb_spec d p) as [E|_]; [congruence|].
      exact Hf.
Qed.

End Rendezvous.
