(** * Confluence of the message passing model *)

From Coq Require Import Arith List Bool Lia.
From Verif Require Import MpiModel MpiSpec.
Import ListNotations.

(* ----- lists ----- *)

Lemma upd_length : forall A (l : list A) i x, length (upd l i x) = length l.
Proof. induction l; intros [|i] x; cbn; auto. Qed.

Lemma nth_error_upd_eq : forall A (l : list A) i x,
  i < length l -> nth_error (upd l i x) i = Some x.
Proof.
  induction l; intros [|i] x H; cbn in *; try lia; auto.
  apply IHl; lia.
Qed.

Lemma nth_error_upd_ne : forall A (l : list A) i j x,
  i <> j -> nth_error (upd l i x) j = nth_error l j.
Proof.
  induction l; intros [|i] [|j] x H; cbn; auto; try lia.
Qed.

Lemma nth_upd_eq : forall A (l : list A) i x d,
  i < length l -> nth i (upd l i x) d = x.
Proof.
  induction l; intros [|i] x d H; cbn in *; try lia; auto.
  apply IHl; lia.
Qed.

Lemma nth_upd_ne : forall A (l : list A) i j x d,
  i <> j -> nth j (upd l i x) d = nth j l d.
Proof.
  induction l; intros [|i] [|j] x d H; cbn; auto; try lia.
Qed.

Lemma upd_comm : forall A (l : list A) i j x y,
  i <> j -> upd (upd l i x) j y = upd (upd l j y) i x.
Proof.
  induction l; intros [|i] [|j] x y H; cbn; auto; try lia.
  f_equal. apply IHl. lia.
Qed.

Lemma upd_upd : forall A (l : list A) i x y, upd (upd l i x) i y = upd l i y.
Proof. induction l; intros [|i] x y; cbn; auto. f_equal; auto. Qed.

Lemma upd_same : forall A (l : list A) i x,
  nth_error l i = Some x -> upd l i x = l.
Proof.
  induction l; intros [|i] x H; cbn in *; try discriminate.
  - congruence.
  - f_equal; auto.
Qed.

Lemma upd_same_nth : forall A (l : list A) i d, upd l i (nth i l d) = l.
Proof. induction l; intros [|i] d; cbn; auto. f_equal; auto. Qed.

Lemma upd_map_seq : forall A (f : nat -> A) N p x, p < N ->
  upd (map f (seq 0 N)) p x
  = map (fun i => if Nat.eqb i p then x else f i) (seq 0 N).
Proof.
  intros A f N p x.
  assert (H : forall n b p, p < n ->
    upd (map f (seq b n)) p x
    = map (fun i => if Nat.eqb i (b + p) then x else f i) (seq b n)).
  { induction n; intros b p0 Hp; [lia|].
    destruct p0; cbn [seq map upd].
    - rewrite Nat.add_0_r, Nat.eqb_refl. f_equal.
      apply map_ext_in. intros i Hi. apply in_seq in Hi.
      destruct (Nat.eqb_spec i b); [lia|reflexivity].
    - destruct (Nat.eqb_spec b (b + S p0)); [lia|]. f_equal.
      rewrite IHn by lia. apply map_ext. intros i.
      replace (S b + p0) with (b + S p0) by lia. reflexivity. }
  intros Hp. apply (H N 0 p Hp).
Qed.

Lemma nth_error_map_seq : forall A (f : nat -> A) N p, p < N ->
  nth_error (map f (seq 0 N)) p = Some (f p).
Proof.
  intros A f N p Hp.
  rewrite nth_error_map.
  rewrite (nth_error_nth' (seq 0 N) 0) by (rewrite seq_length; lia).
  rewrite seq_nth by lia. reflexivity.
Qed.

(* ----- well formed states ----- *)

Section Confluence.
Context {M R : Type}.
Implicit Types s t a b c : state M R.

Definition wf s := length (chans s) = size s * size s.

Lemma step_wf : forall s l s', step s l = Some s' -> wf s ->
  wf s' /\ size s' = size s.
Proof.
  unfold wf, size. intros s [p|] s' H W; unfold step in H.
  - destruct (nth_error (procs s) p) as [[r|q m k|q m k|q k|q k|t m k]|]; try discriminate.
    + destruct (q <? size s); [|discriminate]. injection H as <-. cbn [procs chans].
      rewrite !upd_length. auto.
    + destruct (q <? size s); [|discriminate]. injection H as <-. cbn [procs chans].
      rewrite !upd_length. auto.
    + destruct (q <? size s); [|discriminate]. injection H as <-. cbn [procs chans].
      rewrite !upd_length. auto.
    + destruct (q <? size s); [|discriminate].
      destruct (chan s q p); [discriminate|]. injection H as <-. cbn [procs chans].
      rewrite !upd_length. auto.
  - destruct (procs s) as [|[ | | | | |t m k] ps] eqn:E; try discriminate.
    destruct (contributions t (Coll t m k :: ps)); [|discriminate].
    injection H as <-. cbn [procs chans length map] in *.
    rewrite map_length. auto.
Qed.

Lemma chan_idx : forall N p q p' q', q < N -> q' < N ->
  p * N + q = p' * N + q' -> p = p' /\ q = q'.
Proof. intros. assert (p = p') by nia. subst. split; lia. Qed.

Lemma chan_range : forall N p q, p < N -> q < N -> p * N + q < N * N.
Proof. intros. nia. Qed.

Lemma contributions_all : forall (ps : list (proc M R)) (t : nat) ms p pr,
  contributions t ps = Some ms -> nth_error ps p = Some pr ->
  exists m k, pr = Coll t m k.
Proof.
  induction ps as [|x ps IH]; intros t ms p pr H Hn.
  - destruct p; discriminate.
  - destruct x; cbn in H; try discriminate.
    destruct (Nat.eqb_spec t tag); [|discriminate].
    destruct (contributions t ps) eqn:E; [|discriminate].
    destruct p; cbn in Hn.
    + injection Hn as <-. subst. eauto.
    + eapply IH; eauto.
Qed.

Lemma coll_no_local : forall s s' p, step s None = Some s' -> step s (Some p) = None.
Proof.
  intros s s' p H. unfold step in *.
  destruct (procs s) as [|[ | | | | |t m k] ps] eqn:E; try discriminate.
  destruct (contributions t (Coll t m k :: ps)) eqn:Ec; [|discriminate].
  destruct (nth_error (Coll t m k :: ps) p) eqn:En; [|reflexivity].
  destruct (contributions_all _ _ _ _ _ Ec En) as (m' & k' & ->). reflexivity.
Qed.

(** What a local step does to the channels and to the other processes. *)
Lemma local_step : forall s p s', wf s -> step s (Some p) = Some s' ->
  exists pr pr',
    nth_error (procs s) p = Some pr /\ p < size s /\
    procs s' = upd (procs s) p pr' /\
    ((exists q m, q < size s /\ (pr = Send q m pr' \/ pr = Isend q m pr') /\
        chans s' = upd (chans s) (p * size s + q) (chan s p q ++ [m]))
     \/ (exists q, q < size s /\ pr = Wait q pr' /\ chans s' = chans s)
     \/ (exists q k m rest, q < size s /\ pr = Recv q k /\ pr' = k m /\
          chan s q p = m :: rest /\
          chans s' = upd (chans s) (q * size s + p) rest)).
Proof.
  intros s p s' W H. unfold step in H.
  destruct (nth_error (procs s) p) as [pr|] eqn:E; [|discriminate].
  assert (Hp : p < size s) by (apply nth_error_Some; congruence).
  destruct pr as [r|q m k|q m k|q k|q k|t m k]; try discriminate.
  - destruct (q <? size s) eqn:Eq; [|discriminate]. apply Nat.ltb_lt in Eq.
    injection H as <-. exists (Send q m k), k. cbn [procs chans].
    do 3 (split; [auto|]). left. eauto 8.
  - destruct (q <? size s) eqn:Eq; [|discriminate]. apply Nat.ltb_lt in Eq.
    injection H as <-. exists (Isend q m k), k. cbn [procs chans].
    do 3 (split; [auto|]). left. eauto 8.
  - destruct (q <? size s) eqn:Eq; [|discriminate]. apply Nat.ltb_lt in Eq.
    injection H as <-. exists (Wait q k), k. cbn [procs chans].
    do 3 (split; [auto|]). right; left. eauto.
  - destruct (q <? size s) eqn:Eq; [|discriminate]. apply Nat.ltb_lt in Eq.
    destruct (chan s q p) as [|m rest] eqn:Ec; [discriminate|].
    injection H as <-. exists (Recv q k), (k m). cbn [procs chans].
    do 3 (split; [auto|]). right; right. eauto 10.
Qed.

Lemma send_step : forall s p q m k, q < size s ->
  nth_error (procs s) p = Some (Send q m k) \/ nth_error (procs s) p = Some (Isend q m k) ->
  step s (Some p) = Some (mkState (upd (procs s) p k)
                           (upd (chans s) (p * size s + q) (chan s p q ++ [m]))).
Proof.
  intros s p q m k Hq H. apply Nat.ltb_lt in Hq. unfold step.
  destruct H as [-> | ->]; rewrite Hq; reflexivity.
Qed.

Lemma wait_step : forall s p q k, q < size s ->
  nth_error (procs s) p = Some (Wait q k) ->
  step s (Some p) = Some (mkState (upd (procs s) p k) (chans s)).
Proof.
  intros s p q k Hq H. apply Nat.ltb_lt in Hq. unfold step. rewrite H, Hq. reflexivity.
Qed.

Lemma recv_step : forall s p q k m rest, q < size s ->
  nth_error (procs s) p = Some (Recv q k) -> chan s q p = m :: rest ->
  step s (Some p) = Some (mkState (upd (procs s) p (k m))
                           (upd (chans s) (q * size s + p) rest)).
Proof.
  intros s p q k m rest Hq H Hc. apply Nat.ltb_lt in Hq. unfold step.
  rewrite H, Hq, Hc. reflexivity.
Qed.

Lemma size_upd : forall s p pr cs, size (mkState (upd (procs s) p pr) cs) = size s.
Proof. intros. unfold size. cbn [procs]. apply upd_length. Qed.

(** Two different enabled steps do not disturb each other. *)
Lemma commute : forall s l1 l2 a b, wf s -> l1 <> l2 ->
  step s l1 = Some a -> step s l2 = Some b ->
  exists c, step a l2 = Some c /\ step b l1 = Some c.
Proof.
  intros s l1 l2 a b W Hne H1 H2.
  destruct l1 as [p1|]; destruct l2 as [p2|].
  2:{ rewrite (coll_no_local _ _ p1 H2) in H1. discriminate. }
  2:{ rewrite (coll_no_local _ _ p2 H1) in H2. discriminate. }
  2:{ congruence. }
  assert (Hp : p1 <> p2) by congruence. clear Hne.
  pose proof (step_wf _ _ _ H1 W) as [Wa Sa].
  pose proof (step_wf _ _ _ H2 W) as [Wb Sb].
  destruct (local_step _ _ _ W H1) as (pr1 & pr1' & E1 & L1 & P1 & C1).
  destruct (local_step _ _ _ W H2) as (pr2 & pr2' & E2 & L2 & P2 & C2).
  destruct a as [pa ca], b as [pb cb]. cbn [procs chans] in *. subst pa pb.
  assert (E1b : nth_error (upd (procs s) p2 pr2') p1 = Some pr1)
    by (rewrite nth_error_upd_ne by congruence; auto).
  assert (E2a : nth_error (upd (procs s) p1 pr1') p2 = Some pr2)
    by (rewrite nth_error_upd_ne by congruence; auto).
  assert (Hpc : upd (upd (procs s) p1 pr1') p2 pr2' = upd (upd (procs s) p2 pr2') p1 pr1')
    by (apply upd_comm; auto).
  unfold chan in *.
  assert (HN : size s * size s = length (chans s)) by (symmetry; exact W).
  destruct C1 as [(q1 & m1 & Hq1 & D1 & C1)|[(q1 & Hq1 & D1 & C1)|(q1 & k1 & m1 & r1 & Hq1 & D1 & D1' & G1 & C1)]];
  destruct C2 as [(q2 & m2 & Hq2 & D2 & C2)|[(q2 & Hq2 & D2 & C2)|(q2 & k2 & m2 & r2 & Hq2 & D2 & D2' & G2 & C2)]];
  subst ca cb.
  - (* send, send *)
    assert (Hx : p1 * size s + q1 <> p2 * size s + q2)
      by (intros Hx; apply chan_idx in Hx; lia).
    eexists. split.
    + rewrite (send_step _ p2 q2 m2 pr2'); [reflexivity| rewrite size_upd; auto|].
      cbn [procs]. rewrite E2a. destruct D2 as [-> | ->]; auto.
    + rewrite (send_step _ p1 q1 m1 pr1'); [|rewrite size_upd; auto|].
      2:{ cbn [procs]. rewrite E1b. destruct D1 as [-> | ->]; auto. }
      unfold chan. rewrite !size_upd. cbn [procs chans].
      rewrite !nth_upd_ne by congruence. rewrite Hpc.
      rewrite (upd_comm _ (chans s)) by auto. reflexivity.
  - (* send, wait *)
    eexists. split.
    + rewrite (wait_step _ p2 q2 pr2'); [reflexivity|rewrite size_upd; auto|]. cbn [procs]. rewrite E2a, D2; auto.
    + rewrite (send_step _ p1 q1 m1 pr1'); [|rewrite size_upd; auto|].
      2:{ cbn [procs]. rewrite E1b. destruct D1 as [-> | ->]; auto. }
      unfold chan. rewrite !size_upd. cbn [procs chans]. rewrite Hpc. reflexivity.
  - (* send, receive *)
    subst pr2'.
    destruct (Nat.eq_dec (p1 * size s + q1) (q2 * size s + p2)) as [Hx|Hx].
    + apply chan_idx in Hx; auto. destruct Hx; subst q1 q2.
      assert (Hr : p1 * size s + p2 < length (chans s)) by (rewrite <- HN; apply chan_range; auto).
      eexists. split.
      * rewrite (recv_step _ p2 p1 k2 m2 (r2 ++ [m1])); [reflexivity| rewrite size_upd; auto| |].
        { cbn [procs]. rewrite E2a, D2; auto. }
        { unfold chan. rewrite size_upd. cbn [chans]. rewrite nth_upd_eq by auto.
          rewrite G2. reflexivity. }
      * rewrite (send_step _ p1 p2 m1 pr1'); [|rewrite size_upd; auto|].
        2:{ cbn [procs]. rewrite E1b. destruct D1 as [-> | ->]; auto. }
        unfold chan. rewrite !size_upd. cbn [procs chans]. rewrite Hpc.
        rewrite nth_upd_eq by auto. rewrite !upd_upd. reflexivity.
    + eexists. split.
      * rewrite (recv_step _ p2 q2 k2 m2 r2); [reflexivity| rewrite size_upd; auto| |].
        { cbn [procs]. rewrite E2a, D2; auto. }
        { unfold chan. rewrite size_upd. cbn [chans]. rewrite nth_upd_ne by auto. exact G2. }
      * rewrite (send_step _ p1 q1 m1 pr1'); [|rewrite size_upd; auto|].
        2:{ cbn [procs]. rewrite E1b. destruct D1 as [-> | ->]; auto. }
        unfold chan. rewrite !size_upd. cbn [procs chans]. rewrite Hpc.
        rewrite nth_upd_ne by auto. rewrite (upd_comm _ (chans s)) by auto. reflexivity.
  - (* wait, send *)
    eexists. split.
    + rewrite (send_step _ p2 q2 m2 pr2'); [reflexivity| rewrite size_upd; auto|].
      cbn [procs]. rewrite E2a. destruct D2 as [-> | ->]; auto.
    + rewrite (wait_step _ p1 q1 pr1'); [|rewrite size_upd; auto|cbn [procs]; rewrite E1b, D1; auto].
      unfold chan. rewrite !size_upd. cbn [procs chans]. rewrite Hpc. reflexivity.
  - (* wait, wait *)
    eexists. split.
    + rewrite (wait_step _ p2 q2 pr2'); [reflexivity|rewrite size_upd; auto|]. cbn [procs]. rewrite E2a, D2; auto.
    + rewrite (wait_step _ p1 q1 pr1'); [|rewrite size_upd; auto|cbn [procs]; rewrite E1b, D1; auto].
      cbn [procs chans]. rewrite Hpc. reflexivity.
  - (* wait, receive *)
    subst pr2'.
    eexists. split.
    + rewrite (recv_step _ p2 q2 k2 m2 r2); [reflexivity| rewrite size_upd; auto| |].
      { cbn [procs]. rewrite E2a, D2; auto. }
      { unfold chan. rewrite size_upd. cbn [chans]. exact G2. }
    + rewrite (wait_step _ p1 q1 pr1'); [|rewrite size_upd; auto|cbn [procs]; rewrite E1b, D1; auto].
      cbn [procs chans]. rewrite size_upd. rewrite Hpc. reflexivity.
  - (* receive, send *)
    subst pr1'.
    destruct (Nat.eq_dec (p2 * size s + q2) (q1 * size s + p1)) as [Hx|Hx].
    + apply chan_idx in Hx; auto. destruct Hx; subst q1 q2.
      assert (Hr : p2 * size s + p1 < length (chans s)) by (rewrite <- HN; apply chan_range; auto).
      eexists. split.
      * rewrite (send_step _ p2 p1 m2 pr2'); [reflexivity|rewrite size_upd; auto|].
        cbn [procs]. rewrite E2a. destruct D2 as [-> | ->]; auto.
      * rewrite (recv_step _ p1 p2 k1 m1 (r1 ++ [m2])); [| rewrite size_upd; auto| |].
        { unfold chan. rewrite !size_upd. cbn [procs chans]. rewrite Hpc.
          rewrite nth_upd_eq by auto. rewrite !upd_upd. reflexivity. }
        { cbn [procs]. rewrite E1b, D1; auto. }
        { unfold chan. rewrite size_upd. cbn [chans]. rewrite nth_upd_eq by auto.
          rewrite G1. reflexivity. }
    + eexists. split.
      * rewrite (send_step _ p2 q2 m2 pr2'); [reflexivity|rewrite size_upd; auto|].
        cbn [procs]. rewrite E2a. destruct D2 as [-> | ->]; auto.
      * rewrite (recv_step _ p1 q1 k1 m1 r1); [| rewrite size_upd; auto| |].
        { unfold chan. rewrite !size_upd. cbn [procs chans]. rewrite Hpc.
          rewrite nth_upd_ne by auto. rewrite (upd_comm _ (chans s)) by auto. reflexivity. }
        { cbn [procs]. rewrite E1b, D1; auto. }
        { unfold chan. rewrite size_upd. cbn [chans]. rewrite nth_upd_ne by auto. exact G1. }
  - (* receive, wait *)
    subst pr1'.
    eexists. split.
    + rewrite (wait_step _ p2 q2 pr2'); [reflexivity|rewrite size_upd; auto|]. cbn [procs]. rewrite E2a, D2; auto.
    + rewrite (recv_step _ p1 q1 k1 m1 r1); [| rewrite size_upd; auto| |].
      { cbn [procs chans]. rewrite size_upd. rewrite Hpc. reflexivity. }
      { cbn [procs]. rewrite E1b, D1; auto. }
      { unfold chan. rewrite size_upd. cbn [chans]. exact G1. }
  - (* receive, receive *)
    subst pr1' pr2'.
    assert (Hx : q1 * size s + p1 <> q2 * size s + p2)
      by (intros Hx; apply chan_idx in Hx; lia).
    eexists. split.
    + rewrite (recv_step _ p2 q2 k2 m2 r2); [reflexivity| rewrite size_upd; auto| |].
      { cbn [procs]. rewrite E2a, D2; auto. }
      { unfold chan. rewrite size_upd. cbn [chans]. rewrite nth_upd_ne by auto. exact G2. }
    + rewrite (recv_step _ p1 q1 k1 m1 r1); [| rewrite size_upd; auto| |].
      { cbn [procs chans]. rewrite !size_upd. rewrite Hpc.
        rewrite (upd_comm _ (chans s)) by auto. reflexivity. }
      { cbn [procs]. rewrite E1b, D1; auto. }
      { unfold chan. rewrite size_upd. cbn [chans]. rewrite nth_upd_ne by auto. exact G1. }
Qed.

Lemma run_wf : forall s ls t, run s ls t -> wf s -> wf t /\ size t = size s.
Proof.
  induction 1; intros W; [auto|].
  destruct (step_wf _ _ _ H W) as [W' S']. destruct (IHrun W') as [W'' S''].
  split; congruence.
Qed.

Lemma run_app : forall s ls t ls' u, run s ls t -> run t ls' u -> run s (ls ++ ls') u.
Proof. induction 1; intros; cbn; [auto|]. econstructor; eauto. Qed.

(** A step that is possible stays possible until it is taken ... *)
Lemma stays : forall s ls t, run s ls t -> wf s -> forall l a,
  step s l = Some a -> ~ In l ls -> exists c, step t l = Some c /\ run a ls c.
Proof.
  induction 1 as [s|s l0 s' ls t H Hr IH]; intros W l a Ha Hn.
  - exists a. split; [auto|constructor].
  - assert (Hne : l <> l0) by (intros ->; apply Hn; left; auto).
    destruct (commute _ _ _ _ _ W Hne Ha H) as (c & Hc1 & Hc2).
    destruct (IH (proj1 (step_wf _ _ _ H W)) l c Hc2) as (d & Hd & Hrd).
    { intros Hi; apply Hn; right; auto. }
    exists d. split; auto. econstructor; eauto.
Qed.

(** ... and can be taken first. *)
Lemma first : forall ls s t l a, run s ls t -> wf s ->
  step s l = Some a -> In l ls ->
  exists ls1 ls2, ls = ls1 ++ l :: ls2 /\ ~ In l ls1 /\ run a (ls1 ++ ls2) t.
Proof.
  induction ls as [|l0 ls IH]; intros s t l a Hr W Ha Hi; [destruct Hi|].
  inversion Hr as [|? ? s' ? ? H Hr']; subst.
  assert (Hd : l = l0 \/ l <> l0).
  { destruct l as [x|], l0 as [y|]; try (left; congruence); try (right; congruence).
    destruct (Nat.eq_dec x y); [left|right]; congruence. }
  destruct Hd as [<-|Hne].
  - exists [], ls. cbn. split; [auto|]. split; [auto|]. congruence.
  - destruct Hi as [Hi|Hi]; [congruence|].
    destruct (commute _ _ _ _ _ W Hne Ha H) as (c & Hc1 & Hc2).
    destruct (IH _ _ _ _ Hr' (proj1 (step_wf _ _ _ H W)) Hc2 Hi) as (l1 & l2 & -> & Hn & Hrc).
    exists (l0 :: l1), l2. split; [reflexivity|]. split.
    + intros [Hx|Hx]; [congruence|auto].
    + cbn. econstructor; eauto.
Qed.

Lemma label_dec : forall (l : option nat) ls, In l ls \/ ~ In l ls.
Proof.
  intros l ls. destruct (in_dec (fun a b : option nat => ltac:(decide equality; apply Nat.eq_dec)) l ls); auto.
Qed.

(** If one execution comes to an end, then all executions lead there. *)
Lemma confluent : forall ls' s u, run s ls' u -> wf s -> forall ls t,
  run s ls t -> (forall l, step t l = None) ->
  exists ls'', run u ls'' t /\ length ls = length ls' + length ls''.
Proof.
  induction 1 as [s|s l s' ls' u H Hr IH]; intros W ls t Ht Hf.
  - exists ls. auto.
  - destruct (label_dec l ls) as [Hi|Hi].
    + destruct (first _ _ _ _ _ Ht W H Hi) as (l1 & l2 & -> & _ & Hr').
      destruct (IH (proj1 (step_wf _ _ _ H W)) _ _ Hr' Hf) as (l3 & Hr3 & Hl).
      exists l3. split; auto. rewrite app_length in *. cbn in *. lia.
    + destruct (stays _ _ _ Ht W _ _ H Hi) as (c & Hc & _). rewrite Hf in Hc. discriminate.
Qed.

(* ----- progress without buffering ----- *)

Lemma assured_run : forall s s', wf s -> assured s s' -> exists ls, run s ls s' /\ ls <> [].
Proof.
  intros s s' W [p q m k k' Hp Hq Hc|p q m k s'' _ Hs|p q k s'' _ Hs|p q k s'' _ _ Hs|s'' Hs].
  2-5: eexists; split; [econstructor; [exact Hs|constructor]|discriminate].
  assert (Lp : p < size s) by (apply nth_error_Some; congruence).
  assert (Lq : q < size s) by (apply nth_error_Some; congruence).
  assert (Hpq : p <> q) by (intros ->; congruence).
  assert (Hr : p * size s + q < length (chans s)) by (rewrite W; apply chan_range; auto).
  exists [Some p; Some q]. split; [|discriminate].
  econstructor; [apply (send_step _ _ q m k); auto|].
  econstructor; [|constructor].
  rewrite (recv_step _ q p k' m []).
  - cbn [procs chans]. rewrite size_upd, upd_upd.
    replace (upd (chans s) (p * size s + q) []) with (chans s); [reflexivity|].
    rewrite <- Hc. unfold chan. symmetry. apply upd_same_nth.
  - rewrite size_upd; auto.
  - cbn [procs]. rewrite nth_error_upd_ne by auto. exact Hq.
  - unfold chan. rewrite size_upd. cbn [chans]. rewrite nth_upd_eq by auto.
    unfold chan in Hc. rewrite Hc. reflexivity.
Qed.

Lemma assuredRun_run : forall s t, assuredRun s t -> wf s -> exists ls, run s ls t.
Proof.
  induction 1 as [s|s s' t H Hr IH]; intros W.
  - exists []. constructor.
  - destruct (assured_run _ _ W H) as (l1 & H1 & _).
    destruct (IH (proj1 (run_wf _ _ _ H1 W))) as (l2 & H2).
    exists (l1 ++ l2). eapply run_app; eauto.
Qed.

Definition isColl (pr : proc M R) : Prop := match pr with Coll _ _ _ => True | _ => False end.

(** A process that does not take a step stays where it is, and so do the messages
    it sent to a process that does not take a step. *)
Lemma frozen : forall s ls t, run s ls t -> wf s -> forall p pr,
  nth_error (procs s) p = Some pr -> ~ isColl pr -> ~ In (Some p) ls ->
  nth_error (procs t) p = Some pr.
Proof.
  induction 1 as [s|s l s' ls t H Hr IH]; intros W p pr Hp Hc Hn; [auto|].
  apply IH; auto.
  - apply (step_wf _ _ _ H W).
  - destruct l as [p'|].
    + assert (p <> p') by (intros ->; apply Hn; left; auto).
      destruct (local_step _ _ _ W H) as (x & x' & _ & _ & P & _).
      rewrite P, nth_error_upd_ne by auto. exact Hp.
    + exfalso. unfold step in H.
      destruct (procs s) as [|[ | | | | |tg m k] ps] eqn:E; try discriminate.
      destruct (contributions tg (Coll tg m k :: ps)) eqn:Ec; [|discriminate].
      destruct (contributions_all _ _ _ _ _ Ec Hp) as (m' & k' & ->). apply Hc; exact I.
  - intros Hi; apply Hn; right; auto.
Qed.

Lemma frozen_chan : forall s ls t, run s ls t -> wf s -> forall p q pr,
  nth_error (procs s) p = Some pr -> ~ isColl pr -> ~ In (Some p) ls ->
  q < size s -> chan s p q = [] -> chan t p q = [].
Proof.
  induction 1 as [s|s l s' ls t H Hr IH]; intros W p q pr Hp Hc Hn Hq He; [auto|].
  pose proof (step_wf _ _ _ H W) as [W' S'].
  assert (Hn' : ~ In (Some p) ls) by (intros Hi; apply Hn; right; auto).
  assert (Hp' : nth_error (procs s') p = Some pr).
  { eapply (frozen s [l] s'); eauto.
    - econstructor; [exact H|constructor].
    - intros [Hx|[]]. apply Hn. left; auto. }
  eapply IH; eauto; [lia|].
  destruct l as [p'|].
  - assert (Hne : p <> p') by (intros ->; apply Hn; left; auto).
    destruct (local_step _ _ _ W H) as (x & x' & _ & Lp' & P & C).
    unfold chan in *. rewrite S'.
    destruct C as [(q' & m & Lq & _ & C)|[(q' & _ & _ & C)|(q' & k & m & rest & Lq & _ & _ & G & C)]];
      rewrite C.
    + rewrite nth_upd_ne; auto. intros Hx; apply chan_idx in Hx; auto; lia.
    + exact He.
    + destruct (Nat.eq_dec (q' * size s + p') (p * size s + q)) as [Hx|Hx].
      * rewrite Hx in G. congruence.
      * rewrite nth_upd_ne; auto.
  - exfalso. unfold step in H.
    destruct (procs s) as [|[ | | | | |tg m k] ps] eqn:E; try discriminate.
    destruct (contributions tg (Coll tg m k :: ps)) eqn:Ec; [|discriminate].
    destruct (contributions_all _ _ _ _ _ Ec Hp) as (m' & k' & ->). apply Hc; exact I.
Qed.

(** A process waiting for a message of a process that does nothing cannot go on. *)
Lemma blocked : forall s ls t, run s ls t -> wf s -> forall p q pr k',
  nth_error (procs s) p = Some pr -> ~ isColl pr -> ~ In (Some p) ls ->
  nth_error (procs s) q = Some (Recv p k') -> chan s p q = [] -> ~ In (Some q) ls.
Proof.
  induction 1 as [s|s l s' ls t H Hr IH]; intros W p q pr k' Hp Hc Hn Hq He; [auto|].
  pose proof (step_wf _ _ _ H W) as [W' S'].
  assert (Hn' : ~ In (Some p) ls) by (intros Hi; apply Hn; right; auto).
  assert (Lq : q < size s) by (apply nth_error_Some; congruence).
  assert (Hlq : l <> Some q).
  { intros ->. unfold step in H. rewrite Hq in H. rewrite He in H.
    destruct (p <? size s); discriminate. }
  assert (H1 : run s [l] s') by (econstructor; [exact H|constructor]).
  assert (Hnl : ~ In (Some p) [l]).
  { intros [Hx|[]]. apply Hn. left; auto. }
  intros [Hx|Hx]; [congruence|]. revert Hx.
  eapply (IH W' p q pr k'); auto.
  - apply (frozen s [l] s' H1 W p pr); auto.
  - apply (frozen s [l] s' H1 W q (Recv p k')); auto.
    intros [Hx|[]]; congruence.
  - apply (frozen_chan s [l] s' H1 W p q pr); auto.
Qed.

Lemma assured_progress : forall s t, assuredRun s t -> wf s ->
  forall ls u, run s ls u -> (forall l, step t l = None) ->
  u = t \/ exists u', assured u u'.
Proof.
  induction 1 as [s|s s' t H Hr IH]; intros W ls u Hu Hf.
  - left. inversion Hu; subst; auto. rewrite Hf in H. discriminate.
  - destruct H as [p q m k k' Hp Hq Hc|p q m k s'' Hp Hs|p q k s'' Hp Hs|p q k s'' Hp Hc Hs|s'' Hs].
    + (* handshake *)
      assert (Lp : p < size s) by (apply nth_error_Some; congruence).
      assert (Lq : q < size s) by (apply nth_error_Some; congruence).
      assert (Hpq : p <> q) by (intros ->; congruence).
      assert (Hrg : p * size s + q < length (chans s)) by (rewrite W; apply chan_range; auto).
      pose proof (send_step s p q m k Lq (or_introl Hp)) as Hsp.
      destruct (label_dec (Some p) ls) as [Hip|Hip].
      * destruct (first _ _ _ _ _ Hu W Hsp Hip) as (l1 & l2 & -> & Hn1 & Hra).
        set (a := mkState (upd (procs s) p k) (upd (chans s) (p * size s + q) (chan s p q ++ [m]))) in *.
        pose proof (step_wf _ _ _ Hsp W) as [Wa Sa].
        assert (Hqa : nth_error (procs a) q = Some (Recv p k')).
        { unfold a. cbn [procs]. rewrite nth_error_upd_ne by auto. exact Hq. }
        assert (Hca : chan a p q = [m]).
        { unfold chan. rewrite Sa. unfold a. cbn [chans].
          rewrite nth_upd_eq by auto. rewrite Hc. reflexivity. }
        assert (Hrq := recv_step a q p k' m [] (eq_rect_r (fun n => p < n) Lp Sa) Hqa Hca).
        destruct (label_dec (Some q) (l1 ++ l2)) as [Hiq|Hiq].
        -- destruct (first _ _ _ _ _ Hra Wa Hrq Hiq) as (l3 & l4 & E & _ & Hrb).
           assert (Eb : mkState (upd (procs a) q (k' m)) (upd (chans a) (p * size a + q) [])
                        = mkState (upd (upd (procs s) p k) q (k' m)) (chans s)).
           { rewrite Sa. unfold a. cbn [procs chans]. rewrite upd_upd. f_equal.
             rewrite <- Hc. unfold chan. apply upd_same_nth. }
           rewrite Eb in Hrb. eapply IH; eauto.
           rewrite <- Eb. apply (step_wf _ _ _ Hrq Wa).
        -- destruct (stays _ _ _ Hra Wa _ _ Hrq Hiq) as (c & Hc' & _).
           right. exists c. apply (assured_recv u q p k'); auto.
           apply (frozen _ _ _ Hra Wa); auto.
      * assert (Hiq : ~ In (Some q) ls).
        { eapply (blocked _ _ _ Hu W p q); eauto. }
        right. eexists. apply (assured_handshake u p q m k k').
        -- apply (frozen _ _ _ Hu W); auto.
        -- apply (frozen _ _ _ Hu W); auto.
        -- eapply (frozen_chan _ _ _ Hu W); eauto.
    + destruct (label_dec (Some p) ls) as [Hip|Hip].
      * destruct (first _ _ _ _ _ Hu W Hs Hip) as (l1 & l2 & -> & _ & Hra).
        eapply IH; eauto. apply (step_wf _ _ _ Hs W).
      * destruct (stays _ _ _ Hu W _ _ Hs Hip) as (c & Hc' & _).
        right. exists c. apply (assured_isend u p q m k); auto.
        apply (frozen _ _ _ Hu W); auto.
    + destruct (label_dec (Some p) ls) as [Hip|Hip].
      * destruct (first _ _ _ _ _ Hu W Hs Hip) as (l1 & l2 & -> & _ & Hra).
        eapply IH; eauto. apply (step_wf _ _ _ Hs W).
      * destruct (stays _ _ _ Hu W _ _ Hs Hip) as (c & Hc' & _).
        right. exists c. apply (assured_recv u p q k); auto.
        apply (frozen _ _ _ Hu W); auto.
    + destruct (label_dec (Some p) ls) as [Hip|Hip].
      * destruct (first _ _ _ _ _ Hu W Hs Hip) as (l1 & l2 & -> & _ & Hra).
        eapply IH; eauto. apply (step_wf _ _ _ Hs W).
      * destruct (stays _ _ _ Hu W _ _ Hs Hip) as (c & Hc' & _).
        right. exists c.
        assert (Hup : nth_error (procs u) p = Some (Wait q k))
          by (apply (frozen _ _ _ Hu W); auto).
        assert (Lq : q < size s).
        { unfold step in Hs. rewrite Hp in Hs. destruct (q <? size s) eqn:E; [|discriminate].
          apply Nat.ltb_lt in E. exact E. }
        apply (assured_wait u p q k); auto.
        eapply (frozen_chan _ _ _ Hu W); eauto.
    + destruct (label_dec None ls) as [Hip|Hip].
      * destruct (first _ _ _ _ _ Hu W Hs Hip) as (l1 & l2 & -> & _ & Hra).
        eapply IH; eauto. apply (step_wf _ _ _ Hs W).
      * destruct (stays _ _ _ Hu W _ _ Hs Hip) as (c & Hc' & _).
        right. exists c. apply (assured_coll u); auto.
Qed.
End Confluence.
