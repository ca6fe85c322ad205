(** * Non-blocking exchanges

    Every process first posts its sends, then receives, then waits for its sends. *)

From Coq Require Import Arith List Bool Lia.
From Verif Require Import MpiModel MpiSpec MpiProofs MpiLemmas.
Import ListNotations.

Section Exchange.
Context {M : Type}.

Inductive aev : Type :=
| AIsend (q : nat) (m : M)
| ARecv (q : nat) (m : M)
| AWait (q : nat).

(** What one process does. *)
Inductive atrace {R} : proc M R -> list aev -> proc M R -> Prop :=
| at_nil pr : atrace pr [] pr
| at_isend q m k es pr' : atrace k es pr' -> atrace (Isend q m k) (AIsend q m :: es) pr'
| at_recv q k m es pr' : atrace (k m) es pr' -> atrace (Recv q k) (ARecv q m :: es) pr'
| at_wait q k es pr' : atrace k es pr' -> atrace (Wait q k) (AWait q :: es) pr'.

Lemma atrace_app : forall R (a b : proc M R) es, atrace a es b ->
  forall c es', atrace b es' c -> atrace a (es ++ es') c.
Proof.
  induction 1; intros; cbn; auto; [apply at_isend|apply at_recv|apply at_wait]; auto.
Qed.

Lemma atrace_bind : forall A B (a : proc M A) es r (K : A -> proc M B) es' b,
  atrace a es (Ret r) -> atrace (K r) es' b -> atrace (bind a K) (es ++ es') b.
Proof.
  intros A B a es r K es' b H. remember (Ret r) as x eqn:Ex. revert Ex.
  induction H; intros Ex Hn; subst; cbn;
    [auto|apply at_isend; auto|apply at_recv; auto|apply at_wait; auto].
Qed.

(** A loop, with the events and the state after every iteration. *)
Lemma atrace_forEach : forall A (S : Type) (xs : list A) (body : A -> S -> proc M S)
    (evs : A -> list aev) (f : S -> A -> S) (I : list A -> S -> Prop) s0,
  I [] s0 ->
  (forall x pre post s, xs = pre ++ x :: post -> I pre s ->
     atrace (body x s) (evs x) (Ret (f s x)) /\ I (pre ++ [x]) (f s x)) ->
  atrace (forEach xs body s0) (flat_map evs xs) (Ret (fold_left f xs s0)).
Proof.
  intros A S xs body evs f I s0 H0 H.
  assert (G : forall post pre s, xs = pre ++ post -> I pre s ->
            atrace (forEach post body s) (flat_map evs post) (Ret (fold_left f post s))).
  { induction post as [|x post IH]; intros pre s E HI.
    - cbn. constructor.
    - cbn [forEach flat_map fold_left]. destruct (H x pre post s E HI) as [Ht HI'].
      eapply atrace_bind; [exact Ht|].
      apply (IH (pre ++ [x])); auto. rewrite <- app_assoc. exact E. }
  apply (G xs []); auto.
Qed.

Fixpoint after {R} (pr : proc M R) (es : list aev) : proc M R :=
  match es with
  | [] => pr
  | e :: es' =>
      after (match pr, e with
             | Isend _ _ k, _ => k
             | Recv _ k, ARecv _ m => k m
             | Wait _ k, _ => k
             | _, _ => pr
             end) es'
  end.

Lemma atrace_split : forall R es es' (a c : proc M R), atrace a (es ++ es') c ->
  atrace a es (after a es) /\ atrace (after a es) es' c.
Proof.
  intros R. induction es as [|e es IH]; intros es' a c H; [cbn in *; split; [constructor|auto]|].
  cbn [app] in H. inversion H; subst; cbn [after].
  - match goal with K : atrace _ (es ++ es') _ |- _ => destruct (IH _ _ _ K) end. split; [apply at_isend; auto|auto].
  - match goal with K : atrace _ (es ++ es') _ |- _ => destruct (IH _ _ _ K) end. split; [apply at_recv; auto|auto].
  - match goal with K : atrace _ (es ++ es') _ |- _ => destruct (IH _ _ _ K) end. split; [apply at_wait; auto|auto].
Qed.

Definition sentTo (q : nat) (es : list aev) : list M :=
  flat_map (fun e => match e with AIsend q' m => if Nat.eqb q' q then [m] else [] | _ => [] end) es.

Definition gotFrom (q : nat) (es : list aev) : list M :=
  flat_map (fun e => match e with ARecv q' m => if Nat.eqb q' q then [m] else [] | _ => [] end) es.

Lemma sends_lrun : forall R N p es (a b : proc M R) C, p < N ->
  (forall e, In e es -> exists q m, e = AIsend q m /\ q < N) ->
  atrace a es b ->
  lrun N p a C b (fun i j => if Nat.eqb i p then C i j ++ sentTo j es else C i j).
Proof.
  intros R N p. induction es as [|e es IH]; intros a b C Hp He H.
  - inversion H; subst. constructor. intros i j _ _.
    destruct (Nat.eqb i p); [cbn; now rewrite app_nil_r|reflexivity].
  - destruct (He e (or_introl eq_refl)) as (q & m & -> & Hq). inversion H; subst.
    apply lr_isend; [auto|].
    eapply lrun_ext; [auto|apply (IH _ _ (cset C p q (C p q ++ [m])) Hp); [|eauto]| |].
    + intros e He'. apply He. right; auto.
    + apply chanEq_refl.
    + intros i j Hi Hj. unfold cset. cbn [sentTo flat_map]. fold (sentTo j es).
      destruct (Nat.eqb_spec i p) as [->|]; [|reflexivity].
      rewrite (Nat.eqb_sym q j). destruct (Nat.eqb_spec j q) as [->|]; cbn [andb]; [|reflexivity].
      now rewrite <- app_assoc.
Qed.

Lemma recvs_lrun : forall R N p es (a b : proc M R) C, p < N ->
  (forall e, In e es -> exists q m, e = ARecv q m /\ q < N) ->
  (forall q, q < N -> C q p = gotFrom q es) ->
  atrace a es b ->
  lrun N p a C b (fun i j => if Nat.eqb j p then [] else C i j).
Proof.
  intros R N p. induction es as [|e es IH]; intros a b C Hp He HC H.
  - inversion H; subst. constructor. intros i j Hi Hj.
    destruct (Nat.eqb_spec j p) as [->|]; [rewrite HC by auto; reflexivity|reflexivity].
  - destruct (He e (or_introl eq_refl)) as (q & m & -> & Hq). inversion H; subst.
    apply (lr_recv N p q k m (gotFrom q es)); [auto| |].
    + rewrite HC by auto. cbn [gotFrom flat_map]. rewrite Nat.eqb_refl. reflexivity.
    + eapply lrun_ext; [auto|apply (IH _ _ (cset C q p (gotFrom q es)) Hp); [| |eauto]| |].
      * intros e He'. apply He. right; auto.
      * intros q' Hq'. unfold cset. rewrite Nat.eqb_refl, andb_true_r.
        destruct (Nat.eqb_spec q' q) as [->|Hne]; [reflexivity|].
        rewrite HC by auto. cbn [gotFrom flat_map]. fold (gotFrom q' es).
        destruct (Nat.eqb_spec q q'); [congruence|reflexivity].
      * apply chanEq_refl.
      * intros i j Hi Hj. unfold cset. destruct (Nat.eqb_spec j p) as [->|]; [reflexivity|].
        now rewrite andb_false_r.
Qed.

Lemma waits_lrun : forall R N p es (a b : proc M R) C, p < N ->
  (forall e, In e es -> exists q, e = AWait q /\ q < N) ->
  (forall q, q < N -> C p q = []) ->
  atrace a es b -> lrun N p a C b C.
Proof.
  intros R N p. induction es as [|e es IH]; intros a b C Hp He HC H.
  - inversion H; subst. constructor. apply chanEq_refl.
  - destruct (He e (or_introl eq_refl)) as (q & -> & Hq). inversion H; subst.
    apply lr_wait; auto. apply IH; auto. intros e He'. apply He. right; auto.
Qed.

(** An exchange works if every process receives from every other one exactly what that
    one sends to it. *)
Theorem exchange : forall R N (f g : nat -> proc M R) (S T W : nat -> list aev),
  (forall p, p < N -> atrace (f p) (S p ++ T p ++ W p) (g p)) ->
  (forall p e, p < N -> In e (S p) -> exists q m, e = AIsend q m /\ q < N) ->
  (forall p e, p < N -> In e (T p) -> exists q m, e = ARecv q m /\ q < N) ->
  (forall p e, p < N -> In e (W p) -> exists q, e = AWait q /\ q < N) ->
  (forall p q, p < N -> q < N -> gotFrom p (T q) = sentTo q (S p)) ->
  assuredRun (cfg N f noMsg) (cfg N g noMsg).
Proof.
  intros R N f g S T W Ht HS HT HW HM.
  set (f1 := fun p => after (f p) (S p)).
  set (f2 := fun p => after (f1 p) (T p)).
  assert (H1 : forall p, p < N -> atrace (f p) (S p) (f1 p) /\ atrace (f1 p) (T p ++ W p) (g p))
    by (intros p Hp; apply atrace_split; auto).
  assert (H2 : forall p, p < N -> atrace (f1 p) (T p) (f2 p) /\ atrace (f2 p) (W p) (g p))
    by (intros p Hp; apply atrace_split; apply H1; auto).
  set (C1 := fun i j => sentTo j (S i)).
  apply (ar_trans R _ (cfg N f1 C1)).
  { eapply ar_trans.
    - apply (all_local R N f f1 (fun n i j => if i <? n then sentTo j (S i) else [])).
      intros p Hp. eapply lrun_ext; [auto|eapply sends_lrun with (es := S p); [auto|intros e; apply HS; auto|apply H1; auto]| |].
      + apply chanEq_refl.
      + intros i j Hi Hj. cbn beta.
        destruct (Nat.eqb_spec i p) as [->|Hne].
        * destruct (Nat.ltb_spec p p); [lia|]. destruct (Nat.ltb_spec p (Datatypes.S p)); [reflexivity|lia].
        * destruct (Nat.ltb_spec i p); destruct (Nat.ltb_spec i (Datatypes.S p)); try lia; reflexivity.
    - erewrite cfg_ext; [constructor|auto|].
      intros i j Hi Hj. cbn beta. unfold C1. destruct (Nat.ltb_spec i N); [reflexivity|lia]. }
  apply (ar_trans R _ (cfg N f2 noMsg)).
  { eapply ar_trans.
    - erewrite (cfg_ext R N f1 f1 C1); [|auto|].
      apply (all_local R N f1 f2 (fun n i j => if j <? n then [] else C1 i j)).
      + intros p Hp. eapply lrun_ext; [auto|eapply recvs_lrun with (es := T p); [auto|intros e; apply HT; auto| |apply H2; auto]| |].
        * intros q Hq. instantiate (1 := fun i j => if j <? p then [] else C1 i j). cbn beta.
          destruct (Nat.ltb_spec p p); [lia|]. unfold C1. symmetry. apply HM; auto.
        * apply chanEq_refl.
        * intros i j Hi Hj. cbn beta.
          destruct (Nat.eqb_spec j p) as [->|Hne].
          -- destruct (Nat.ltb_spec p (Datatypes.S p)); [reflexivity|lia].
          -- destruct (Nat.ltb_spec j p); destruct (Nat.ltb_spec j (Datatypes.S p)); try lia; reflexivity.
      + intros i j Hi Hj. reflexivity.
    - erewrite cfg_ext; [constructor|auto|].
      intros i j Hi Hj. cbn beta. unfold noMsg. destruct (Nat.ltb_spec j N); [reflexivity|lia]. }
  apply (all_local R N f2 g (fun _ => noMsg)).
  intros p Hp. eapply waits_lrun with (es := W p); [auto|intros e; apply HW; auto|auto|apply H2; auto].
Qed.

(* ----- loops over peers ----- *)

Lemma sentTo_peers : forall (ms : nat -> list M) q ps, NoDup ps ->
  sentTo q (flat_map (fun r => map (AIsend r) (ms r)) ps) = if in_dec Nat.eq_dec q ps then ms q else [].
Proof.
  intros ms q. induction ps as [|r ps IH]; intros H; [reflexivity|].
  inversion H as [|? ? Hn Hd]; subst. cbn [flat_map]. unfold sentTo in *. rewrite flat_map_app, IH by auto.
  assert (E : forall l, flat_map (fun e => match e with AIsend q' m => if Nat.eqb q' q then [m] else [] | _ => [] end)
                   (map (AIsend r) l) = if Nat.eqb r q then l else []).
  { induction l as [|x l IHl]; [destruct (Nat.eqb r q); reflexivity|]. cbn [map flat_map]. rewrite IHl.
    destruct (Nat.eqb r q); reflexivity. }
  rewrite E. destruct (Nat.eqb_spec r q) as [->|Hne].
  - destruct (in_dec Nat.eq_dec q ps); [contradiction|].
    destruct (in_dec Nat.eq_dec q (q :: ps)) as [|K]; [apply app_nil_r|exfalso; apply K; left; auto].
  - cbn [app]. destruct (in_dec Nat.eq_dec q ps) as [K|K]; destruct (in_dec Nat.eq_dec q (r :: ps)) as [L|L]; auto.
    + exfalso. apply L. right; auto.
    + destruct L as [L|L]; [congruence|contradiction].
Qed.

Lemma gotFrom_peers : forall (ms : nat -> list M) q ps, NoDup ps ->
  gotFrom q (flat_map (fun r => map (ARecv r) (ms r)) ps) = if in_dec Nat.eq_dec q ps then ms q else [].
Proof.
  intros ms q. induction ps as [|r ps IH]; intros H; [reflexivity|].
  inversion H as [|? ? Hn Hd]; subst. cbn [flat_map]. unfold gotFrom in *. rewrite flat_map_app, IH by auto.
  assert (E : forall l, flat_map (fun e => match e with ARecv q' m => if Nat.eqb q' q then [m] else [] | _ => [] end)
                   (map (ARecv r) l) = if Nat.eqb r q then l else []).
  { induction l as [|x l IHl]; [destruct (Nat.eqb r q); reflexivity|]. cbn [map flat_map]. rewrite IHl.
    destruct (Nat.eqb r q); reflexivity. }
  rewrite E. destruct (Nat.eqb_spec r q) as [->|Hne].
  - destruct (in_dec Nat.eq_dec q ps); [contradiction|].
    destruct (in_dec Nat.eq_dec q (q :: ps)) as [|K]; [apply app_nil_r|exfalso; apply K; left; auto].
  - cbn [app]. destruct (in_dec Nat.eq_dec q ps) as [K|K]; destruct (in_dec Nat.eq_dec q (r :: ps)) as [L|L]; auto.
    + exfalso. apply L. right; auto.
    + destruct L as [L|L]; [congruence|contradiction].
Qed.

(** The peers of all processes: symmetric, each once. *)
Record symmetric (N : nat) (peers : nat -> list nat) : Prop := {
  sy_range : forall p q, p < N -> In q (peers p) -> q < N /\ q <> p;
  sy_once : forall p, p < N -> NoDup (peers p);
  sy_sym : forall p q, p < N -> In q (peers p) -> In p (peers q)
}.

(** An exchange with all peers: [msgs p q] goes from p to q. *)
Theorem exchange_peers : forall R N peers (msgs : nat -> nat -> list M)
    (f g : nat -> proc M R),
  symmetric N peers ->
  (forall p, p < N -> atrace (f p)
      (flat_map (fun q => map (AIsend q) (msgs p q)) (peers p)
       ++ flat_map (fun q => map (ARecv q) (msgs q p)) (peers p)
       ++ flat_map (fun q => map AWait (repeat q (length (msgs p q)))) (peers p)) (g p)) ->
  assuredRun (cfg N f noMsg) (cfg N g noMsg).
Proof.
  intros R N peers msgs f g Y H.
  apply (exchange R N f g _ _ _ H).
  - intros p e Hp He. apply in_flat_map in He. destruct He as (q & Hq & He).
    apply in_map_iff in He. destruct He as (m & <- & _). exists q, m. split; [auto|].
    apply (sy_range _ _ Y p q Hp Hq).
  - intros p e Hp He. apply in_flat_map in He. destruct He as (q & Hq & He).
    apply in_map_iff in He. destruct He as (m & <- & _). exists q, m. split; [auto|].
    apply (sy_range _ _ Y p q Hp Hq).
  - intros p e Hp He. apply in_flat_map in He. destruct He as (q & Hq & He).
    apply in_map_iff in He. destruct He as (m & <- & K). apply repeat_spec in K. subst m.
    exists q. split; [auto|]. apply (sy_range _ _ Y p q Hp Hq).
  - intros p q Hp Hq. rewrite sentTo_peers, gotFrom_peers by (apply (sy_once _ _ Y); auto).
    destruct (in_dec Nat.eq_dec p (peers q)) as [K|K], (in_dec Nat.eq_dec q (peers p)) as [L|L]; auto.
    + exfalso. apply L. apply (sy_sym _ _ Y q p); auto.
    + exfalso. apply K. apply (sy_sym _ _ Y p q); auto.
Qed.

End Exchange.

(* ----- exchanging buffers ----- *)

From Verif Require Import ExchangeModel.

Lemma atrace_skip : forall M A S (xs : list A) (body : A -> S -> proc M S) evs s,
  (forall x, In x xs -> atrace (body x s) (evs x) (Ret s)) ->
  atrace (forEach xs body s) (flat_map evs xs) (Ret s).
Proof.
  intros M A S xs body evs s H.
  pose proof (atrace_forEach A S xs body evs (fun s _ => s) (fun _ s' => s' = s) s eq_refl) as G.
  assert (E : fold_left (fun s _ => s) xs s = s) by (clear; induction xs; auto).
  rewrite E in G. apply G. intros x pre post s' Ex ->. split; [|auto].
  apply H. rewrite Ex. apply in_or_app. right; left; auto.
Qed.

Section Buffers.
Context {X S : Type}.
Variable N : nat.
Variable peers : nat -> list nat.
Hypothesis Y : symmetric N peers.

(** After an exchange of buffers every process has processed the buffers of its peers. *)
Theorem exchangeBuffers_run : forall (out : nat -> nat -> list X) got bad (s : nat -> S),
  assuredRun (cfg N (fun p => exchangeBuffers (peers p) (out p) (got p) bad (s p)) noMsg)
    (cfg N (fun p => Ret (fold_left (fun s q => got p q (out q p) s) (peers p) (s p))) noMsg).
Proof.
  intros out got bad s.
  apply (exchange_peers S N peers (fun p q => [Count (length (out p q)); Items (out p q)])); [auto|].
  intros p Hp. unfold exchangeBuffers. apply atrace_bind with (r := s p).
  { apply atrace_skip. intros q _. cbn. repeat constructor. }
  apply atrace_bind with (r := fold_left (fun s q => got p q (out q p) s) (peers p) (s p)).
  { apply (atrace_forEach _ _ _ _ _ (fun s q => got p q (out q p) s) (fun _ _ => True)); [auto|].
    intros q pre post s' _ _. split; [|auto]. unfold receiveBuffers. cbn [map].
    apply at_recv. apply at_recv. rewrite Nat.eqb_refl. constructor. }
  apply atrace_skip. intros q _. cbn. repeat constructor.
Qed.

Theorem exchangeValues_run : forall (out : nat -> nat -> list X) expected got bad (s : nat -> S),
  (forall p q, p < N -> In q (peers p) -> expected p q = length (out q p)) ->
  assuredRun (cfg N (fun p => exchangeValues (peers p) (out p) (expected p) (got p) bad (s p)) noMsg)
    (cfg N (fun p => Ret (fold_left (fun s q => got p q (out q p) s) (peers p) (s p))) noMsg).
Proof.
  intros out expected got bad s He.
  apply (exchange_peers S N peers (fun p q => [Items (out p q)])); [auto|].
  intros p Hp. unfold exchangeValues. apply atrace_bind with (r := s p).
  { apply atrace_skip. intros q _. cbn. repeat constructor. }
  apply atrace_bind with (r := fold_left (fun s q => got p q (out q p) s) (peers p) (s p)).
  { apply (atrace_forEach _ _ _ _ _ (fun s q => got p q (out q p) s) (fun _ _ => True)); [auto|].
    intros q pre post s' Eq _. split; [|auto]. unfold receiveValues. cbn [map].
    apply at_recv. rewrite He, Nat.eqb_refl; auto; [constructor|].
    rewrite Eq. apply in_or_app. right; left; auto. }
  apply atrace_skip. intros q _. cbn. repeat constructor.
Qed.

End Buffers.
