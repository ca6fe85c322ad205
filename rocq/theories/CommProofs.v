From Coq Require Import Arith List Bool Lia Permutation QArith.
From Verif Require Import GlobalIndexModel ForeignModel ForeignProofs PipelineModel CommModel CommSpec VectorSums.
From Verif Require FluxSpec ResidualProofs.
Import ListNotations.
Local Open Scope nat_scope.

Lemma NoDup_append : forall A (l m : list A), NoDup l -> NoDup m -> (forall x, In x l -> In x m -> False) -> NoDup (l ++ m).
Proof.
  intros A l m Hl Hm H. induction Hl as [|a l Ha Hl IH]; [exact Hm|]. cbn. constructor.
  - rewrite in_app_iff. intros [K|K]; [auto|]. apply (H a); [left; reflexivity|exact K].
  - apply IH. intros x Hx. apply H. right. exact Hx.
Qed.

Lemma NoDup_map_in : forall A B (f : A -> B) l, (forall x y, In x l -> In y l -> f x = f y -> x = y) ->
  NoDup l -> NoDup (map f l).
Proof.
  intros A B f l H Hl. induction Hl as [|a l Ha Hl IH]; [constructor|]. cbn. constructor.
  - intros K. apply in_map_iff in K. destruct K as (x & E & Hx).
    rewrite (H a x) in Ha; [auto|left; reflexivity|right; exact Hx|auto].
  - apply IH. intros x y Hx Hy. apply H; right; assumption.
Qed.

(* ----- handles which combine the values ----- *)

Lemma setNth_length : forall A k (x : A) l, length (setNth k x l) = length l.
Proof.
  intros A k x l. unfold setNth. rewrite app_length. rewrite <- (firstn_skipn k l) at 3. rewrite app_length.
  f_equal. destruct (skipn k l); reflexivity.
Qed.

Lemma setNth_nth : forall A k (x : A) l j d, k < length l ->
  nth j (setNth k x l) d = if Nat.eqb k j then x else nth j l d.
Proof.
  intros A k x l. revert k. induction l as [|a l IH]; intros k j d H; cbn [length] in H; [lia|].
  destruct k as [|k].
  - cbn. destruct j; reflexivity.
  - change (setNth (S k) x (a :: l)) with (a :: setNth k x l).
    destruct j as [|j]; cbn [nth Nat.eqb]; [reflexivity|]. apply IH. lia.
Qed.

(* ----- which copies arrive ----- *)

Section Arrivals.
Variable N : nat.
Variable g : nat -> part.
Variables from to : partitionType -> bool.
Variable plan : nat -> nat -> list (nat * nat).
Variable order : nat -> list nat.
Hypothesis OV : overInterface N g from to plan order.

Definition arrivals (q j : nat) : list (nat * nat) :=
  flat_map (fun p => map (fun ij => (p, fst ij)) (filter (fun ij => Nat.eqb (snd ij) j) (plan p q))) (order q).

Lemma arrivals_in : forall q j p i, q < N -> (In (p, i) (arrivals q j) <->
  p <> q /\ sameEntity N g p i q j /\ from (kind (g p) i) = true /\ to (kind (g q) j) = true).
Proof.
  destruct OV as [HP HO]. intros q j p i Hq. destruct (HO q Hq) as [_ HO'].
  unfold arrivals. rewrite in_flat_map. split.
  - intros (p' & Hp & H). apply HO' in Hp. destruct Hp as [Hp Hn]. apply in_map_iff in H.
    destruct H as ([i' j'] & E & H). injection E as <- <-. apply filter_In in H. destruct H as [H E].
    cbn [fst snd] in *. apply Nat.eqb_eq in E. subst j'. apply (proj2 (HP p' q Hp Hq Hn)) in H. tauto.
  - intros (Hn & S & F & T). pose proof S as (Hp & _). exists p. split; [apply HO'; auto|].
    apply in_map_iff. exists (i, j). split; [reflexivity|]. apply filter_In. split; [|apply Nat.eqb_refl].
    apply (proj2 (HP p q Hp Hq Hn)). auto.
Qed.

Lemma arrivals_NoDup : forall q j, q < N -> NoDup (arrivals q j).
Proof.
  destruct OV as [HP HO]. intros q j Hq. destruct (HO q Hq) as [ND HO']. unfold arrivals.
  assert (G : forall l, NoDup l -> (forall p, In p l -> p < N /\ p <> q) ->
    NoDup (flat_map (fun p => map (fun ij => (p, fst ij)) (filter (fun ij => Nat.eqb (snd ij) j) (plan p q))) l)).
  { induction l as [|p l IH]; intros Hl Hin; [constructor|]. inversion Hl; subst. cbn [flat_map].
    destruct (Hin p (or_introl eq_refl)) as [Hp Hn].
    apply NoDup_append.
    - apply NoDup_map_in.
      + intros [i1 j1] [i2 j2] H1' H2' E. apply filter_In in H1', H2'. cbn [fst snd] in *.
        destruct H1' as [_ E1], H2' as [_ E2]. apply Nat.eqb_eq in E1, E2. congruence.
      + apply NoDup_filter. apply (HP p q Hp Hq Hn).
    - apply IH; [assumption|]. intros p' Hp'. apply Hin. right. exact Hp'.
    - intros [p1 i1] K1 K2. apply in_map_iff in K1. destruct K1 as (x1 & E1 & _). injection E1 as E1 _.
      apply in_flat_map in K2. destruct K2 as (p2 & Hp2 & K2). apply in_map_iff in K2.
      destruct K2 as (x2 & E2 & _). injection E2 as E2 _. congruence. }
  apply G; [exact ND|]. intros p Hp. apply HO'. exact Hp.
Qed.

End Arrivals.

Section Combine.
Variable A : Type.
Variable zero : A.
Variable op : A -> A -> A.

Definition scatterOp (j : nat) (buf : list A) (c : list A) : option (list A * list A) :=
  match buf with
  | [] => None
  | tmp :: buf' => Some (setNth j (op (nth j c zero) tmp) c, buf')
  end.
Definition handleOp : handle (list A) A := mkHandle (gatherValue A zero) scatterOp.

Definition valuesFor (c : list A) (j : nat) (pairs : list (nat * nat)) : list A :=
  map (fun ij => nth (fst ij) c zero) (filter (fun ij => Nat.eqb (snd ij) j) pairs).

Lemma unpack_op : forall pairs c st, (forall i j, In (i, j) pairs -> j < length st) ->
  exists st', unpack handleOp pairs (message handleOp c pairs) st = Some st' /\ length st' = length st
    /\ forall j, nth j st' zero = fold_left op (valuesFor c j pairs) (nth j st zero).
Proof.
  induction pairs as [|[i j] pairs IH]; intros c st H.
  - exists st. auto.
  - cbn [message flat_map fst unpack handleOp scatter gather gatherValue app scatterOp].
    destruct (IH c (setNth j (op (nth j st zero) (nth i c zero)) st)) as (st' & E & L & V).
    { intros i' j' Hin. rewrite setNth_length. apply (H i'). right. exact Hin. }
    exists st'. split; [exact E|]. split; [rewrite L; apply setNth_length|].
    intros k. rewrite V, setNth_nth by (apply (H i); left; reflexivity).
    unfold valuesFor. cbn [filter snd]. destruct (Nat.eqb_spec j k) as [->|]; reflexivity.
Qed.

Lemma receive_op : forall plan c q senders st,
  (forall p i j, In p senders -> In (i, j) (plan p q) -> j < length st) ->
  exists st', receiveFrom handleOp plan c q senders st = Some st' /\ length st' = length st
    /\ forall j, nth j st' zero
       = fold_left op (flat_map (fun p => valuesFor (c p) j (plan p q)) senders) (nth j st zero).
Proof.
  intros plan c q. induction senders as [|p senders IH]; intros st H.
  - exists st. auto.
  - cbn [receiveFrom]. destruct (unpack_op (plan p q) (c p) st) as (st1 & E1 & L1 & V1).
    { intros i j Hin. apply (H p i); [left; reflexivity|exact Hin]. }
    rewrite E1. destruct (IH st1) as (st' & E & L & V).
    { intros p' i j Hp Hin. rewrite L1. apply (H p' i); [right; exact Hp|exact Hin]. }
    exists st'. split; [exact E|]. split; [congruence|].
    intros j. rewrite V, V1. cbn [flat_map]. rewrite fold_left_app. reflexivity.
Qed.

Variable N : nat.
Variable g : nat -> part.
Variables from to : partitionType -> bool.
Variable plan : nat -> nat -> list (nat * nat).
Variable order : nat -> list nat.
Hypothesis OV : overInterface N g from to plan order.

Lemma arrivals_values : forall (c : nat -> list A) q j,
  flat_map (fun p => valuesFor (c p) j (plan p q)) (order q)
  = map (fun pi => nth (snd pi) (c (fst pi)) zero) (arrivals plan order q j).
Proof.
  intros c q j. unfold arrivals, valuesFor.
  induction (order q) as [|p l IH]; [reflexivity|]. cbn [flat_map]. rewrite map_app, map_map, IH. reflexivity.
Qed.

Lemma communicate_op : forall (c : nat -> list A) q, q < N -> length (c q) = numEnt (g q) ->
  exists y, communicate handleOp plan order c q = Some y /\ length y = numEnt (g q)
    /\ forall j, nth j y zero
       = fold_left op (map (fun pi => nth (snd pi) (c (fst pi)) zero) (arrivals plan order q j)) (nth j (c q) zero).
Proof.
  intros c q Hq L. destruct OV as [HP HO]. destruct (HO q Hq) as [_ HO'].
  destruct (receive_op plan c q (order q) (c q)) as (y & E & Ly & V).
  { intros p i j Hp Hin. apply HO' in Hp. destruct Hp as [Hp Hn].
    apply (proj2 (HP p q Hp Hq Hn)) in Hin. destruct Hin as [(_ & _ & _ & Hj & _) _]. lia. }
  exists y. split; [exact E|]. split; [congruence|]. intros j. rewrite V, arrivals_values. reflexivity.
Qed.

End Combine.

(* ----- sum ----- *)

Lemma sum_of_copies_list : forall N g c q j, (sumOfCopies N g c q j ==
  FluxSpec.sumOver (fun pi => nth (snd pi) (c (fst pi)) 0)
    (flat_map (fun p => map (fun i => (p, i))
       (filter (fun i => Nat.eqb (ident (g p) i) (ident (g q) j) && interiorBorder (kind (g p) i))
          (seq 0 (numEnt (g p))))) (seq 0 N)))%Q.
Proof.
  intros N g c q j. unfold sumOfCopies. rewrite ResidualProofs.sumOver_flat_map.
  apply ResidualProofs.sumOver_ext. intros p _. rewrite ResidualProofs.sumOver_map. cbn [fst snd].
  apply (sum_filter _ (fun i => nth i (c p) 0%Q)).
Qed.

Lemma border_copies : forall N g q j p i, q < N -> j < numEnt (g q) ->
  (In (p, i) (flat_map (fun p => map (fun i => (p, i))
       (filter (fun i => Nat.eqb (ident (g p) i) (ident (g q) j) && interiorBorder (kind (g p) i))
          (seq 0 (numEnt (g p))))) (seq 0 N)) <-> borderCopy N g q j p i).
Proof.
  intros N g q j p i Hq Hj. unfold borderCopy, sameEntity. rewrite in_flat_map. split.
  - intros (p' & Hp & H). apply in_map_iff in H. destruct H as (i' & E & H). injection E as -> ->.
    apply filter_In in H. rewrite in_seq in *. destruct H as [H E]. apply andb_prop in E. destruct E as [E K].
    apply Nat.eqb_eq in E. repeat split; auto; lia.
  - intros ((Hp & _ & Hi & _ & E) & K). exists p. split; [apply in_seq; lia|]. apply in_map.
    apply filter_In. split; [apply in_seq; lia|]. rewrite E, Nat.eqb_refl, K. reflexivity.
Qed.

Section Sum.
Variable N : nat.
Variable g : nat -> part.
Hypothesis IX : indexed N g.
Variable to : partitionType -> bool.
Variable plan : nat -> nat -> list (nat * nat).
Variable order : nat -> list nat.
Hypothesis OV : overInterface N g interiorBorder to plan order.

(** Own value and the values of the border copies elsewhere: all border copies if the own
    one is among them. *)
Lemma arrivals_sum : forall (c : nat -> list Q) q j, q < N -> j < numEnt (g q) -> to (kind (g q) j) = true ->
  (FluxSpec.sumOver (fun pi => nth (snd pi) (c (fst pi)) 0) (arrivals plan order q j)
   + (if interiorBorder (kind (g q) j) then nth j (c q) 0 else 0) == sumOfCopies N g c q j)%Q.
Proof.
  intros c q j Hq Hj HT. rewrite sum_of_copies_list.
  pose proof (arrivals_NoDup N g interiorBorder to plan order OV q j Hq) as ND.
  assert (own : forall i, borderCopy N g q j q i -> i = j /\ interiorBorder (kind (g q) j) = true).
  { intros i ((_ & _ & Hi & _ & E) & K). assert (i = j) by (apply (IX q); auto). subst i. auto. }
  set (L := flat_map _ (seq 0 N)).
  assert (NL : NoDup L) by (apply NoDup_flat_pairs; [apply seq_NoDup|intros; apply NoDup_filter, seq_NoDup]).
  destruct (interiorBorder (kind (g q) j)) eqn:K.
  - transitivity (FluxSpec.sumOver (fun pi => nth (snd pi) (c (fst pi)) 0%Q) ((q, j) :: arrivals plan order q j)).
    { rewrite ResidualProofs.sumOver_cons. cbn [fst snd]. apply Qplus_comm. }
    apply ResidualProofs.sumOver_perm. apply NoDup_Permutation; [|exact NL|].
    + constructor; [|exact ND]. rewrite (arrivals_in N g interiorBorder to plan order OV) by auto. tauto.
    + intros [p i]. unfold L. rewrite (border_copies N g q j p i Hq Hj). cbn [In].
      rewrite (arrivals_in N g interiorBorder to plan order OV) by auto. unfold borderCopy. split.
      * intros [E|H]; [|tauto]. injection E as <- <-. unfold sameEntity. rewrite K. auto 10.
      * intros H. destruct (Nat.eq_dec p q) as [->|Hn]; [|right; tauto].
        left. destruct (own i H) as [-> _]. reflexivity.
  - rewrite Qplus_0_r. apply ResidualProofs.sumOver_perm. apply NoDup_Permutation; [exact ND|exact NL|].
    intros [p i]. unfold L. rewrite (border_copies N g q j p i Hq Hj).
    rewrite (arrivals_in N g interiorBorder to plan order OV) by auto. unfold borderCopy. split; [tauto|].
    intros H. split; [|tauto]. intros ->. destruct (own i H). congruence.
Qed.

Lemma arrivals_none : forall q j, q < N -> to (kind (g q) j) = false -> arrivals plan order q j = [].
Proof.
  intros q j Hq HT. destruct (arrivals plan order q j) as [|[p i] l] eqn:E; [reflexivity|exfalso].
  assert (H : In (p, i) (arrivals plan order q j)) by (rewrite E; left; reflexivity).
  apply (arrivals_in N g interiorBorder to plan order OV) in H; [|auto]. destruct H as (_ & _ & _ & H). congruence.
Qed.

Lemma sum_result : forall (c : nat -> list Q) q, q < N -> length (c q) = numEnt (g q) ->
  exists y, communicate (handleSum Q 0%Q Qplus) plan order c q = Some y /\ length y = numEnt (g q)
    /\ forall j, j < numEnt (g q) ->
       (nth j y 0 == if to (kind (g q) j)
                     then if interiorBorder (kind (g q) j) then sumOfCopies N g c q j
                          else nth j (c q) 0 + sumOfCopies N g c q j
                     else nth j (c q) 0)%Q.
Proof.
  intros c q Hq L.
  destruct (communicate_op Q 0%Q Qplus N g interiorBorder to plan order OV c q Hq L) as (y & E & Ly & V).
  exists y. split; [exact E|]. split; [exact Ly|]. intros j Hj. rewrite V, fold_add.
  destruct (to (kind (g q) j)) eqn:T.
  - pose proof (arrivals_sum c q j Hq Hj T) as H. destruct (interiorBorder (kind (g q) j)).
    + rewrite <- H. apply Qplus_comm.
    + rewrite Qplus_0_r in H. rewrite H. reflexivity.
  - rewrite arrivals_none by auto. apply Qplus_0_r.
Qed.

End Sum.

(* ----- maximum and minimum ----- *)

Lemma fold_best : forall A (le : A -> A -> Prop) (op : A -> A -> A),
  (forall a, le a a) -> (forall a b c, le a b -> le b c -> le a c) ->
  (forall a b, (op a b = a \/ op a b = b) /\ le a (op a b) /\ le b (op a b)) ->
  forall l s, In (fold_left op l s) (s :: l) /\ forall x, In x (s :: l) -> le x (fold_left op l s).
Proof.
  intros A le op R T O. induction l as [|a l IH]; intros s.
  - cbn. split; [auto|]. intros x [<-|[]]. apply R.
  - cbn [fold_left]. destruct (IH (op s a)) as [I1 I2]. destruct (O s a) as (O1 & O2 & O3). split.
    + destruct I1 as [I1|I1]; [|right; right; exact I1]. rewrite <- I1. destruct O1 as [->| ->]; cbn; auto.
    + pose proof (I2 (op s a) (or_introl eq_refl)) as I0. intros x [<-|[<-|Hx]].
      * eapply T; eauto.
      * eapply T; eauto.
      * apply I2. right. exact Hx.
Qed.

Lemma max_op : forall a b : Q, ((if Qless a b then b else a) = a \/ (if Qless a b then b else a) = b)
  /\ (a <= if Qless a b then b else a)%Q /\ (b <= if Qless a b then b else a)%Q.
Proof.
  intros a b. unfold Qless. destruct (Qle_bool b a) eqn:E; cbn [negb].
  - apply Qle_bool_iff in E. split; [auto|]. split; [apply Qle_refl|exact E].
  - split; [auto|]. split; [|apply Qle_refl]. destruct (Qlt_le_dec a b) as [H|H]; [apply Qlt_le_weak; exact H|].
    apply Qle_bool_iff in H. congruence.
Qed.

Lemma min_op : forall a b : Q, ((if Qless b a then b else a) = a \/ (if Qless b a then b else a) = b)
  /\ (a >= if Qless b a then b else a)%Q /\ (b >= if Qless b a then b else a)%Q.
Proof.
  intros a b. unfold Qless. destruct (Qle_bool a b) eqn:E; cbn [negb].
  - apply Qle_bool_iff in E. split; [auto|]. split; [apply Qle_refl|exact E].
  - split; [auto|]. split; [|apply Qle_refl]. destruct (Qlt_le_dec b a) as [H|H]; [apply Qlt_le_weak; exact H|].
    apply Qle_bool_iff in H. congruence.
Qed.

Section Best.
Variable N : nat.
Variable g : nat -> part.
Hypothesis IX : indexed N g.
Variable plan : nat -> nat -> list (nat * nat).
Variable order : nat -> list nat.
Hypothesis OV : overInterface N g interiorBorder interiorBorder plan order.
Variable A : Type.
Variable zero : A.
Variable le : A -> A -> Prop.
Variable op : A -> A -> A.
Hypothesis R : forall a, le a a.
Hypothesis T : forall a b c, le a b -> le b c -> le a c.
Hypothesis O : forall a b, (op a b = a \/ op a b = b) /\ le a (op a b) /\ le b (op a b).

Lemma best_result : forall (c : nat -> list A) q, q < N -> length (c q) = numEnt (g q) ->
  exists y, communicate (handleOp A zero op) plan order c q = Some y /\ length y = numEnt (g q)
    /\ forall j, j < numEnt (g q) ->
       (interiorBorder (kind (g q) j) = true ->
          (exists p i, borderCopy N g q j p i /\ nth j y zero = nth i (c p) zero)
          /\ forall p i, borderCopy N g q j p i -> le (nth i (c p) zero) (nth j y zero))
       /\ (interiorBorder (kind (g q) j) = false -> nth j y zero = nth j (c q) zero).
Proof.
  intros c q Hq L.
  destruct (communicate_op A zero op N g interiorBorder interiorBorder plan order OV c q Hq L) as (y & E & Ly & V).
  exists y. split; [exact E|]. split; [exact Ly|]. intros j Hj. rewrite V. split.
  - intros K. assert (own : borderCopy N g q j q j) by (unfold borderCopy, sameEntity; auto 10).
    destruct (fold_best A le op R T O (map (fun pi => nth (snd pi) (c (fst pi)) zero) (arrivals plan order q j))
       (nth j (c q) zero)) as [F1 F2]. split.
    + destruct F1 as [F1|F1]; [exists q, j; split; [exact own|congruence]|].
      apply in_map_iff in F1. destruct F1 as ([p i] & F1 & Hin). cbn [fst snd] in F1.
      apply (arrivals_in N g interiorBorder interiorBorder plan order OV) in Hin; [|auto].
      exists p, i. split; [unfold borderCopy; tauto|congruence].
    + intros p i H. apply F2. destruct (Nat.eq_dec p q) as [->|Hn].
      * left. destruct H as ((_ & _ & Hi & _ & En) & _). rewrite (IX q i j); auto.
      * right. apply in_map_iff. exists (p, i). split; [reflexivity|].
        apply (arrivals_in N g interiorBorder interiorBorder plan order OV); [auto|].
        destruct H as [? ?]. auto 10.
  - intros K. rewrite (arrivals_none N g interiorBorder plan order OV q j Hq K). reflexivity.
Qed.

End Best.

(* ----- ghosts ----- *)

Lemma fold_second : forall A (l : list A) s, fold_left (fun _ b => b) l s = last l s.
Proof.
  intros A. induction l as [|a l IH]; intros s; [reflexivity|]. cbn [fold_left]. rewrite IH.
  destruct l; [reflexivity|]. cbn [last]. clear. revert a0. induction l; intros; [reflexivity|]. apply IHl.
Qed.

Lemma last_in : forall A (l : list A) s, l <> [] -> In (last l s) l.
Proof.
  intros A. induction l as [|a l IH]; intros s H; [congruence|]. destruct l as [|b l]; [left; reflexivity|].
  right. apply IH. discriminate.
Qed.

Section Ghost.
Variable N : nat.
Variable g : nat -> part.
Variable plan : nat -> nat -> list (nat * nat).
Variable order : nat -> list nat.
Hypothesis OV : overInterface N g interiorBorder anyEntity plan order.

Lemma ghost_result : forall A (zero : A) (c : nat -> list A) q, q < N -> length (c q) = numEnt (g q) ->
  exists y, communicate (handleGhost A zero) plan order c q = Some y /\ length y = numEnt (g q)
    /\ forall j, j < numEnt (g q) ->
       (nth j y zero = nth j (c q) zero /\ (forall p i, borderCopy N g q j p i -> p = q))
       \/ exists p i, p <> q /\ borderCopy N g q j p i /\ nth j y zero = nth i (c p) zero.
Proof.
  intros A zero c q Hq L.
  destruct (communicate_op A zero (fun _ b => b) N g interiorBorder anyEntity plan order OV c q Hq L) as (y & E & Ly & V).
  exists y. split; [exact E|]. split; [exact Ly|]. intros j Hj. rewrite V, fold_second.
  destruct (arrivals plan order q j) as [|e l] eqn:Ea.
  - left. split; [reflexivity|]. intros p i H. destruct (Nat.eq_dec p q) as [|Hn]; [auto|exfalso].
    assert (K : In (p, i) (arrivals plan order q j)).
    { apply (arrivals_in N g interiorBorder anyEntity plan order OV); [auto|]. destruct H as [? ?]. auto 10. }
    rewrite Ea in K. destruct K.
  - right.
    assert (K : In (last (map (fun pi : nat * nat => nth (snd pi) (c (fst pi)) zero) (e :: l)) (nth j (c q) zero))
                   (map (fun pi => nth (snd pi) (c (fst pi)) zero) (e :: l))) by (apply last_in; discriminate).
    apply in_map_iff in K. destruct K as ([p i] & K & Hin). rewrite <- Ea in Hin.
    apply (arrivals_in N g interiorBorder anyEntity plan order OV) in Hin; [|auto].
    exists p, i. split; [tauto|]. split; [unfold borderCopy; tauto|]. symmetry. exact K.
Qed.

End Ghost.
