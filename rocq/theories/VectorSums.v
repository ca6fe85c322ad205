From Coq Require Import Arith List Bool Lia Sorted Permutation QArith.
From Verif Require Import MpiModel MpiSpec MpiProofs MpiLemmas MpiExchange ExchangeModel
  GlobalIndexModel GlobalIndexSpec GlobalIndexProofs ForeignModel ForeignProofs
  DomesticModel DomesticSpec DomesticProofs VectorModel VectorSpec VectorProofs.
From Verif Require FluxSpec ResidualProofs.
Import ListNotations.
Local Open Scope nat_scope.

Notation sumOver := FluxSpec.sumOver.

Lemma sum_filter : forall A (f : A -> Q) (b : A -> bool) (l : list A),
  (sumOver (fun a => if b a then f a else 0%Q) l == sumOver f (filter b l))%Q.
Proof.
  induction l as [|a l IH]; [reflexivity|]. rewrite ResidualProofs.sumOver_cons. cbn [filter].
  destruct (b a).
  - rewrite ResidualProofs.sumOver_cons, IH. reflexivity.
  - rewrite IH, Qplus_0_l. reflexivity.
Qed.

Lemma fold_add : forall A (f : A -> Q) l s, (fold_left Qplus (map f l) s == s + sumOver f l)%Q.
Proof.
  induction l as [|a l IH]; intros s.
  - cbn. rewrite Qplus_0_r. reflexivity.
  - cbn [map fold_left]. rewrite IH, ResidualProofs.sumOver_cons, Qplus_assoc. reflexivity.
Qed.

Lemma fold_add_if : forall (b : nat -> bool) (f : nat -> Q) l s,
  (fold_left (fun s i => if b i then s + f i else s) l s == s + sumOver f (filter b l))%Q.
Proof.
  induction l as [|a l IH]; intros s.
  - cbn. rewrite Qplus_0_r. reflexivity.
  - cbn [fold_left filter]. destruct (b a).
    + rewrite IH, ResidualProofs.sumOver_cons, Qplus_assoc. reflexivity.
    + apply IH.
Qed.

Lemma NoDup_flat_pairs : forall (g : nat -> list nat) l, NoDup l -> (forall q, NoDup (g q)) ->
  NoDup (flat_map (fun q => map (fun i => (q, i)) (g q)) l).
Proof.
  induction l as [|q l IH]; intros N1 H; [constructor|]. inversion N1; subst. cbn [flat_map].
  assert (G : forall l1 l2 : list (nat * nat), NoDup l1 -> NoDup l2 -> (forall a, In a l1 -> ~ In a l2) -> NoDup (l1 ++ l2)).
  { induction l1 as [|a l1 IH1]; intros l2 M1 M2 M3; [auto|]. inversion M1; subst. cbn. constructor.
    - intros K. apply in_app_or in K. destruct K as [K|K]; [contradiction|]. apply (M3 a); [left; auto|auto].
    - apply IH1; auto. intros b Hb. apply M3. right; auto. }
  apply G.
  - apply FinFun.Injective_map_NoDup; [|auto]. intros a b E. injection E as E. auto.
  - apply IH; auto.
  - intros [r i] K1 K2. apply in_map_iff in K1. destruct K1 as (i' & E & _). injection E as <- _.
    apply in_flat_map in K2. destruct K2 as (q' & K2 & K3). apply in_map_iff in K3.
    destruct K3 as (i2 & E2 & _). injection E2 as -> _. contradiction.
Qed.

Section System.
Variable N : nat.
Variable fo : nat -> foreignOverlap.
Variable shared : nat -> nat -> list (nat * nat).
Variable dof : nat -> nat -> nat.
Variable number : nat -> nat.
Variable total : nat.
Variable ddof : nat -> nat -> nat.
Variable dom : nat -> domestic.
Hypothesis SY : system N fo shared dof number total ddof dom.

Let D := sy_distributed _ _ _ _ _ _ _ _ SY.
Let O := sy_overlapping _ _ _ _ _ _ _ _ SY.
Let NU := sy_numbering _ _ _ _ _ _ _ _ SY.
Let DM := sy_domestic _ _ _ _ _ _ _ _ SY.

(** The local indices of rank q which stand for x. *)
Definition standsFor (x q : nat) : list nat := filter (fun l => Nat.eqb (dof q l) x) (seq 0 (numLocal (fo q))).

Lemma sumLocal_pairs : forall x f, (sumLocal N fo dof x f ==
  sumOver (fun ql => f (fst ql) (snd ql)) (flat_map (fun q => map (fun l => (q, l)) (standsFor x q)) (seq 0 N)))%Q.
Proof.
  intros x f. rewrite ResidualProofs.sumOver_flat_map. unfold sumLocal.
  apply ResidualProofs.sumOver_ext. intros q _. rewrite ResidualProofs.sumOver_map. cbn [fst snd].
  unfold standsFor. apply (sum_filter _ (f q) (fun l => Nat.eqb (dof q l) x)).
Qed.

Lemma standsFor_in : forall x q l, In l (standsFor x q) <-> l < numLocal (fo q) /\ dof q l = x.
Proof.
  intros x q l. unfold standsFor. rewrite filter_In, in_seq, Nat.eqb_eq. lia.
Qed.

Lemma copies_sum : forall p x c f, p < N -> copies N fo dof p x c ->
  (sumLocal N fo dof x f ==
   sumOver (f p) (standsFor x p) + sumOver (fun ql => f (fst ql) (snd ql)) c)%Q.
Proof.
  intros p x c f Hp [C1 C2]. rewrite sumLocal_pairs.
  rewrite <- (ResidualProofs.sumOver_map (fun l => (p, l)) (fun ql => f (fst ql) (snd ql))).
  rewrite <- ResidualProofs.sumOver_app. apply ResidualProofs.sumOver_perm.
  apply NoDup_Permutation.
  - apply NoDup_flat_pairs; [apply seq_NoDup|]. intros q. apply NoDup_filter, seq_NoDup.
  - assert (K : forall l : list (nat * nat), StronglySorted lt (map fst l) -> NoDup l).
    { induction l as [|a l IH]; intros S; [constructor|]. cbn in S. inversion S; subst. constructor; [|auto].
      intros Hin. rewrite Forall_forall in H2. specialize (H2 (fst a) (in_map fst _ _ Hin)). lia. }
    assert (NoDup (map (fun l => (p, l)) (standsFor x p))).
    { apply FinFun.Injective_map_NoDup; [intros a b E; injection E as E; auto|]. apply NoDup_filter, seq_NoDup. }
    induction (standsFor x p) as [|l ls IH]; [apply K; auto|]. inversion H; subst. cbn [map app]. constructor.
    + intros Hin. apply in_app_or in Hin. destruct Hin as [Hin|Hin]; [contradiction|].
      apply C2 in Hin. tauto.
    + apply IH; auto.
  - intros [q l]. rewrite in_flat_map, in_app_iff, C2. split.
    + intros (q' & Hq & Hin). apply in_map_iff in Hin. destruct Hin as (l' & E & Hin).
      injection E as <- <-. apply in_seq in Hq. apply standsFor_in in Hin.
      destruct (Nat.eq_dec q' p) as [->|Hne].
      * left. apply in_map_iff. exists l'. split; [auto|]. apply standsFor_in. auto.
      * right. split; [lia|]. auto.
    + intros [Hin|(H1 & H2 & H3)].
      * apply in_map_iff in Hin. destruct Hin as (l' & E & Hin). injection E as <- <-.
        exists p. split; [apply in_seq; lia|]. apply in_map_iff. exists l'. auto.
      * exists q. split; [apply in_seq; lia|]. apply in_map_iff. exists l. split; [auto|].
        apply standsFor_in. auto.
Qed.

(** What rank p itself has of the domestic index i. *)
Lemma own_part : forall p i f, p < N -> i < domSize (dom p) ->
  (sumOver f (standsFor (ddof p i) p) == if i <? numLocal (fo p) then f i else 0)%Q.
Proof.
  intros p i f Hp Hi. destruct (Nat.ltb_spec i (numLocal (fo p))) as [Hl|Hl].
  - assert (E : Permutation (standsFor (ddof p i) p) [i]).
    { apply NoDup_Permutation; [apply NoDup_filter, seq_NoDup|constructor; [intros []|constructor]|].
      intros l. rewrite standsFor_in. rewrite (dm_local _ _ _ _ _ _ _ _ (DM p Hp) i Hl). split.
      - intros [K1 K2]. left. symmetry. apply (di_dof _ _ _ D p l i Hp); auto.
      - intros [<-|[]]. auto. }
    rewrite (ResidualProofs.sumOver_perm _ _ _ E). cbn. rewrite Qplus_0_r. reflexivity.
  - assert (E : standsFor (ddof p i) p = []).
    { destruct (standsFor (ddof p i) p) as [|l ls] eqn:E; [reflexivity|]. exfalso.
      assert (K : In l (standsFor (ddof p i) p)) by (rewrite E; left; auto). apply standsFor_in in K.
      destruct K as [K1 K2]. rewrite <- (dm_local _ _ _ _ _ _ _ _ (DM p Hp) l K1) in K2.
      apply (dm_inj _ _ _ _ _ _ _ _ (DM p Hp)) in K2; [lia| |auto].
      pose proof (dm_size _ _ _ _ _ _ _ _ (DM p Hp)). lia. }
    rewrite E. reflexivity.
Qed.

Lemma add_total : forall p i c f (v : Q), p < N -> i < domSize (dom p) ->
  copies N fo dof p (ddof p i) c ->
  (v == if i <? numLocal (fo p) then f p i else 0)%Q ->
  (fold_left Qplus (map (fun ql => f (fst ql) (snd ql)) c) v == sumLocal N fo dof (ddof p i) f)%Q.
Proof.
  intros p i c f v Hp Hi C E. rewrite (copies_sum p _ c f Hp C).
  rewrite (fold_add _ (fun ql : nat * nat => f (fst ql) (snd ql))).
  rewrite (own_part p i (f p) Hp Hi), E. reflexivity.
Qed.

(* ----- the scalar product ----- *)

Definition masterOf (p i : nat) : bool := Nat.eqb (masterRank (fo p) i) p.

Lemma masterOf_iff : forall p i, p < N -> i < numLocal (fo p) ->
  (masterOf p i = true <-> isMaster fo dof p (dof p i)).
Proof.
  intros p i Hp Hi. unfold masterOf. rewrite Nat.eqb_eq.
  destruct (di_master _ _ _ D p i Hp Hi) as (M1 & M2 & M3). split.
  - intros E. rewrite E in *. split; auto.
  - intros [K1 K2]. destruct (Nat.lt_ge_cases (masterRank (fo p) i) p) as [Hlt|]; [|lia].
    exfalso. apply (K2 _ Hlt M2).
Qed.

Lemma least_rank : forall m d, has fo dof m d ->
  exists m', m' <= m /\ has fo dof m' d /\ forall q, q < m' -> ~ has fo dof q d.
Proof.
  intros m d H.
  assert (Dec : forall q, has fo dof q d \/ ~ has fo dof q d).
  { intros q. unfold has. destruct (in_dec Nat.eq_dec d (map (dof q) (seq 0 (numLocal (fo q))))) as [K|K].
    - left. apply in_map_iff in K. destruct K as (i & E & Hi). apply in_seq in Hi. exists i. split; [lia|auto].
    - right. intros (i & Hi & E). apply K. apply in_map_iff. exists i. split; [auto|apply in_seq; lia]. }
  induction m as [m IH] using (well_founded_induction lt_wf).
  assert (G : forall k, (exists q, q < k /\ has fo dof q d) \/ forall q, q < k -> ~ has fo dof q d).
  { induction k as [|k IHk]; [right; intros; lia|]. destruct IHk as [(q & Hq & K)|K].
    - left. exists q. split; [lia|auto].
    - destruct (Dec k) as [E|E]; [left; exists k; auto|]. right. intros q Hq.
      destruct (Nat.eq_dec q k) as [->|]; [auto|apply K; lia]. }
  destruct (G m) as [(q & Hq & K)|K].
  - destruct (IH q Hq K) as (m' & L & R). exists m'. split; [lia|auto].
  - exists m. auto.
Qed.

Lemma masters_permutation : Permutation
  (flat_map (fun p => map (fun i => number (dof p i)) (filter (masterOf p) (seq 0 (numLocal (fo p))))) (seq 0 N))
  (seq 0 total).
Proof.
  destruct NU as (N1 & N2 & N3).
  assert (E : forall l, flat_map (fun p => map (fun i => number (dof p i)) (filter (masterOf p) (seq 0 (numLocal (fo p))))) l
    = map (fun pi : nat * nat => number (dof (fst pi) (snd pi)))
       (flat_map (fun p => map (fun i => (p, i)) (filter (masterOf p) (seq 0 (numLocal (fo p))))) l)).
  { induction l as [|p l IH]; [reflexivity|]. cbn [flat_map]. rewrite map_app, map_map, IH. reflexivity. }
  rewrite E.
  assert (In0 : forall p i, In (p, i) (flat_map (fun p => map (fun i => (p, i)) (filter (masterOf p) (seq 0 (numLocal (fo p))))) (seq 0 N))
     <-> p < N /\ i < numLocal (fo p) /\ masterOf p i = true).
  { intros p i. rewrite in_flat_map. split.
    - intros (p' & Hp & Hin). apply in_map_iff in Hin. destruct Hin as (i' & E1 & Hin). injection E1 as <- <-.
      apply in_seq in Hp. apply filter_In in Hin. destruct Hin as [Hin K]. apply in_seq in Hin. split; [lia|]. split; [lia|auto].
    - intros (Hp & Hi & K). exists p. split; [apply in_seq; lia|]. apply in_map_iff. exists i. split; [auto|].
      apply filter_In. split; [apply in_seq; lia|auto]. }
  apply NoDup_Permutation.
  - set (L := flat_map _ (seq 0 N)) in *.
    assert (NL : NoDup L) by (apply NoDup_flat_pairs; [apply seq_NoDup|intros; apply NoDup_filter, seq_NoDup]).
    assert (Inj : forall a b, In a L -> In b L -> number (dof (fst a) (snd a)) = number (dof (fst b) (snd b)) -> a = b).
    { intros [p i] [q j] Ha Hb. cbn [fst snd]. intros En. apply In0 in Ha. apply In0 in Hb.
      destruct Ha as (Hp & Hi & Mp). destruct Hb as (Hq & Hj & Mq).
      assert (Ed : dof p i = dof q j).
      { apply (N2 p q); auto; [exists i; auto|exists j; auto]. }
      apply (masterOf_iff p i Hp Hi) in Mp. apply (masterOf_iff q j Hq Hj) in Mq.
      destruct Mp as [A1 A2]. destruct Mq as [B1 B2].
      assert (p = q).
      { destruct (lt_eq_lt_dec p q) as [[Hlt|He]|Hgt]; [|auto|]; exfalso.
        - apply (B2 p Hlt). exists i. auto.
        - apply (A2 q Hgt). exists j. auto. }
      subst q. f_equal. apply (di_dof _ _ _ D p i j Hp); auto. }
    clearbody L. clear In0 E. induction L as [|a L IH]; [constructor|]. inversion NL; subst. cbn [map]. constructor.
    + intros Hin. apply in_map_iff in Hin. destruct Hin as (b & E1 & Hb).
      assert (b = a) by (apply Inj; [right; auto|left; auto|auto]). subst. contradiction.
    + apply IH; [auto|]. intros; apply Inj; [right; auto|right; auto|auto].
  - apply seq_NoDup.
  - intros k. rewrite in_map_iff. split.
    + intros ([p i] & <- & Hin). apply In0 in Hin. cbn [fst snd]. apply in_seq. cbn.
      destruct Hin as (Hp & Hi & _). split; [lia|]. apply (N1 p); [auto|]. exists i. auto.
    + intros Hk. apply in_seq in Hk. destruct (N3 k) as (p & d & Hp & Hh & E1); [lia|].
      destruct (least_rank p d Hh) as (m & Hm & (i & Hi & Ed) & Hl).
      exists (m, i). cbn [fst snd]. split; [congruence|]. apply In0. split; [lia|]. split; [auto|].
      apply masterOf_iff; [lia|auto|]. split; [exists i; auto|]. rewrite Ed. exact Hl.
Qed.

Section Dot.
Variable x y : nat -> list Q.

Lemma dot_run : assuredRun (cfg N (fun p => dot (fo p) 0%Q Qplus Qmult p (x p) (y p)) noMsg)
  (cfg N (fun _ => Ret (fold_left Qplus (map (fun p => dotLocal (fo p) 0%Q Qplus Qmult p (x p) (y p)) (seq 0 N)) 0%Q)) noMsg).
Proof.
  destruct N as [|n] eqn:E0; [constructor|]. rewrite <- E0.
  eapply ar_cons; [|apply ar_nil]. unfold dot.
  apply (cfg_coll Q N _ noMsg 0 (fun p => dotLocal (fo p) 0%Q Qplus Qmult p (x p) (y p))
    (fun _ sums => Ret (fold_left Qplus sums 0%Q))); [lia|]. intros. reflexivity.
Qed.

Definition masterDofs : list nat :=
  flat_map (fun p => map (dof p) (filter (masterOf p) (seq 0 (numLocal (fo p))))) (seq 0 N).

Lemma masterDofs_numbers : Permutation (map number masterDofs) (seq 0 total).
Proof.
  rewrite <- masters_permutation. unfold masterDofs.
  assert (E : forall l, map number (flat_map (fun p => map (dof p) (filter (masterOf p) (seq 0 (numLocal (fo p))))) l)
    = flat_map (fun p => map (fun i => number (dof p i)) (filter (masterOf p) (seq 0 (numLocal (fo p))))) l).
  { induction l as [|p l IH]; [reflexivity|]. cbn [flat_map]. rewrite map_app, map_map, IH. reflexivity. }
  rewrite E. reflexivity.
Qed.

Lemma masterDofs_spec : NoDup masterDofs /\ forall d, In d masterDofs <-> exists p, p < N /\ has fo dof p d.
Proof.
  split.
  - apply (NoDup_map_inv number). eapply Permutation_NoDup; [symmetry; apply masterDofs_numbers|apply seq_NoDup].
  - intros d. unfold masterDofs. rewrite in_flat_map. split.
    + intros (p & Hp & Hin). apply in_seq in Hp. apply in_map_iff in Hin. destruct Hin as (i & <- & Hi).
      apply filter_In in Hi. destruct Hi as [Hi _]. apply in_seq in Hi. exists p. split; [lia|]. exists i. split; [lia|auto].
    + intros (p & Hp & Hh). destruct (least_rank p d Hh) as (m & Hm & (i & Hi & Ed) & Hl).
      exists m. split; [apply in_seq; lia|]. apply in_map_iff. exists i. split; [auto|].
      apply filter_In. split; [apply in_seq; lia|]. apply masterOf_iff; [lia|auto|].
      split; [exists i; auto|]. rewrite Ed. exact Hl.
Qed.

Lemma dot_masters : forall X Y : nat -> Q,
  (forall p i, p < N -> i < numLocal (fo p) -> isMaster fo dof p (dof p i) ->
     (nth i (x p) 0 == X (dof p i))%Q /\ (nth i (y p) 0 == Y (dof p i))%Q) ->
  (fold_left Qplus (map (fun p => dotLocal (fo p) 0 Qplus Qmult p (x p) (y p)) (seq 0 N)) 0
   == sumOver (fun d => X d * Y d) masterDofs)%Q.
Proof.
  intros X Y H. rewrite fold_add, Qplus_0_l. unfold masterDofs.
  rewrite ResidualProofs.sumOver_flat_map. apply ResidualProofs.sumOver_ext. intros p Hp. apply in_seq in Hp.
  rewrite ResidualProofs.sumOver_map. unfold dotLocal.
  rewrite (fold_add_if (fun i => Nat.eqb (masterRank (fo p) i) p)), Qplus_0_l.
  apply ResidualProofs.sumOver_ext. intros i Hi. apply filter_In in Hi. destruct Hi as [Hi Hm].
  apply in_seq in Hi. destruct (H p i) as [H1 H2]; [lia|lia| |].
  - apply masterOf_iff; [lia|lia|auto].
  - rewrite H1, H2. reflexivity.
Qed.

Lemma dot_value : forall X Y : nat -> Q,
  (forall p i, p < N -> i < numLocal (fo p) -> isMaster fo dof p (dof p i) ->
     (nth i (x p) 0 == X (number (dof p i)))%Q /\ (nth i (y p) 0 == Y (number (dof p i)))%Q) ->
  (fold_left Qplus (map (fun p => dotLocal (fo p) 0 Qplus Qmult p (x p) (y p)) (seq 0 N)) 0
   == sumOver (fun k => X k * Y k) (seq 0 total))%Q.
Proof.
  intros X Y H. rewrite (dot_masters (fun d => X (number d)) (fun d => Y (number d)) H).
  rewrite <- (ResidualProofs.sumOver_map number (fun k => X k * Y k)%Q).
  apply ResidualProofs.sumOver_perm. apply masterDofs_numbers.
Qed.

End Dot.
End System.
