From Verif Require Import BoIdxModel BoIdxSpec.

(** Blocks laid out one after the other. *)
Fixpoint chain (a : Z) (l : list block) (z : Z) : Prop :=
  match l with
  | [] => a = z
  | b :: r => fst b = a /\ 0 <= snd b /\ chain (a + snd b) r z
  end.

Lemma chain_app : forall l1 l2 a m z, chain a l1 m -> chain m l2 z -> chain a (l1 ++ l2) z.
Proof.
  induction l1 as [|b r IH]; cbn; intros l2 a m z H1 H2.
  - subst; exact H2.
  - destruct H1 as [E [P C]]. repeat split; auto. eapply IH; eauto.
Qed.

Lemma chain_le : forall l a z, chain a l z -> a <= z.
Proof.
  induction l as [|b r IH]; cbn; intros a z H; [lia|].
  destruct H as [E [P C]]. apply IH in C. lia.
Qed.

Lemma chain_inside : forall l a z, chain a l z ->
  forall i, a <= i < z <-> exists b, In b l /\ inside i b.
Proof.
  induction l as [|b r IH]; cbn; intros a z H i.
  - subst. split; [lia | intros [b [[] _]]].
  - destruct H as [E [P C]]. pose proof (chain_le _ _ _ C) as L.
    specialize (IH _ _ C i). unfold inside in *. split.
    + intros R. destruct (Z.lt_ge_cases i (a + snd b)).
      * exists b. split; [left; reflexivity | lia].
      * destruct (proj1 IH ltac:(lia)) as [b' [I B]]. exists b'. split; [right; exact I | lia].
    + intros [b' [[<-|I] B]]; [lia|].
      assert (a + snd b <= i < z) by (apply IH; eauto). lia.
Qed.

Lemma chain_tiles : forall l a z, chain a l z -> tiles a (z - a) l.
Proof.
  intros l a z H. split.
  - intros i. rewrite <- (chain_inside _ _ _ H i). lia.
  - revert a H. induction l as [|b r IH]; cbn; intros a H; [constructor|].
    destruct H as [E [P C]]. constructor; [|eapply IH; eauto].
    apply Forall_forall. intros b' I i [B1 B2].
    assert (a + snd b <= i < z) by (apply (chain_inside _ _ _ C); eauto).
    unfold inside in *. lia.
Qed.

Lemma many_chain : forall i n a, (n <> 0%nat -> i = a) -> chain a (many i n) (a + Z.of_nat n).
Proof.
  intros i [|n] a H; unfold many; cbn [chain fst snd]; [lia|].
  rewrite H by lia. repeat split; lia.
Qed.

Lemma single_chain : forall i, 0 <= i -> chain i (single i) (i + 1).
Proof.
  intros i H. unfold single. destruct (Z.ltb_spec i 0); [lia|].
  cbn. repeat split; lia.
Qed.

(** Members of two different parts of a list of pairwise disjoint blocks. *)
Lemma pairs_concat : forall (ls : list (list block)) i j a b,
  ForallOrdPairs disjoint (concat ls) -> (i < j)%nat ->
  In a (nth i ls []) -> In b (nth j ls []) -> disjoint a b.
Proof.
  assert (T : forall l1 l2, ForallOrdPairs disjoint (l1 ++ l2) ->
    (forall a b, In a l1 -> In b l2 -> disjoint a b) /\ ForallOrdPairs disjoint l2).
  { induction l1 as [|x r IH]; cbn; intros l2 P; [split; [intros ? ? []|exact P]|].
    inversion P as [|? ? F P']; subst. destruct (IH _ P') as [D P2]. split; [|exact P2].
    intros a b [<-|Ia] Ib; [|auto]. rewrite Forall_forall in F. apply F, in_or_app; auto. }
  induction ls as [|l r IH]; cbn; intros i j a b P L Ia Ib.
  - destruct i; destruct Ia.
  - destruct (T _ _ P) as [D P2]. destruct i, j; try lia.
    + apply D; [exact Ia|]. apply in_concat. exists (nth j r []). split; [|exact Ib].
      destruct (nth_in_or_default j r []) as [N|N]; [exact N|]. rewrite N in Ib; destruct Ib.
    + apply (IH i j); auto; lia.
Qed.

Lemma tiles_in_range : forall first n l b i,
  tiles first n l -> In b l -> inside i b -> first <= i < first + n.
Proof. intros first n l b i [T _] I B. apply T. eauto. Qed.

Lemma many_in : forall i n, (0 < n)%nat -> In (i, Z.of_nat n) (many i n).
Proof. intros i [|n] H; [lia|]. left; reflexivity. Qed.

(** The blocks of the extensions follow one another. *)
Lemma layout : forall is s ix x ip po im m (bf bb : bool) if_ ib ie e z,
  let f := (if bf then 1%nat else 0%nat) in
  let b := (if bb then 1%nat else 0%nat) in
  (s <> 0%nat -> is = z) ->
  (x <> 0%nat -> ix = z + Z.of_nat s) ->
  (po <> 0%nat -> ip = z + Z.of_nat s + Z.of_nat x) ->
  (m <> 0%nat -> im = z + Z.of_nat s + Z.of_nat x + Z.of_nat po) ->
  (bf = true -> if_ = z + Z.of_nat s + Z.of_nat x + Z.of_nat po + Z.of_nat m) ->
  (bb = true -> ib = z + Z.of_nat s + Z.of_nat x + Z.of_nat po + Z.of_nat m + Z.of_nat f) ->
  (e <> 0%nat ->
     ie = z + Z.of_nat s + Z.of_nat x + Z.of_nat po + Z.of_nat m + Z.of_nat f + Z.of_nat b) ->
  chain z
    (many is s ++ many ix x ++ many ip po ++ many im m ++ many if_ f ++ many ib b ++
     many ie e)
    (z + Z.of_nat s + Z.of_nat x + Z.of_nat po + Z.of_nat m + Z.of_nat f + Z.of_nat b +
     Z.of_nat e).
Proof.
  intros is s ix x ip po im m bf bb if_ ib ie e z f b S X P M F B E.
  eapply chain_app; [apply many_chain; auto|].
  eapply chain_app; [apply many_chain; auto|].
  eapply chain_app; [apply many_chain; auto|].
  eapply chain_app; [apply many_chain; auto|].
  eapply chain_app; [apply many_chain; intros N; unfold f in *; destruct bf; [auto|lia]|].
  eapply chain_app; [apply many_chain; intros N; unfold b in *; destruct bb; [auto|lia]|].
  apply many_chain; auto.
Qed.

(** The list of blocks of the variables as a list of lists. *)
Lemma variables_concat : forall p x, variables p x = concat
  [single (waterSwitchIdx x); single (pressureSwitchIdx x); single (compositionSwitchIdx x);
   many (solventSaturationIdx x) (p_solvents p); many (zFractionIdx x) (p_extbos p);
   many (polymerConcentrationIdx x) (p_polymers p);
   many (microbialConcentrationIdx x) (p_micps p);
   many (foamConcentrationIdx x) (if p_foam p then 1 else 0);
   many (saltConcentrationIdx x) (if p_brine p then 1 else 0);
   many (temperatureIdx x) (p_energy p)].
Proof. intros. unfold variables. cbn [concat]. rewrite app_nil_r. reflexivity. Qed.

Lemma equations_concat : forall n p x, equations n p x = concat
  [many (conti0EqIdx x) n;
   many (contiSolventEqIdx x) (p_solvents p); many (contiZfracEqIdx x) (p_extbos p);
   many (contiPolymerEqIdx x) (p_polymers p);
   many (contiMicrobialEqIdx x) (p_micps p);
   many (contiFoamEqIdx x) (if p_foam p then 1 else 0);
   many (contiBrineEqIdx x) (if p_brine p then 1 else 0);
   many (contiEnergyEqIdx x) (p_energy p)].
Proof. intros. unfold equations. cbn [concat]. rewrite app_nil_r. reflexivity. Qed.

Lemma tiles_eq : forall a n n' l, n = n' -> tiles a n l -> tiles a n' l.
Proof. intros; subst; assumption. Qed.

Ltac open p :=
  destruct p as [s x po e f b o m];
  unfold three_phase, two_phase, one_phase, num_eq, nS, nX, nP, nE, nM, nF, nB, off, b2Z, used in *;
  cbn -[Z.ltb Z.add Z.of_nat many single concat] in *.

Ltac ifs :=
  repeat match goal with
  | |- context [if Z.ltb ?a ?b then _ else _] => destruct (Z.ltb_spec a b)
  end.

(** The switching variables come first: three, two or one of them. *)
Lemma switches3 : forall o l z, 0 <= o -> chain (o + 3) l z ->
  chain o (single (o + 0) ++ single (o + 1) ++ single (o + 2) ++ l) z.
Proof.
  intros o l z H C. unfold single.
  repeat match goal with |- context [Z.ltb ?a ?b] => destruct (Z.ltb_spec a b); [lia|] end.
  cbn -[Z.add]. split; [lia|]. split; [lia|]. split; [lia|]. split; [lia|]. split; [lia|].
  split; [lia|]. replace (o + 1 + 1 + 1) with (o + 3) by lia. exact C.
Qed.

Lemma switches2 : forall a b c o l z, 0 <= o -> chain (o + 2) l z ->
  (a = o + 0 /\ b = o + 1 /\ c = -10000) \/ (a = -10000 /\ b = o + 0 /\ c = o + 1) ->
  chain o (single a ++ single b ++ single c ++ l) z.
Proof.
  intros a b c o l z H C D. unfold single.
  destruct D as [[Ea [Eb Ec]]|[Ea [Eb Ec]]];
  repeat match goal with |- context [Z.ltb ?a ?b] => destruct (Z.ltb_spec a b); try lia end;
  cbn -[Z.add]; (split; [lia|]; split; [lia|]; split; [lia|]; split; [lia|]);
  replace (o + 1 + 1) with (o + 2) by lia; exact C.
Qed.

Lemma switches1 : forall o l z, 0 <= o -> chain (o + 1) l z ->
  chain o (single (-10000) ++ single (o + 0) ++ single (-10000) ++ l) z.
Proof.
  intros o l z H C. unfold single. cbn -[Z.add Z.ltb].
  repeat match goal with |- context [Z.ltb ?a ?b] => destruct (Z.ltb_spec a b); try lia end.
  cbn -[Z.add]. split; [lia|]. split; [lia|]. exact C.
Qed.

Ltac place p := intros; ifs; lia.

(** ** Three phases *)
Lemma variables3_if : forall p,
  (p_extbos p = 0 \/ (p_polymers p = 0 /\ p_micps p = 0 /\ p_brine p = false))%nat ->
  (p_polymers p = 0 \/ p_micps p = 0)%nat ->
  tiles (off p) (numEq (three_phase p)) (variables p (three_phase p)).
Proof.
  intros p HX HM. open p.
  eapply tiles_eq; [|apply chain_tiles; unfold variables; cbn -[Z.ltb Z.add Z.of_nat many single];
    apply switches3; [lia|]; apply layout].
  - destruct f, b; lia.
  - intros; ifs; lia.
  - intros; ifs; lia.
  - intros; ifs; lia.
  - intros; ifs; lia.
  - intros; subst; lia.
  - intros; subst; destruct f; destruct HX as [HX|[_ [_ HX]]]; try discriminate; lia.
  - intros; ifs; destruct f, b; lia.
Qed.

(** Two blocks which contain the same index contradict a tiling. *)
Lemma clash : forall first n ls i j k a b,
  tiles first n (concat ls) -> (i < j)%nat -> In a (nth i ls []) -> In b (nth j ls []) ->
  inside k a -> inside k b -> False.
Proof.
  intros first n ls i j k a b [_ P] L Ia Ib Ka Kb.
  exact (pairs_concat _ _ _ _ _ P L Ia Ib k (conj Ka Kb)).
Qed.

Lemma outside : forall first n ls i k a,
  tiles first n (concat ls) -> In a (nth i ls []) -> inside k a -> first <= k < first + n.
Proof.
  intros first n ls i k a T I K. eapply tiles_in_range; [exact T| |exact K].
  apply in_concat. exists (nth i ls []). split; [|exact I].
  destruct (nth_in_or_default i ls []) as [N|N]; [exact N|]. rewrite N in I; destruct I.
Qed.

Ltac inb := unfold inside; cbn [fst snd]; ifs; lia.
Ltac clash_at T i j k :=
  eapply (clash _ _ _ i j k _ _ T); [lia| cbn [nth]; apply many_in; lia
    | cbn [nth]; apply many_in; lia | inb | inb].

Lemma variables3_only_if : forall p,
  tiles (off p) (numEq (three_phase p)) (variables p (three_phase p)) ->
  (p_extbos p = 0 \/ (p_polymers p = 0 /\ p_micps p = 0 /\ p_brine p = false))%nat /\
  (p_polymers p = 0 \/ p_micps p = 0)%nat.
Proof.
  intros p T. rewrite variables_concat in T. open p.
  assert (PM : (po = 0 \/ m = 0)%nat).
  { destruct po as [|po]; [auto|]. destruct m as [|m]; [auto|]. exfalso.
    clash_at T 5%nat 6%nat (Z.of_nat o + 3 + Z.of_nat s). }
  split; [|exact PM].
  destruct x as [|x]; [auto|]. right.
  assert (P0 : po = 0%nat).
  { destruct po as [|po]; [auto|]. exfalso.
    clash_at T 4%nat 5%nat (Z.of_nat o + 3 + Z.of_nat s). }
  assert (M0 : m = 0%nat).
  { destruct m as [|m]; [auto|]. exfalso.
    clash_at T 4%nat 6%nat (Z.of_nat o + 3 + Z.of_nat s). }
  subst po m. split; [reflexivity|]. split; [reflexivity|].
  destruct b; [exfalso|reflexivity].
  destruct (Z.le_gt_cases (Z.of_nat (S x)) (Z.of_nat e)).
  - destruct e as [|e]; [lia|].
    set (k := Z.of_nat o + 3 + Z.of_nat s + Z.of_nat (S x) + Z.of_nat (S x) + Z.of_nat 0 +
              Z.of_nat 0 + (if f then 1 else 0)).
    eapply (clash _ _ _ 8%nat 9%nat k _ _ T); [lia| cbn [nth]; apply many_in; lia
      | cbn [nth]; apply many_in; lia | unfold k; inb | unfold k].
    unfold inside; cbn [fst snd]; ifs; destruct f; lia.
  - set (k := Z.of_nat o + 3 + Z.of_nat s + Z.of_nat (S x) + Z.of_nat (S x) + Z.of_nat 0 +
              Z.of_nat 0 + (if f then 1 else 0)).
    eassert (R : Z.of_nat o <= k < _).
    { eapply (outside _ _ _ 8%nat k _ T); [cbn [nth]; apply many_in; lia | unfold k; inb]. }
    unfold k in R. destruct f; lia.
Qed.

Lemma equations3_iff : forall p,
  tiles (off p) (numEq (three_phase p)) (equations 3 p (three_phase p)) <->
  (p_polymers p = 0 \/ p_micps p = 0)%nat.
Proof.
  intros p. split.
  - intros T. rewrite equations_concat in T. open p.
    destruct po as [|po]; [auto|]. destruct m as [|m]; [auto|]. exfalso.
    clash_at T 3%nat 4%nat (Z.of_nat o + 3 + Z.of_nat s + Z.of_nat x).
  - intros HM. open p.
    eapply tiles_eq; [|apply chain_tiles; unfold equations;
      cbn -[Z.ltb Z.add Z.of_nat many single];
      eapply chain_app; [apply many_chain with (a := Z.of_nat o); lia|]; apply layout];
      intros; ifs; destruct f, b; try discriminate; lia.
Qed.

(** ** Two phases *)
Definition apart2 (p : params) : Prop :=
  (p_extbos p = 0%nat \/
   (p_polymers p = 0%nat /\ p_micps p = 0%nat /\ p_foam p = false /\ p_brine p = false)) /\
  (p_polymers p = 0 \/ p_micps p = 0)%nat.

Lemma variables2_iff : forall dis p, (dis <= 2)%nat ->
  tiles (off p) (numEq (two_phase dis p)) (variables p (two_phase dis p)) <-> apart2 p.
Proof.
  intros dis p D. unfold apart2. split.
  - intros T. rewrite variables_concat in T. open p.
    assert (PM : (po = 0 \/ m = 0)%nat).
    { destruct po as [|po]; [auto|]. destruct m as [|m]; [auto|]. exfalso.
      clash_at T 5%nat 6%nat (Z.of_nat o + 2 + Z.of_nat s). }
    split; [|exact PM].
    destruct x as [|x]; [auto|]. right.
    assert (P0 : po = 0%nat).
    { destruct po as [|po]; [auto|]. exfalso.
      clash_at T 4%nat 5%nat (Z.of_nat o + 2 + Z.of_nat s). }
    assert (M0 : m = 0%nat).
    { destruct m as [|m]; [auto|]. exfalso.
      clash_at T 4%nat 6%nat (Z.of_nat o + 2 + Z.of_nat s). }
    subst po m. split; [reflexivity|]. split; [reflexivity|].
    assert (F0 : f = false).
    { destruct f; [exfalso|reflexivity]. clash_at T 4%nat 7%nat (Z.of_nat o + 2 + Z.of_nat s). }
    split; [exact F0|]. subst f. destruct b; [exfalso|reflexivity].
    clash_at T 4%nat 8%nat (Z.of_nat o + 2 + Z.of_nat s).
  - intros [HX HM]. open p.
    eapply tiles_eq; [|apply chain_tiles; unfold variables;
      cbn -[Z.ltb Z.add Z.of_nat many single];
      apply switches2 with (o := Z.of_nat o); [lia|apply layout|]].
    + destruct f, b; lia.
    + intros; ifs; lia.
    + intros; ifs; lia.
    + intros; ifs; lia.
    + intros; ifs; lia.
    + intros ->. destruct HX as [HX|[_ [_ [HX _]]]]; [lia|discriminate].
    + intros ->. destruct HX as [HX|[_ [_ [_ HX]]]]; [destruct f; lia|discriminate].
    + intros; ifs; destruct f, b; lia.
    + destruct dis as [|[|[|dis]]]; [left|right|left|lia]; cbn; auto.
Qed.

Lemma equations2_iff : forall dis p,
  tiles (off p) (numEq (two_phase dis p)) (equations 2 p (two_phase dis p)) <-> apart2 p.
Proof.
  intros dis p. unfold apart2. split.
  - intros T. rewrite equations_concat in T. open p.
    assert (PM : (po = 0 \/ m = 0)%nat).
    { destruct po as [|po]; [auto|]. destruct m as [|m]; [auto|]. exfalso.
      clash_at T 3%nat 4%nat (Z.of_nat o + 2 + Z.of_nat s). }
    split; [|exact PM].
    destruct x as [|x]; [auto|]. right.
    assert (P0 : po = 0%nat).
    { destruct po as [|po]; [auto|]. exfalso.
      clash_at T 2%nat 3%nat (Z.of_nat o + 2 + Z.of_nat s). }
    assert (M0 : m = 0%nat).
    { destruct m as [|m]; [auto|]. exfalso.
      clash_at T 2%nat 4%nat (Z.of_nat o + 2 + Z.of_nat s). }
    subst po m. split; [reflexivity|]. split; [reflexivity|].
    assert (F0 : f = false).
    { destruct f; [exfalso|reflexivity]. clash_at T 2%nat 5%nat (Z.of_nat o + 2 + Z.of_nat s). }
    split; [exact F0|]. subst f. destruct b; [exfalso|reflexivity].
    clash_at T 2%nat 6%nat (Z.of_nat o + 2 + Z.of_nat s).
  - intros [HX HM]. open p.
    eapply tiles_eq; [|apply chain_tiles; unfold equations;
      cbn -[Z.ltb Z.add Z.of_nat many single];
      eapply chain_app; [apply many_chain with (a := Z.of_nat o); lia|]; apply layout].
    + destruct f, b; lia.
    + intros; ifs; lia.
    + intros; ifs; lia.
    + intros; ifs; lia.
    + intros; ifs; lia.
    + intros ->. destruct HX as [HX|[_ [_ [HX _]]]]; [lia|discriminate].
    + intros ->. destruct HX as [HX|[_ [_ [_ HX]]]]; [destruct f; lia|discriminate].
    + intros; ifs; destruct f, b; lia.
Qed.

(** ** One phase *)
Definition apart1 (p : params) : Prop :=
  (p_extbos p = 0%nat \/
   (p_polymers p = 0%nat /\ p_micps p = 0%nat /\ p_foam p = false)) /\
  (p_polymers p = 0 \/ p_micps p = 0)%nat.

Lemma variables1_iff : forall p,
  tiles (off p) (numEq (one_phase p)) (variables p (one_phase p)) <-> apart1 p.
Proof.
  intros p. unfold apart1. split.
  - intros T. rewrite variables_concat in T. open p.
    assert (PM : (po = 0 \/ m = 0)%nat).
    { destruct po as [|po]; [auto|]. destruct m as [|m]; [auto|]. exfalso.
      clash_at T 5%nat 6%nat (Z.of_nat o + 1 + Z.of_nat s). }
    split; [|exact PM].
    destruct x as [|x]; [auto|]. right.
    assert (P0 : po = 0%nat).
    { destruct po as [|po]; [auto|]. exfalso.
      clash_at T 4%nat 5%nat (Z.of_nat o + 1 + Z.of_nat s). }
    assert (M0 : m = 0%nat).
    { destruct m as [|m]; [auto|]. exfalso.
      clash_at T 4%nat 6%nat (Z.of_nat o + 1 + Z.of_nat s). }
    subst po m. split; [reflexivity|]. split; [reflexivity|].
    destruct f; [exfalso|reflexivity]. clash_at T 4%nat 7%nat (Z.of_nat o + 1 + Z.of_nat s).
  - intros [HX HM]. open p.
    eapply tiles_eq; [|apply chain_tiles; unfold variables;
      cbn -[Z.ltb Z.add Z.of_nat many single];
      apply switches1 with (o := Z.of_nat o); [lia|apply layout]].
    + destruct f, b; lia.
    + intros; ifs; lia.
    + intros; ifs; lia.
    + intros; ifs; lia.
    + intros; ifs; lia.
    + intros ->. destruct HX as [HX|[_ [_ HX]]]; [lia|discriminate].
    + intros ->. destruct f; lia.
    + intros; ifs; destruct f, b; lia.
Qed.

Lemma equations1_iff : forall p,
  tiles (off p) (numEq (one_phase p)) (equations 1 p (one_phase p)) <-> apart1 p.
Proof.
  intros p. unfold apart1. split.
  - intros T. rewrite equations_concat in T. open p.
    assert (PM : (po = 0 \/ m = 0)%nat).
    { destruct po as [|po]; [auto|]. destruct m as [|m]; [auto|]. exfalso.
      clash_at T 3%nat 4%nat (Z.of_nat o + 1 + Z.of_nat s). }
    split; [|exact PM].
    destruct x as [|x]; [auto|]. right.
    assert (P0 : po = 0%nat).
    { destruct po as [|po]; [auto|]. exfalso.
      clash_at T 2%nat 3%nat (Z.of_nat o + 1 + Z.of_nat s). }
    assert (M0 : m = 0%nat).
    { destruct m as [|m]; [auto|]. exfalso.
      clash_at T 2%nat 4%nat (Z.of_nat o + 1 + Z.of_nat s). }
    subst po m. split; [reflexivity|]. split; [reflexivity|].
    destruct f; [exfalso|reflexivity]. clash_at T 2%nat 5%nat (Z.of_nat o + 1 + Z.of_nat s).
  - intros [HX HM]. open p.
    eapply tiles_eq; [|apply chain_tiles; unfold equations;
      cbn -[Z.ltb Z.add Z.of_nat many single];
      eapply chain_app; [apply many_chain with (a := Z.of_nat o); lia|]; apply layout].
    + destruct f, b; lia.
    + intros; ifs; lia.
    + intros; ifs; lia.
    + intros; ifs; lia.
    + intros; ifs; lia.
    + intros ->. destruct HX as [HX|[_ [_ HX]]]; [lia|discriminate].
    + intros ->. destruct f; lia.
    + intros; ifs; destruct f, b; lia.
Qed.

(** ** The named members of the blocks *)
Lemma names3 : forall p, names_consecutive p (three_phase p).
Proof. intros p. open p. unfold names_consecutive. cbn -[Z.ltb Z.add Z.of_nat]. repeat split; intros; ifs; lia. Qed.
Lemma names2 : forall dis p, names_consecutive p (two_phase dis p).
Proof. intros dis p. open p. unfold names_consecutive. cbn -[Z.ltb Z.add Z.of_nat]. repeat split; intros; ifs; lia. Qed.
Lemma names1 : forall p, names_consecutive p (one_phase p).
Proof. intros p. open p. unfold names_consecutive. cbn -[Z.ltb Z.add Z.of_nat]. repeat split; intros; ifs; lia. Qed.
