(** * C113: initialization of the solvent module *)
From Coq Require Import List Bool Arith Lia.
From Verif Require Import DeckInitModel DeckInitSpec DeckInitProofs SolvInitModel SolvInitSpec.
Import ListNotations.

Section Cases.
  Context {T : Type} (initial ones linear zero : T).

  Lemma orDefault_cases : forall n src default,
    (exists l, orDefault initial n src default = Done l /\ noneOrAll n src /\ given n l src default) \/
    (orDefault initial n src default = Aborts /\ ~ noneOrAll n src).
  Proof.
    intros n src default. unfold orDefault, noneOrAll, given, assertion.
    destruct src as [|x src]; cbn [nonempty].
    - left. exists (repeat default n). split; [reflexivity|]. split; [left; reflexivity|]. split; [apply repeat_length|].
      intros i Hi. apply nth_error_repeat; exact Hi.
    - destruct (n =? length (x :: src)) eqn:L; cbn [bind].
      + apply Nat.eqb_eq in L. left. destruct (copy_done initial n (x :: src)) as (l & C1 & C2 & C3); [lia|].
        exists l. split; [exact C1|]. split; [right; congruence|]. split; assumption.
      + apply Nat.eqb_neq in L. right. split; [reflexivity|]. intros [A|A]; [discriminate|congruence].
  Qed.

  Lemma single_cases : forall (src : list T), src <> [] ->
    (exists l, bind (assertion (1 =? length src)) (fun _ => copy initial 1 src) = Done l /\ length src = 1 /\ sameUpTo 1 l src) \/
    (bind (assertion (1 =? length src)) (fun _ => copy initial 1 src) = Aborts /\ length src <> 1).
  Proof.
    intros src N. unfold assertion. destruct (1 =? length src) eqn:L; cbn [bind].
    - apply Nat.eqb_eq in L. left. destruct (copy_done initial 1 src) as (l & C1 & C2); [lia|].
      exists l. split; [exact C1|]. split; [congruence|exact C2].
    - apply Nat.eqb_neq in L. right. split; [reflexivity|congruence].
  Qed.

  Lemma miscible_cases : forall d : solventDeck T, misc d <> [] ->
    match miscibleInit initial ones linear zero d with
    | Done m => miscibleComplete d /\ miscibleRegions ones linear zero d m
    | Throws e => (e = eSof2 /\ sof2 d = [] /\ oil d = true) \/ (e = eTlmixpar /\ tlmixpar d = [])
    | _ => (sof2 d <> [] /\ length (sof2 d) < sNumSat d) \/ length (misc d) <> 1 \/ ~ noneOrAll 1 (pmisc d) \/
      ~ noneOrAll (sNumSat d) (msfn d) \/ ~ noneOrAll 1 (sorwmis d) \/ ~ noneOrAll 1 (sgcwmis d) \/
      ~ noneOrAll 1 (tlmixpar d) \/ ~ noneOrAll 1 (tlpmixpa d)
    end.
  Proof.
    intros d NM. unfold miscibleInit.
    assert (SO : (exists s, (if nonempty (sof2 d) then copy initial (sNumSat d) (sof2 d) else if oil d then Throws eSof2 else Done []) = Done s /\
                    (sof2 d = [] -> oil d = false) /\ (sof2 d <> [] -> sNumSat d <= length (sof2 d)) /\
                    (sof2 d <> [] -> sameUpTo (sNumSat d) s (sof2 d))) \/
                 ((if nonempty (sof2 d) then copy initial (sNumSat d) (sof2 d) else if oil d then Throws eSof2 else Done []) = PastEnd /\
                    sof2 d <> [] /\ length (sof2 d) < sNumSat d) \/
                 ((if nonempty (sof2 d) then copy initial (sNumSat d) (sof2 d) else if oil d then Throws eSof2 else Done []) = Throws eSof2 /\
                    sof2 d = [] /\ oil d = true)).
    { destruct (nonempty (sof2 d)) eqn:N.
      - apply nonempty_true in N. destruct (le_lt_dec (sNumSat d) (length (sof2 d))) as [L|L].
        + left. destruct (copy_done initial _ _ L) as (s & C1 & C2). exists s. split; [exact C1|]. split; [congruence|]. split; intros; assumption.
        + right; left. rewrite (copy_past initial _ _ L). repeat split; assumption.
      - apply nonempty_false in N. destruct (oil d) eqn:O.
        + right; right. repeat split; assumption.
        + left. exists []. split; [reflexivity|]. split; [intros; reflexivity|]. split; congruence. }
    destruct SO as [(s & -> & S1 & S2 & S3)|[(-> & S1 & S2)|(-> & S1 & S2)]]; cbn [bind]; [|tauto|tauto].
    destruct (nonempty (misc d)) eqn:N; [|apply nonempty_false in N; congruence].
    destruct (single_cases (misc d) NM) as [(mi & -> & M1 & M2)|(-> & M1)]; cbn [bind]; [|tauto].
    destruct (orDefault_cases 1 (pmisc d) ones) as [(pm & -> & P1 & P2)|(-> & P1)]; cbn [bind]; [|tauto].
    destruct (orDefault_cases (sNumSat d) (msfn d) linear) as [(ms & -> & Q1 & Q2)|(-> & Q1)]; cbn [bind]; [|tauto].
    destruct (orDefault_cases 1 (sorwmis d) zero) as [(sw & -> & R1 & R2)|(-> & R1)]; cbn [bind]; [|tauto].
    destruct (orDefault_cases 1 (sgcwmis d) zero) as [(sg & -> & U1 & U2)|(-> & U1)]; cbn [bind]; [|tauto].
    destruct (nonempty (tlmixpar d)) eqn:NT; [apply nonempty_true in NT|apply nonempty_false in NT; cbn [bind]; tauto].
    destruct (single_cases (tlmixpar d) NT) as [(tl & -> & V1 & V2)|(-> & V1)]; cbn [bind].
    2: { assert (~ noneOrAll 1 (tlmixpar d)) by (intros [X|X]; contradiction). tauto. }
    assert (W : (if nonempty (tlpmixpa d) then
            if nonempty (tlpmixpa d) then bind (assertion (1 =? length (tlpmixpa d))) (fun _ => copy initial 1 (tlpmixpa d))
            else if nonempty pm then Done pm else Throws eTlpmixpa
          else Done (repeat ones 1)) = orDefault initial 1 (tlpmixpa d) ones)
      by (unfold orDefault; destruct (nonempty (tlpmixpa d)); reflexivity).
    rewrite W; clear W.
    destruct (orDefault_cases 1 (tlpmixpa d) ones) as [(tp & -> & X1 & X2)|(-> & X1)]; cbn [bind]; [|tauto].
    unfold miscibleComplete, miscibleRegions; cbn [mSof2 mMisc mPmisc mMsfn mSorwmis mSgcwmis mTlmix mTlpmix].
    split; [exact (conj S1 (conj S2 (conj M1 (conj P1 (conj Q1 (conj R1 (conj U1 (conj V1 X1))))))))|].
    exact (conj S3 (conj M2 (conj P2 (conj Q2 (conj R2 (conj U2 (conj V2 X2))))))).
  Qed.

  Lemma solvent_cases : forall en (d : solventDeck T),
    match solventInit initial ones linear zero en d with
    | Done None => en = false /\ solvent d = false
    | Done (Some p) => en = true /\ solvent d = true /\ solventComplete d /\ solventRegions ones linear zero d p
    | Throws e => solventFault en d e
    | _ => solventMisfit d
    end.
  Proof.
    intros en d. unfold solventInit, solventFault, solventMisfit.
    destruct en, (solvent d) eqn:Hs; cbn [andb negb]; [|tauto|tauto|tauto].
    destruct (co2sol d && h2sol d) eqn:B; [apply andb_true_iff in B; tauto|]. cbv zeta.
    assert (NB : ~ (co2sol d = true /\ h2sol d = true)) by (intros [X Y]; rewrite X, Y in B; discriminate).
    destruct (le_lt_dec (sNumSat d) (length (ssfn d))) as [L|L]; [|rewrite (copy_past initial _ _ L); cbn [bind]; tauto].
    destruct (copy_done initial _ _ L) as (ss & -> & C2); cbn [bind].
    assert (FIN : forall m, (misc d <> [] -> miscibleComplete d) ->
              match m with None => misc d = [] | Some m => misc d <> [] /\ miscibleRegions ones linear zero d m end ->
              true = true /\ true = true /\ solventComplete d /\
              solventRegions ones linear zero d
                (mkSolventParams (if co2sol d || h2sol d then if co2sol d then Co2Pvt else H2Pvt else OwnPvt)
                   (if co2sol d || h2sol d then disgasw d else false) ss m)).
    { intros m MC MR. split; [reflexivity|]. split; [reflexivity|]. split; [exact (conj NB (conj L MC))|].
      unfold solventRegions; cbn [sSsfn sPvt sRsSolw sMisc]. split; [exact C2|].
      clear - B NB MR. destruct (co2sol d), (h2sol d), (disgasw d); cbn in B |- *; try discriminate;
        (split; [split; congruence|]); (split; [split; congruence|]); (split; [|exact MR]);
        split; intros H; try discriminate; try (split; auto); try reflexivity; destruct H as [H1 H2]; try discriminate; destruct H2; discriminate. }
    destruct (nonempty (misc d)) eqn:N.
    - apply nonempty_true in N. pose proof (miscible_cases d N) as MC.
      destruct (miscibleInit initial ones linear zero d) as [m|e| |]; cbn [bind].
      + destruct MC as [M1 M2]. apply FIN; [intros; exact M1|split; assumption].
      + tauto.
      + right. split; [exact N|exact MC].
      + right. split; [exact N|exact MC].
    - apply nonempty_false in N. cbn [bind]. apply FIN; [congruence|exact N].
  Qed.
End Cases.

(** Solvent is initialized for exactly the decks with all the tables, and skipped for exactly those without SOLVENT, if
    it is not compiled in. *)
Theorem C113_accepted : forall T (initial ones linear zero : T) en (d : solventDeck T),
  ((exists p, solventInit initial ones linear zero en d = Done (Some p)) <-> (en = true /\ solvent d = true /\ solventComplete d)) /\
  (solventInit initial ones linear zero en d = Done None <-> (en = false /\ solvent d = false)).
Proof.
  intros T initial ones linear zero en d. pose proof (solvent_cases initial ones linear zero en d) as H. split; split.
  - intros [p E]. rewrite E in H. tauto.
  - intros (-> & S0 & (C1 & C2 & C3)). destruct (solventInit initial ones linear zero true d) as [[p|]|e| |].
    + exists p; reflexivity.
    + destruct H; discriminate.
    + exfalso. destruct H as [(_ & _ & H)|[(_ & H & _)|[(_ & H1 & H2)|(N & H)]]]; try congruence; [tauto|].
      destruct (C3 N) as (A & _ & _ & _ & _ & _ & _ & B & _). destruct H as [(_ & X & Y)|(_ & X)]; [rewrite (A X) in Y; discriminate|rewrite X in B; discriminate].
    + exfalso. destruct H as [H|(N & H)]; [lia|]. destruct (C3 N) as (A & A' & M & A1 & A2 & A3 & A4 & B & A5).
      assert (noneOrAll 1 (tlmixpar d)) by (right; exact B).
      destruct H as [(X & Y)|H]; [specialize (A' X); lia|]. tauto.
    + exfalso. destruct H as [H|(N & H)]; [lia|]. destruct (C3 N) as (A & A' & M & A1 & A2 & A3 & A4 & B & A5).
      assert (noneOrAll 1 (tlmixpar d)) by (right; exact B).
      destruct H as [(X & Y)|H]; [specialize (A' X); lia|]. tauto.
  - intros E. rewrite E in H. exact H.
  - intros [-> B]. unfold solventInit. rewrite B. reflexivity.
Qed.

(** After it every region has the tables of the deck or the default. *)
Theorem C113_regions : forall T (initial ones linear zero : T) en (d : solventDeck T) p,
  solventInit initial ones linear zero en d = Done (Some p) -> solventRegions ones linear zero d p.
Proof.
  intros T initial ones linear zero en d p E. pose proof (solvent_cases initial ones linear zero en d) as H. rewrite E in H. tauto.
Qed.

(** An error names something which is wrong; a failing assertion or an access to a missing table means that the counts of
    tables and regions do not fit. *)
Theorem C113_errors : forall T (initial ones linear zero : T) en (d : solventDeck T),
  (forall e, solventInit initial ones linear zero en d = Throws e -> solventFault en d e) /\
  (solventInit initial ones linear zero en d = Aborts \/ solventInit initial ones linear zero en d = PastEnd -> solventMisfit d).
Proof.
  intros T initial ones linear zero en d. pose proof (solvent_cases initial ones linear zero en d) as H. split.
  - intros e E. rewrite E in H. exact H.
  - intros [E|E]; rewrite E in H; exact H.
Qed.

(** The tables of PMISC are never used for a defaulted TLPMIXPA, although the source and the message of the error say so:
    the branch is never reached, nor is its error. *)
Theorem C113_tlpmixpa_refuted : forall T (initial ones linear zero : T) en (d : solventDeck T) p m,
  solventInit initial ones linear zero en d = Done (Some p) -> sMisc p = Some m -> tlpmixpa d = [] ->
  mTlpmix m = [ones] /\ (forall x, pmisc d = [x] -> x <> ones -> mTlpmix m <> mPmisc m).
Proof.
  intros T initial ones linear zero en d p m E M N.
  pose proof (C113_regions T initial ones linear zero en d p E) as (_ & _ & _ & _ & R). rewrite M in R.
  destruct R as (_ & _ & _ & P & _ & _ & _ & _ & Q). unfold given in P, Q. rewrite N in Q. destruct Q as [Q1 Q2].
  assert (E1 : mTlpmix m = [ones]).
  { specialize (Q2 0 (le_n 1)). destruct (mTlpmix m) as [|y [|z l]]; try discriminate. cbn in Q2. congruence. }
  split; [exact E1|]. intros x X NX. rewrite X in P. destruct P as [P1 P2]. specialize (P2 0 (le_n 1)).
  rewrite E1. intros C. rewrite <- C in P2. cbn in P2. congruence.
Qed.

(** ** Cases which meet the hypotheses *)
Definition exSolvent := mkSolventDeck true false true true true 2 [11; 12] [21] [31; 32] [41] [] [] [51] [61] [].

Example C113_ex : solventComplete exSolvent /\
  solventInit 0 1 2 3 true exSolvent =
  Done (Some (mkSolventParams H2Pvt true [11; 12] (Some (mkMiscibleParams [31; 32] [21] [41] [2; 2] [3] [51] [61] [1])))).
Proof.
  split; [|reflexivity]. unfold solventComplete, miscibleComplete, noneOrAll; cbn.
  split; [intros [X _]; discriminate|]. split; [lia|]. intros _. repeat split; try lia; auto; discriminate.
Qed.

Print Assumptions C113_accepted.
Print Assumptions C113_regions.
Print Assumptions C113_errors.
Print Assumptions C113_tlpmixpa_refuted.
