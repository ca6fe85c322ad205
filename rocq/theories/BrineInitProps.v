(** * C112: initialization of the brine module *)
From Coq Require Import List Bool Arith Lia.
From Verif Require Import DeckInitModel DeckInitSpec DeckInitProofs BrineInitModel BrineInitSpec.
Import ListNotations.

Section Loops.
  Context {T : Type} (initial : T) (join : T -> T -> T).

  Definition densityAt (salt src : list T) (i : nat) : option T :=
    match nth_error src i, nth_error salt i with Some b, Some c => Some (join c b) | _, _ => None end.

  Lemma density_loop : forall salt src is (dst : list T),
    fillDensity join salt src is dst = match loop (densityAt salt src) is dst with Some d => Done d | None => PastEnd end.
  Proof.
    induction is as [|i is IH]; intros dst; cbn; [reflexivity|]. unfold densityAt at 1.
    destruct (nth_error src i); [|reflexivity]. destruct (nth_error salt i); [apply IH|reflexivity].
  Qed.

  Lemma density_cases : forall n salt (src : list T), length src = n ->
    match fillDensity join salt src (seq 0 n) (repeat initial n) with
    | Done d' => n <= length salt /\ length d' = n /\
        forall i b c, i < n -> nth_error src i = Some b -> nth_error salt i = Some c -> nth_error d' i = Some (join c b)
    | PastEnd => length salt < n
    | _ => False
    end.
  Proof.
    intros n salt src L. rewrite density_loop. destruct (le_lt_dec n (length salt)) as [G|G].
    - destruct (loop_some (densityAt salt src) n 0 (repeat initial n)) as (d' & D1 & D2 & D3).
      + intros j _ B. unfold densityAt.
        destruct (nth_error src j) eqn:E1; [|apply nth_error_None in E1; lia].
        destruct (nth_error salt j) eqn:E2; [discriminate|apply nth_error_None in E2; lia].
      + rewrite repeat_length. lia.
      + rewrite D1. split; [exact G|]. split; [rewrite D2; apply repeat_length|]. intros i b c Hi Hb Hc.
        rewrite D3. cbn [Nat.leb andb Nat.add].
        replace (i <? n) with true by (symmetry; apply Nat.ltb_lt; exact Hi). unfold densityAt. rewrite Hb, Hc. reflexivity.
    - rewrite (loop_none _ _ _ _ (length salt)); [exact G|lia|lia|]. unfold densityAt.
      destruct (nth_error src (length salt)); [|reflexivity].
      replace (nth_error salt (length salt)) with (@None T) by (symmetry; apply nth_error_None; lia). reflexivity.
  Qed.

  Definition intoAt (n : nat) (src : list T) (i : nat) : option T := if i <? n then nth_error src i else None.

  Lemma into_loop : forall src is (dst : list T),
    fillInto src is dst = match loop (intoAt (length dst) src) is dst with Some d => Done d | None => PastEnd end.
  Proof.
    intros src is dst. assert (H : forall n, length dst = n -> fillInto src is dst = match loop (intoAt n src) is dst with Some d => Done d | None => PastEnd end).
    2: { apply H; reflexivity. }
    revert dst. induction is as [|i is IH]; intros dst n L; cbn [fillInto loop]; [reflexivity|]. unfold intoAt at 1. rewrite L.
    destruct (nth_error src i) as [x|], (i <? n); try reflexivity. apply IH. rewrite put_length. exact L.
  Qed.

  Lemma into_cases : forall n (src : list T),
    match fillInto src (seq 0 (length src)) (repeat initial n) with
    | Done d' => length src <= n /\ padded initial n d' src
    | PastEnd => n < length src
    | _ => False
    end.
  Proof.
    intros n src. rewrite into_loop, repeat_length. destruct (le_lt_dec (length src) n) as [G|G].
    - destruct (loop_some (intoAt n src) (length src) 0 (repeat initial n)) as (d' & D1 & D2 & D3).
      + intros j _ B. unfold intoAt. replace (j <? n) with true by (symmetry; apply Nat.ltb_lt; lia). apply nth_error_Some. lia.
      + rewrite repeat_length. lia.
      + rewrite D1. split; [exact G|]. split; [rewrite D2; apply repeat_length|]. intros i Hi. rewrite D3. cbn [Nat.leb andb Nat.add].
        destruct (i <? length src) eqn:E.
        * unfold intoAt. replace (i <? n) with true by (symmetry; apply Nat.ltb_lt; exact Hi).
          apply Nat.ltb_lt in E. destruct (nth_error src i) eqn:X; [reflexivity|apply nth_error_None in X; lia].
        * apply Nat.ltb_ge in E. replace (nth_error src i) with (@None T) by (symmetry; apply nth_error_None; exact E).
          apply nth_error_repeat; exact Hi.
    - rewrite (loop_none _ _ _ _ n); [exact G|lia|lia|]. unfold intoAt. rewrite Nat.ltb_irrefl. reflexivity.
  Qed.
End Loops.

Lemma brine_cases : forall T (initial : T) join en enSP (d : brineDeck T),
  match brineInit initial join en enSP d with
  | Done None => en = false /\ brine d = false
  | Done (Some p) => en = true /\ brine d = true /\ brineCounts enSP d /\ brineRegions initial join enSP d p
  | Throws e => (e = eEnabled /\ en = true /\ brine d = false) \/ (e = eDisabled /\ en = false /\ brine d = true)
  | Aborts => en = true /\ ((bdensity d <> [] /\ length (bdensity d) <> bNumPvt d) \/
              (enSP = true /\ saltsol d <> [] /\ length (saltsol d) <> bNumPvt d))
  | PastEnd => en = true /\ ((bdensity d <> [] /\ length (pvtwsalt d) < bNumPvt d) \/
               (enSP = true /\ (bNumPvt d < length (permfact d) \/ bNumSat d < length (pcfact d))))
  end.
Proof.
  intros T initial join en enSP d. unfold brineInit.
  destruct en, (brine d) eqn:Hb; cbn [andb negb]; [|tauto|tauto|tauto]. unfold assertion.
  assert (DS : (exists dens, (if nonempty (bdensity d)
          then bind (if bNumPvt d =? length (bdensity d) then Done tt else Aborts) (fun _ =>
                 fillDensity join (pvtwsalt d) (bdensity d) (seq 0 (bNumPvt d)) (repeat initial (bNumPvt d)))
          else Done []) = Done dens /\
            (bdensity d <> [] -> length (bdensity d) = bNumPvt d /\ bNumPvt d <= length (pvtwsalt d)) /\
            (bdensity d <> [] -> length dens = bNumPvt d /\
               forall i b c, i < bNumPvt d -> nth_error (bdensity d) i = Some b -> nth_error (pvtwsalt d) i = Some c ->
                 nth_error dens i = Some (join c b)) /\ (bdensity d = [] -> dens = [])) \/
     ((if nonempty (bdensity d)
          then bind (if bNumPvt d =? length (bdensity d) then Done tt else Aborts) (fun _ =>
                 fillDensity join (pvtwsalt d) (bdensity d) (seq 0 (bNumPvt d)) (repeat initial (bNumPvt d)))
          else Done []) = Aborts /\ bdensity d <> [] /\ length (bdensity d) <> bNumPvt d) \/
     ((if nonempty (bdensity d)
          then bind (if bNumPvt d =? length (bdensity d) then Done tt else Aborts) (fun _ =>
                 fillDensity join (pvtwsalt d) (bdensity d) (seq 0 (bNumPvt d)) (repeat initial (bNumPvt d)))
          else Done []) = PastEnd /\ bdensity d <> [] /\ length (pvtwsalt d) < bNumPvt d)).
  { destruct (nonempty (bdensity d)) eqn:N.
    2: { apply nonempty_false in N. left. exists []. repeat split; congruence. }
    apply nonempty_true in N. destruct (bNumPvt d =? length (bdensity d)) eqn:L; cbn [bind].
    2: { apply Nat.eqb_neq in L. right; left. repeat split; congruence. }
    apply Nat.eqb_eq in L. pose proof (density_cases initial join (bNumPvt d) (pvtwsalt d) (bdensity d) (eq_sym L)) as DC.
    destruct (fillDensity join (pvtwsalt d) (bdensity d) (seq 0 (bNumPvt d)) (repeat initial (bNumPvt d))) as [dens|e| |];
      [|contradiction|contradiction|right; right; repeat split; assumption].
    destruct DC as (A & B & C). left. exists dens. repeat split; try assumption; try congruence; try lia. }
  destruct DS as [(dens & -> & DS1 & DS2 & DS3)|[(-> & DS1 & DS2)|(-> & DS1 & DS2)]]; cbn [bind]; [|tauto|tauto].
  destruct enSP; cbn [bind andb].
  2: { unfold brineCounts, brineRegions; cbn [pDensity pPermfact pSaltsol pPcfact].
       split; [reflexivity|]. split; [reflexivity|]. split; [split; [exact DS1|discriminate]|].
       split; [exact DS2|]. split; [exact DS3|discriminate]. }
  pose proof (into_cases initial (bNumPvt d) (permfact d)) as IC.
  destruct (fillInto (permfact d) (seq 0 (length (permfact d))) (repeat initial (bNumPvt d))) as [perm|e| |]; cbn [bind];
    [|contradiction|contradiction|tauto].
  destruct IC as [IC1 IC2].
  assert (SS : (exists sol, (if nonempty (saltsol d)
          then bind (if bNumPvt d =? length (saltsol d) then Done tt else Aborts) (fun _ => copy initial (bNumPvt d) (saltsol d))
          else Done []) = Done sol /\ (saltsol d <> [] -> length (saltsol d) = bNumPvt d) /\
          (saltsol d <> [] -> sameUpTo (bNumPvt d) sol (saltsol d))) \/
     ((if nonempty (saltsol d)
          then bind (if bNumPvt d =? length (saltsol d) then Done tt else Aborts) (fun _ => copy initial (bNumPvt d) (saltsol d))
          else Done []) = Aborts /\ saltsol d <> [] /\ length (saltsol d) <> bNumPvt d)).
  { destruct (nonempty (saltsol d)) eqn:N.
    2: { apply nonempty_false in N. left. exists []. repeat split; congruence. }
    apply nonempty_true in N. destruct (bNumPvt d =? length (saltsol d)) eqn:L; cbn [bind].
    2: { apply Nat.eqb_neq in L. right. repeat split; congruence. }
    apply Nat.eqb_eq in L. destruct (copy_done initial (bNumPvt d) (saltsol d)) as (sol & C1 & C2); [lia|].
    left. exists sol. split; [exact C1|]. split; [intros; congruence|intros; exact C2]. }
  destruct SS as [(sol & -> & SS1 & SS2)|(-> & SS1 & SS2)]; cbn [bind]; [|tauto].
  unfold brineCounts, brineRegions.
  destruct (nonempty (pcfact d)) eqn:N; cbn [bind].
  - apply nonempty_true in N. pose proof (into_cases initial (bNumSat d) (pcfact d)) as PC.
    destruct (fillInto (pcfact d) (seq 0 (length (pcfact d))) (repeat initial (bNumSat d))) as [pcf|e| |]; cbn [bind];
      [|contradiction|contradiction|tauto].
    destruct PC as [PC1 PC2]. cbn [pDensity pPermfact pSaltsol pPcfact].
    split; [reflexivity|]. split; [reflexivity|]. split; [split; [exact DS1|intros _; split; [exact IC1|split; [exact SS1|exact PC1]]]|].
    split; [exact DS2|]. split; [exact DS3|]. intros _. split; [exact IC2|]. split; [exact SS2|]. split; [intros _; exact PC2|congruence].
  - apply nonempty_false in N. cbn [pDensity pPermfact pSaltsol pPcfact].
    split; [reflexivity|]. split; [reflexivity|].
    split; [split; [exact DS1|intros _; split; [exact IC1|split; [exact SS1|rewrite N; cbn; lia]]]|].
    split; [exact DS2|]. split; [exact DS3|]. intros _. split; [exact IC2|]. split; [exact SS2|]. split; [congruence|reflexivity].
Qed.

(** Brine is initialized for exactly the decks with BRINE whose counts of tables fit, and skipped for exactly those
    without, if it is not compiled in; an error is thrown for exactly the decks which disagree with what is compiled in. *)
Theorem C112_accepted : forall T (initial : T) join en enSP (d : brineDeck T),
  ((exists p, brineInit initial join en enSP d = Done (Some p)) <-> (en = true /\ brine d = true /\ brineCounts enSP d)) /\
  (brineInit initial join en enSP d = Done None <-> (en = false /\ brine d = false)) /\
  ((exists e, brineInit initial join en enSP d = Throws e) <-> en <> brine d).
Proof.
  intros T initial join en enSP d. pose proof (brine_cases T initial join en enSP d) as H. split; [|split]; split.
  - intros [p E]. rewrite E in H. tauto.
  - intros (-> & B & (C1 & C2)). destruct (brineInit initial join true enSP d) as [[p|]|e| |].
    + exists p; reflexivity.
    + destruct H; discriminate.
    + exfalso. destruct H as [(_ & _ & H)|(_ & H & _)]; congruence.
    + exfalso. destruct H as (_ & [(X & Y)|(-> & X & Y)]); [destruct (C1 X); contradiction|destruct (C2 eq_refl) as (_ & W & _); apply Y, W, X].
    + exfalso. destruct H as (_ & [(X & Y)|(-> & X)]); [destruct (C1 X); lia|destruct (C2 eq_refl) as (U & _ & W); lia].
  - intros E. rewrite E in H. exact H.
  - intros [-> B]. unfold brineInit. rewrite B. reflexivity.
  - intros [e E]. rewrite E in H. destruct H as [(_ & -> & ->)|(_ & -> & ->)]; discriminate.
  - intros N. unfold brineInit. destruct en, (brine d); cbn; try (exfalso; apply N; reflexivity); eauto.
Qed.

(** After it every region has the tables of the deck; with fewer PERMFACT or PCFACT tables than regions the others keep
    the initial, empty one. *)
Theorem C112_regions : forall T (initial : T) join en enSP (d : brineDeck T) p,
  brineInit initial join en enSP d = Done (Some p) -> brineRegions initial join enSP d p.
Proof.
  intros T initial join en enSP d p E. pose proof (brine_cases T initial join en enSP d) as H. rewrite E in H. tauto.
Qed.

(** A deck is taken care of (started, skipped or refused) if the counts of its tables agree with the regions. Missing:
    all other decks. *)
Theorem C112_defined_partial : forall T (initial : T) join en enSP (d : brineDeck T),
  (bdensity d <> [] -> length (bdensity d) = bNumPvt d) -> (bdensity d <> [] -> length (pvtwsalt d) = bNumPvt d) ->
  (saltsol d <> [] -> length (saltsol d) = bNumPvt d) -> length (permfact d) <= bNumPvt d -> length (pcfact d) <= bNumSat d ->
  brineInit initial join en enSP d <> Aborts /\ brineInit initial join en enSP d <> PastEnd.
Proof.
  intros T initial join en enSP d A B C D F. pose proof (brine_cases T initial join en enSP d) as H. split; intros E; rewrite E in H.
  - destruct H as (_ & [(X & Y)|(_ & X & Y)]); [exact (Y (A X))|exact (Y (C X))].
  - destruct H as (_ & [(X & Y)|(_ & [X|X])]); [specialize (B X); lia|lia|lia].
Qed.

(** BDENSITY without PVTWSALT passes the assertion and reads behind the end of the (empty) tables of PVTWSALT. *)
Theorem C112_density_without_salt_refuted : forall T (initial x : T) join enSP,
  exists d : brineDeck T, brine d = true /\ length (bdensity d) = bNumPvt d /\ pvtwsalt d = [] /\ permfact d = [] /\
    brineInit initial join true enSP d = PastEnd.
Proof. intros T initial x join enSP. exists (mkBrineDeck true 1 1 [] [x] [] [] []). repeat split. Qed.

(** The tables of PERMFACT are written for each table and not for each region: with more tables than PVT regions, say
    one for each saturation region, the loop writes behind the end. *)
Theorem C112_permfact_refuted : forall T (initial x : T) join,
  exists d : brineDeck T, brine d = true /\ length (permfact d) = bNumSat d /\ bdensity d = [] /\ saltsol d = [] /\ pcfact d = [] /\
    brineInit initial join true true d = PastEnd.
Proof. intros T initial x join. exists (mkBrineDeck true 1 2 [] [] [x; x] [] []). repeat split. Qed.

(** ** Cases which meet the hypotheses *)
Example C112_ex : let d := mkBrineDeck true 2 2 [1; 2] [10; 20] [30] [40; 41] [50; 51] in
  brineCounts true d /\
  brineInit 0 Nat.add true true d = Done (Some (mkBrineParams [11; 22] [30; 0] [40; 41] [50; 51])).
Proof. split; [|reflexivity]. unfold brineCounts; cbn. repeat split; intros; try lia. Qed.

Print Assumptions C112_accepted.
Print Assumptions C112_regions.
Print Assumptions C112_defined_partial.
Print Assumptions C112_density_without_salt_refuted.
Print Assumptions C112_permfact_refuted.
