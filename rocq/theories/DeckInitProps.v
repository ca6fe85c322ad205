(** * C111: initialization of the polymer and foam modules *)
From Coq Require Import List Bool Arith Lia.
From Verif Require Import DeckInitModel DeckInitSpec DeckInitProofs.
Import ListNotations.

(** Polymer is initialized for exactly the decks which ask for what is compiled in and give all the keywords. *)
Theorem C111_polymer_accepted : forall T (initial shrateDefault : T) convert enP enMW (d : polymerDeck T),
  (exists p, polymerInit initial shrateDefault convert enP enMW d = Done (Some p)) <->
  (enP = true /\ polymerSwitches enP enMW d /\ polymerComplete enMW d).
Proof.
  intros T initial shrateDefault convert enP enMW d.
  pose proof (polymer_cases initial shrateDefault convert enP enMW d) as H. split.
  - intros [p E]. rewrite E in H. tauto.
  - intros (-> & S0 & C0). destruct (polymerInit initial shrateDefault convert true enMW d) as [[p|]|e| |].
    + exists p; reflexivity.
    + destruct H; discriminate.
    + exfalso. destruct S0 as (S1 & S2 & S3), C0 as ((C1 & C1') & (C2 & C2') & C3 & C4 & C5). unfold polymerFault in H.
      destruct H as [H|[H|[H|[H|[H|[H|[H|[H|[H|[H|[H|[H|H]]]]]]]]]]]]; destruct H as [_ H]; try congruence; try (destruct H; congruence).
      * destruct H as [H ->]. destruct (C4 eq_refl) as ((X & _) & _). contradiction.
      * destruct H as [H ->]. destruct (C4 eq_refl) as (_ & X & _). contradiction.
      * destruct H as (U & V & ->). destruct (C4 eq_refl) as (_ & _ & _ & _ & X). destruct (X U). congruence.
      * destruct H as (U & V & W & N & ->). destruct (C4 eq_refl) as (_ & _ & _ & _ & X). destruct (X U) as [_ [Y|[Y|Y]]]; contradiction.
      * destruct H as [H ->]. destruct (C5 eq_refl) as (X & _). contradiction.
    + exfalso. destruct C0 as ((C1 & C1') & (C2 & C2') & C3 & C4 & C5).
      destruct H as [[_ H]|[[_ H]|[H|[H|H]]]]; try contradiction.
      * destruct H as (-> & _ & H). destruct (C4 eq_refl) as ((_ & X) & _). contradiction.
      * destruct H as (-> & P & H). destruct (C4 eq_refl) as (_ & _ & _ & X & _). apply H, X, P.
      * destruct H as (-> & _ & H). destruct (C5 eq_refl) as (_ & X). contradiction.
    + exfalso. destruct C0 as (_ & _ & _ & C4 & _). destruct H as (-> & _ & H).
      destruct (C4 eq_refl) as (_ & _ & X & _). lia.
Qed.

(** It returns without doing anything for exactly the decks without polymer, if it is not compiled in. *)
Theorem C111_polymer_off : forall T (initial shrateDefault : T) convert enP enMW (d : polymerDeck T),
  polymerInit initial shrateDefault convert enP enMW d = Done None <->
  (enP = false /\ enMW = false /\ polymer d = false /\ polymw d = false).
Proof.
  intros T initial shrateDefault convert enP enMW d.
  pose proof (polymer_cases initial shrateDefault convert enP enMW d) as H. split.
  - intros E. rewrite E in H. destruct H as ((A & B & C) & ->). destruct enMW; [specialize (C eq_refl); discriminate|]. auto.
  - intros (-> & -> & A & B). unfold polymerInit. rewrite A, B. reflexivity.
Qed.

(** After it every region has the records the deck gives for it. *)
Theorem C111_polymer_regions : forall T (initial shrateDefault : T) convert enP enMW (d : polymerDeck T) p,
  polymerInit initial shrateDefault convert enP enMW d = Done (Some p) -> polymerRegions shrateDefault convert enMW d p.
Proof.
  intros T initial shrateDefault convert enP enMW d p E.
  pose proof (polymer_cases initial shrateDefault convert enP enMW d) as H. rewrite E in H. tauto.
Qed.

(** An error names something which is wrong with the deck. *)
Theorem C111_polymer_errors : forall T (initial shrateDefault : T) convert enP enMW (d : polymerDeck T) e,
  polymerInit initial shrateDefault convert enP enMW d = Throws e -> polymerFault enP enMW d e.
Proof.
  intros T initial shrateDefault convert enP enMW d e E.
  pose proof (polymer_cases initial shrateDefault convert enP enMW d) as H. rewrite E in H. exact H.
Qed.

(** Decks whose keywords have as many records as there are regions never end in a failing assertion or an access behind
    the end. Missing: PLMIXPAR with fewer records than PLYMAX. *)
Theorem C111_polymer_defined_partial : forall T (initial shrateDefault : T) convert enP enMW (d : polymerDeck T),
  polymerSizes enMW d -> (plmixpar d <> [] -> length (plymax d) <= length (plmixpar d)) ->
  polymerInit initial shrateDefault convert enP enMW d <> Aborts /\
  polymerInit initial shrateDefault convert enP enMW d <> PastEnd.
Proof.
  intros T initial shrateDefault convert enP enMW d (A & B & C & D & F) G.
  pose proof (polymer_cases initial shrateDefault convert enP enMW d) as H. split; intros E; rewrite E in H.
  - destruct H as [[X Y]|[[X Y]|[(_ & X & Y)|[(_ & X & Y)|(_ & X & Y)]]]].
    + apply Y, A, X.
    + apply Y, B, X.
    + apply Y, C, X.
    + apply Y, D, X.
    + apply Y, F, X.
  - destruct H as (_ & X & Y). specialize (G X). lia.
Qed.

(** PLMIXPAR is read for each region of PLYMAX without looking at the number of its records, not even in an assertion. *)
Theorem C111_polymer_mixpar_refuted : forall T (initial shrateDefault : T) convert,
  exists d : polymerDeck T, polymerSwitches true false d /\ polymerSizes false d /\ plmixpar d <> [] /\
    polymerInit initial shrateDefault convert true false d = PastEnd.
Proof.
  intros T x s c.
  exists (mkPolymerDeck true false 1 1 [x] [x] [x] [x; x] [x] false [] false [] []).
  split; [repeat split; discriminate|]. split; [repeat split; intros; try discriminate; cbn in *; congruence|].
  split; [discriminate|reflexivity].
Qed.

(** Foam is initialized for exactly the decks with all the keywords. *)
Theorem C111_foam_accepted : forall T (initial : T) en (d : foamDeck T),
  ((exists p, foamInit initial en d = Done (Some p)) <-> (en = true /\ foam d = true /\ foamComplete d)) /\
  (foamInit initial en d = Done None <-> (en = false /\ foam d = false)).
Proof.
  intros T initial en d. pose proof (foam_cases initial (fun a _ => a) en d) as H. split; split.
  - intros [p E]. rewrite E in H. tauto.
  - intros (-> & F & (C1 & C2 & (C3 & C4) & (C5 & C6))). destruct (foamInit initial true d) as [[p|]|e| |].
    + exists p; reflexivity.
    + destruct H; discriminate.
    + exfalso. unfold foamFault in H. destruct H as [H|[H|[H|[H|[H|[H|[H|H]]]]]]]; destruct H as [_ H]; try congruence; destruct H; congruence.
    + contradiction.
    + contradiction.
  - intros E. rewrite E in H. exact H.
  - intros [-> F]. unfold foamInit. rewrite F. reflexivity.
Qed.

(** After it every saturation region has its rock and adsorption data and every PVT region its mobility table. *)
Theorem C111_foam_regions : forall T (initial : T) en (d : foamDeck T) p,
  foamInit initial en d = Done (Some p) ->
  sameUpTo (fNumSat d) (fRock p) (foamrock d) /\ sameUpTo (fNumSat d) (fAds p) (foamads d) /\
  sameUpTo (fNumPvt d) (fMob p) (foammob d).
Proof.
  intros T initial en d p E. pose proof (foam_cases initial (fun a _ => a) en d) as H. rewrite E in H. tauto.
Qed.

(** Every deck gives parameters or an error about something which is wrong, never an access behind the end. *)
Theorem C111_foam_defined : forall T (initial : T) en (d : foamDeck T),
  (exists r, foamInit initial en d = Done r) \/ (exists e, foamInit initial en d = Throws e /\ foamFault en d e).
Proof.
  intros T initial en d. pose proof (foam_cases initial (fun a _ => a) en d) as H.
  destruct (foamInit initial en d) as [r|e| |]; [left; eauto|right; eauto|contradiction|contradiction].
Qed.

(** ** Cases which meet the hypotheses *)
Example C111_ex_polymer : let d := mkPolymerDeck true false 2 1 [11; 12] [21; 22] [31] [41; 42] [51; 52; 53] true [61] true [] [] in
  polymerSwitches true false d /\ polymerComplete false d /\ polymerSizes false d /\
  polymerInit 0 48 Nat.add true false d = Done (Some (mkPolymerParams [11; 12] [21; 22] [31] [41; 42] [51; 52] [92] [48] [])).
Proof.
  cbv zeta. split; [repeat split; discriminate|].
  split; [unfold polymerComplete, forRegions; cbn; repeat split; try discriminate; try lia; intros; auto; repeat split; try discriminate; try lia; auto|].
  split; [repeat split; intros; try reflexivity; try discriminate; cbn in *; congruence|reflexivity].
Qed.

Example C111_ex_molar : let d := mkPolymerDeck true true 1 1 [11] [21] [] [41] [] true [] true [] [71] in
  polymerInit 0 48 Nat.add true true d = Done (Some (mkPolymerParams [11] [21] [0] [41] [0] [] [] [71])).
Proof. reflexivity. Qed.

Example C111_ex_foam : foamInit 0 true (mkFoamDeck true true 2 1 [11; 12] [21; 22] [31]) = Done (Some (mkFoamParams [11; 12] [21; 22] [31])) /\
  foamInit 0 true (mkFoamDeck true true 2 1 [11; 12] [21] [31]) = Throws eFoamadsSize.
Proof. split; reflexivity. Qed.

Print Assumptions C111_polymer_accepted.
Print Assumptions C111_polymer_off.
Print Assumptions C111_polymer_regions.
Print Assumptions C111_polymer_errors.
Print Assumptions C111_polymer_defined_partial.
Print Assumptions C111_polymer_mixpar_refuted.
Print Assumptions C111_foam_accepted.
Print Assumptions C111_foam_regions.
Print Assumptions C111_foam_defined.
