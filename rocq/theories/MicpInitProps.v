(** * C114: parameters and limits of the biogrout module *)
From Coq Require Import List Bool Arith QArith Lqa Lia.
From Verif Require Import DeckInitModel MicpInitModel MicpInitSpec.
Import ListNotations.
Open Scope Q_scope.

Lemma Qle_bool_false : forall x y, Qle_bool x y = false -> y < x.
Proof. intros x y H. apply Qnot_le_lt. intros L. apply Qle_bool_iff in L. congruence. Qed.

Lemma clamp_some : forall v hi, 0 <= hi -> exists r, clamp v 0 hi = Some r /\ 0 <= r <= hi /\ (0 <= v <= hi -> r = v).
Proof.
  intros v hi H. unfold clamp. rewrite (proj2 (Qle_bool_iff 0 hi) H).
  destruct (Qle_bool 0 v) eqn:A; cbn [negb].
  - apply Qle_bool_iff in A. destruct (Qle_bool v hi) eqn:B; cbn [negb].
    + apply Qle_bool_iff in B. exists v. auto.
    + apply Qle_bool_false in B. exists hi. repeat split; try lra. all: intros; exfalso; lra.
  - apply Qle_bool_false in A. exists 0. repeat split; try lra. all: intros; exfalso; lra.
Qed.

(** The parameters are taken for exactly the decks with MICP if it is compiled in, nothing changes without it, and an
    error is thrown for exactly the decks which disagree with what is compiled in. *)
Theorem C114_accepted : forall en d p,
  ((exists e, micpInit en d p = Throws e) <-> en <> micp d) /\
  (en = false -> micp d = false -> micpInit en d p = Done p) /\
  (en = true -> micp d = true -> exists p', micpInit en d p = Done p').
Proof.
  intros en d p. unfold micpInit. destruct en, (micp d); cbn [andb negb]; repeat split; intros; try discriminate; eauto.
  all: try (destruct H as [e H]; discriminate). all: try (exfalso; apply H; reflexivity).
Qed.

(** Then each parameter is the one of the deck. *)
Theorem C114_parameters : forall en d p p', micp d = true -> micpInit en d p = Done p' -> asInDeck d p'.
Proof.
  intros en d p p' M H. unfold micpInit in H. rewrite M in H. destruct en; [|discriminate]. cbn [andb negb] in H.
  injection H as <-. unfold asInDeck, maximumUreaConcentration. cbn. repeat split. field.
Qed.

(** A Newton update leaves each MICP variable of a cell within the limits given by the deck, whatever was proposed, and
    changes no values which are within them. *)
Theorem C114_limits : forall en d p p' dof phi v, micp d = true -> micpInit en d p = Done p' ->
  nth_error (kPoro d) dof = Some phi -> saneLimits d phi ->
  exists r, micpLimit p' dof v = Some r /\ withinLimits d phi r /\ (withinLimits d phi v -> r = v).
Proof.
  intros en d p p' dof phi v M I F (S1 & S2 & S3 & S4). pose proof (C114_parameters en d p p' M I) as D.
  unfold asInDeck in D. destruct D as (D1 & _ & _ & _ & _ & _ & _ & _ & _ & _ & _ & _ & _ & _ & D2 & D3 & D4 & D5).
  unfold micpLimit. rewrite D1, D2, D4, D5, F.
  destruct (clamp_some (microbes v) (kDensityBiofilm d) S1) as (m & -> & M1 & M2).
  destruct (clamp_some (oxygen v) (kMaximumOxygenConcentration d) S2) as (o & -> & O1 & O2).
  destruct (clamp_some (urea v) (maximumUreaConcentration p')) as (u & -> & U1 & U2); [lra|].
  destruct (clamp_some (biofilm v) (phi - kToleranceBeforeClogging d)) as (b & -> & B1 & B2); [lra|].
  destruct (clamp_some (calcite v) (phi - kToleranceBeforeClogging d)) as (c & -> & K1 & K2); [lra|].
  eexists; split; [reflexivity|]. unfold withinLimits; cbn [microbes oxygen urea biofilm calcite]. split.
  - repeat split; try lra.
  - intros (W1 & W2 & W3 & W4 & W5). rewrite M2, O2, U2, B2, K2 by lra. destruct v; reflexivity.
Qed.

(** The check throws exactly if biofilm and calcite leave less pore space than the tolerance of the deck. *)
Theorem C114_clogging_check : forall en d p p' phi v, micp d = true -> micpInit en d p = Done p' ->
  (checkClogging p' phi v = true <-> phi - (biofilm v + calcite v) < kToleranceBeforeClogging d).
Proof.
  intros en d p p' phi v M I. pose proof (C114_parameters en d p p' M I) as D. unfold asInDeck in D.
  destruct D as (_ & _ & _ & _ & _ & _ & _ & _ & _ & _ & _ & _ & _ & _ & _ & _ & D4 & _).
  unfold checkClogging. rewrite D4. destruct (Qle_bool (kToleranceBeforeClogging d) (phi - biofilm v - calcite v)) eqn:A; cbn [negb]; split; intros H; try discriminate; try reflexivity.
  - apply Qle_bool_iff in A. exfalso. lra.
  - apply Qle_bool_false in A. lra.
Qed.

(** The limits keep a cell from clogging as long as only one of biofilm and calcite is there. Missing: cells with both. *)
Theorem C114_never_clogs_partial : forall en d p p' dof phi v r, micp d = true -> micpInit en d p = Done p' ->
  nth_error (kPoro d) dof = Some phi -> saneLimits d phi -> micpLimit p' dof v = Some r ->
  biofilm r == 0 \/ calcite r == 0 -> checkClogging p' phi r = false.
Proof.
  intros en d p p' dof phi v r M I F S L Z. destruct (C114_limits en d p p' dof phi v M I F S) as (r' & L' & W & _).
  rewrite L in L'. injection L' as <-. destruct (checkClogging p' phi r) eqn:C; [exfalso|reflexivity].
  apply (C114_clogging_check en d p p' phi r M I) in C. unfold withinLimits in W. destruct W as (_ & _ & _ & B & K).
  destruct Z as [Z|Z]; lra.
Qed.

(** With both the limits do not: each of them is kept below the porosity on its own, so they can fill more than the
    pore space of any cell wider than twice the tolerance. *)
Theorem C114_never_clogs_refuted : forall d p p' dof phi, micp d = true -> micpInit true d p = Done p' ->
  nth_error (kPoro d) dof = Some phi -> saneLimits d phi -> 2 * kToleranceBeforeClogging d < phi ->
  exists v r, micpLimit p' dof v = Some r /\ phi - (biofilm r + calcite r) < 0.
Proof.
  intros d p p' dof phi M I F S G. set (b := phi - kToleranceBeforeClogging d).
  destruct (C114_limits true d p p' dof phi (mkMicpVars 0 0 0 b b) M I F S) as (r & L & _ & W).
  exists (mkMicpVars 0 0 0 b b), r. split; [exact L|]. destruct S as (S1 & S2 & S3 & S4).
  rewrite W; cbn [biofilm calcite]; [unfold b; lra|]. unfold withinLimits, b; cbn [microbes oxygen urea biofilm calcite].
  repeat split; lra.
Qed.

(** ** Cases which meet the hypotheses *)
Definition micpDeckEx : micpDeck :=
  mkMicpDeck true 35 2710 (26#100) (1#10) 3 (2#100) 21 (42#1000) (16#1000) (85#10000) (32#100) (1#100) (5#10) (42#100) (4#100) 60 (1#1000) [15#100; 2#10].

Example C114_case : forall p, exists p', micpInit true micpDeckEx p = Done p' /\ saneLimits micpDeckEx (2#10) /\
  2 * kToleranceBeforeClogging micpDeckEx < 2#10 /\ nth_error (kPoro micpDeckEx) 1 = Some (2#10) /\
  (exists r, micpLimit p' 1 (mkMicpVars 50 (-1) 7 (3#10) (-1)) = Some r /\ microbes r == 35 /\ oxygen r == 0 /\ urea r == 6 /\
     biofilm r == 199#1000 /\ calcite r == 0 /\ checkClogging p' (2#10) r = false).
Proof.
  intros p. eexists. split; [reflexivity|]. unfold saneLimits; cbn [micpDeckEx kDensityBiofilm kMaximumOxygenConcentration kMaximumUreaConcentration kToleranceBeforeClogging kPoro].
  repeat split; try lra. eexists. split; [reflexivity|]. repeat split; reflexivity.
Qed.

Print Assumptions C114_accepted.
Print Assumptions C114_parameters.
Print Assumptions C114_limits.
Print Assumptions C114_clogging_check.
Print Assumptions C114_never_clogs_partial.
Print Assumptions C114_never_clogs_refuted.
