(** * Properties of the convergence writer *)
From Coq Require Import QArith List Bool Arith Lia Lqa.
From Verif Require Import ConvWModel ConvWSpec.
Import ListNotations.

Section P.
Variable V : Type.
Variable apply : V -> V -> V.

(** Nothing is half written; the file exists from the first update on. *)
Definition closed (w : writer V) : Prop := match w_multi V w with Some m => m_open V m = None /\ m_done V m <> [] | None => True end.
Definition doneOf (w : writer V) : list (dataset V) := match w_multi V w with Some m => m_done V m | None => [] end.

Lemma write_spec : forall x u ok w, closed w -> exists w', writeConvergence V true x u ok w = Some w' /\ closed w' /\
  w_step V w' = w_step V w /\ w_iter V w' = S (w_iter V w) /\
  doneOf w' = doneOf w ++ [mkDataset V (inject_Z (Z.of_nat (w_step V w)) + inject_Z (Z.of_nat (S (w_iter V w))) / 100) (Some (x, u)) ok].
Proof.
  intros x u ok [s i m] C. eexists. split; [reflexivity|]. unfold doneOf, closed in *. cbn [w_multi w_step w_iter m_done m_open] in *.
  split; [split; [reflexivity|intros H; now apply app_eq_nil in H as [_ H]]|]. split; [reflexivity|]. split; [reflexivity|].
  destruct m as [m|]; reflexivity.
Qed.
Lemma loop_spec : forall its x w, closed w -> exists w' x', loop V true apply its x w = Some (w', x') /\ closed w' /\ w_step V w' = w_step V w /\
  doneOf w' = doneOf w ++ labelled V (w_step V w) (S (w_iter V w)) (computed V apply x its).
Proof.
  induction its as [|it its IH]; intros x w C.
  - cbn [loop computed labelled]. rewrite app_nil_r. exists (endTimeStep V w), x. repeat split; exact C.
  - destruct it as [| | |u ok|u ok|u ok]; cbn [loop computed labelled]; rewrite ?app_nil_r.
    + exists w, x. repeat split; exact C.
    + exists (endTimeStep V w), x. repeat split; exact C.
    + exists w, x. repeat split; exact C.
    + destruct (write_spec x u ok w C) as (w1 & E & C1 & S1 & I1 & D1). rewrite E. exists w1, x. repeat split; assumption.
    + destruct (write_spec x u ok w C) as (w1 & E & C1 & S1 & I1 & D1). rewrite E. destruct (IH (apply x u) w1 C1) as (w2 & x2 & E2 & C2 & S2 & D2).
      exists w2, x2. split; [exact E2|]. split; [exact C2|]. split; [congruence|]. rewrite D2, D1, S1, I1, <- app_assoc. reflexivity.
    + destruct (write_spec x u ok w C) as (w1 & E & C1 & S1 & I1 & D1). rewrite E. exists w1, (apply x u). repeat split; assumption.
Qed.
Lemma solves_spec : forall calls w, closed w -> exists w', solves V true apply calls w = Some w' /\ closed w' /\
  doneOf w' = doneOf w ++ allUpdates V apply (S (w_step V w)) calls.
Proof.
  induction calls as [|[x its] calls IH]; intros w C; cbn [solves allUpdates].
  - exists w. rewrite app_nil_r. repeat split; exact C.
  - unfold solve. destruct (loop_spec its x (beginTimeStep V w) C) as (w1 & x1 & E & C1 & S1 & D1). rewrite E.
    destruct (IH w1 C1) as (w2 & E2 & C2 & D2). exists w2. split; [exact E2|]. split; [exact C2|]. rewrite D2, D1, S1, <- app_assoc. reflexivity.
Qed.
End P.

(** Whatever the Newton method does, each update it computes, also one that makes it fail, is
    written exactly once, in order, with the solution it is for, under its call and iteration;
    there is no file if there is no update. *)
Theorem C104_written : forall V apply calls, exists w, solves V true apply calls (newWriter V) = Some w /\
  collection V w = match allUpdates V apply 1 calls with [] => None | l => Some l end.
Proof.
  intros V apply calls. destruct (solves_spec V apply calls (newWriter V) I) as (w & E & C & D). exists w. split; [exact E|].
  unfold collection. cbn in D. unfold doneOf, closed in *. destruct (w_multi V w) as [m|]; cbn [option_map].
  - destruct C as [_ C]. rewrite D in C. rewrite D. destruct (allUpdates V apply 1 calls); [contradiction|reflexivity].
  - rewrite <- D. reflexivity.
Qed.
(** If it is switched off there is no file. *)
Theorem C104_off : forall V apply calls, exists w, solves V false apply calls (newWriter V) = Some w /\ collection V w = None.
Proof.
  intros V apply calls. exists (newWriter V). split; [|reflexivity].
  assert (L : forall its x, exists x', loop V false apply its x (newWriter V) = Some (newWriter V, x')).
  { induction its as [|[| | |u ok|u ok|u ok] its IH]; intros x; cbn [loop writeConvergence]; try (eexists; reflexivity). apply IH. }
  induction calls as [|[x its] calls IH]; [reflexivity|]. cbn [solves]. unfold solve. destruct (L its x) as [x' E]. rewrite E. exact IH.
Qed.

Lemma computed_length : forall V apply its x, (length (computed V apply x its) <= length its)%nat.
Proof. intros V apply. induction its as [|[| | |u ok|u ok|u ok] its IH]; intros x; cbn [computed length]; try lia. specialize (IH (apply x u)). lia. Qed.
Definition below (a : Q) (l : list Q) : Prop := Forall (fun b => a < b) l.
Lemma increasing_app : forall l m, increasing l -> increasing m -> (forall a b, In a l -> In b m -> a < b) -> increasing (l ++ m).
Proof.
  induction l as [|a l IH]; intros m L M H; [exact M|]. destruct l as [|b l].
  - cbn [app]. destruct m as [|b m]; [exact I|]. split; [|exact M]. apply H; left; reflexivity.
  - destruct L as [L1 L2]. change ((a :: b :: l) ++ m) with (a :: (b :: l ++ m)). split; [exact L1|].
    apply (IH m L2 M). intros c d C D. apply H; [right; exact C|exact D].
Qed.
Definition lab (k i : nat) : Q := inject_Z (Z.of_nat k) + inject_Z (Z.of_nat i) / 100.
Lemma lab_lt : forall k i k' i', lab k i < lab k' i' <-> (100 * k + i < 100 * k' + i')%nat.
Proof.
  intros k i k' i'. unfold lab.
  assert (E : forall a b, inject_Z (Z.of_nat a) + inject_Z (Z.of_nat b) / 100 == inject_Z (Z.of_nat (100 * a + b)) / 100).
  { intros a b. rewrite Nat2Z.inj_add, Nat2Z.inj_mul, inject_Z_plus, inject_Z_mult. change (inject_Z (Z.of_nat 100)) with 100. field. }
  rewrite !E. rewrite Nat2Z.inj_lt, Zlt_Qlt. split; intros H.
  - apply (Qmult_lt_r _ _ (/ 100)); [reflexivity|exact H].
  - apply (Qmult_lt_r _ _ (/ 100)) in H; [exact H|reflexivity].
Qed.
Lemma labelled_in : forall V k us i a, In a (map (d_label V) (labelled V k i us)) -> exists j, (i <= j < i + length us)%nat /\ a = lab k j.
Proof.
  intros V k. induction us as [|[[x u] ok] us IH]; intros i a; cbn [labelled map In length]; [intros []|]. intros [H|H].
  - exists i. split; [lia|]. symmetry. exact H.
  - destruct (IH (S i) a H) as (j & J & E). exists j. split; [lia|exact E].
Qed.
Lemma labelled_increasing : forall V k us i, increasing (map (d_label V) (labelled V k i us)).
Proof.
  intros V k. induction us as [|[[x u] ok] us IH]; intros i; [exact I|]. specialize (IH (S i)). cbn [labelled map] in *.
  destruct us as [|[[x' u'] ok'] us]; [exact I|]. cbn [labelled map] in *. split; [|exact IH]. apply (lab_lt k i k (S i)). lia.
Qed.
Lemma all_in : forall V apply calls k a, In a (map (d_label V) (allUpdates V apply k calls)) -> exists k' j, (k <= k')%nat /\ (1 <= j)%nat /\ a = lab k' j.
Proof.
  intros V apply. induction calls as [|[x its] calls IH]; intros k a; cbn [allUpdates map]; [intros []|]. rewrite map_app, in_app_iff. intros [H|H].
  - apply labelled_in in H. destruct H as (j & J & E). exists k, j. split; [lia|split; [lia|exact E]].
  - destruct (IH (S k) a H) as (k' & j & K & J & E). exists k', j. split; [lia|split; [exact J|exact E]].
Qed.
(** With at most 100 iterations per call the labels increase strictly, so that no two data sets
    share one. *)
Theorem C104_labels_partial : forall V apply calls w l, (forall x its, In (x, its) calls -> (length its <= 100)%nat) ->
  solves V true apply calls (newWriter V) = Some w -> collection V w = Some l -> increasing (map (d_label V) l).
Proof.
  intros V apply calls w l H E C. destruct (C104_written V apply calls) as (w' & E' & C'). rewrite E in E'. injection E' as <-. rewrite C in C'.
  assert (L : l = allUpdates V apply 1 calls) by (destruct (allUpdates V apply 1 calls); congruence). rewrite L. clear - H.
  generalize 1%nat as k. induction calls as [|[x its] calls IH]; intros k; [exact I|]. cbn [allUpdates]. rewrite map_app.
  apply increasing_app; [apply labelled_increasing| |].
  - apply IH. intros y js J. apply (H y js). right. exact J.
  - intros a b A B. apply labelled_in in A. destruct A as (j & J & ->). apply all_in in B. destruct B as (k' & j' & K & J' & ->).
    apply lab_lt. pose proof (H x its (or_introl eq_refl)). pose proof (computed_length V apply its x). lia.
Qed.
(** With more they do not: the 101st iteration has the label of the first one of the next call. *)
Theorem C104_labels_refuted : exists calls w l a b, solves nat true Nat.add calls (newWriter nat) = Some w /\ collection nat w = Some l /\
  nth_error l 100 = Some a /\ nth_error l 101 = Some b /\ d_label nat a == d_label nat b /\ length l = 102%nat.
Proof.
  exists [(0, repeat (Updates nat 1 true) 101); (0, [Updates nat 1 true])]%nat. eexists. eexists. eexists. eexists.
  split; [vm_compute; reflexivity|]. split; [vm_compute; reflexivity|]. split; [vm_compute; reflexivity|]. split; [vm_compute; reflexivity|].
  split; vm_compute; reflexivity.
Qed.
(** The whole part of a label counts the calls of the Newton method, not the time steps: a call
    which fails and is repeated with a smaller step size takes a number of its own, even if it
    has written nothing. *)
Theorem C104_calls_counted : forall V apply x y its w, (forall it, In it its -> it = SolverFails V \/ it = Throws V) ->
  its <> [] -> forall u ok, solves V true apply [(x, its); (y, [Updates V u ok])] (newWriter V) = Some w ->
  exists l d, collection V w = Some l /\ l = [d] /\ d_label V d == 2 + (1 # 100).
Proof.
  intros V apply x y its w H N u ok E. destruct (C104_written V apply [(x, its); (y, [Updates V u ok])]) as (w' & E' & C).
  rewrite E in E'. injection E' as <-. cbn [allUpdates] in C.
  assert (Z : computed V apply x its = []). { destruct its as [|it its]; [contradiction|]. destruct (H it (or_introl eq_refl)) as [->| ->]; reflexivity. }
  rewrite Z in C. cbn [labelled app computed] in C. eexists. eexists. split; [exact C|]. split; [reflexivity|]. reflexivity.
Qed.

Example run_example : exists w, solves nat true Nat.sub [(10, [Updates nat 3 true; NotFinite nat 7 false]); (10, [Updates nat 4 true; Finished nat])]%nat (newWriter nat) = Some w /\
  option_map (map (fun d => (Qred (d_label nat d), d_fields nat d))) (collection nat w) =
  Some [(101 # 100, Some (10, 3)%nat); (51 # 50, Some (7, 7)%nat); (201 # 100, Some (10, 4)%nat)].
Proof. eexists. split; [vm_compute; reflexivity|]. vm_compute. reflexivity. Qed.

Print Assumptions C104_written.
Print Assumptions C104_off.
Print Assumptions C104_labels_partial.
Print Assumptions C104_labels_refuted.
Print Assumptions C104_calls_counted.
