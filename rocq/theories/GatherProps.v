(** * C31, C32: gathering strings, agreeing on exceptions *)

From Coq Require Import Arith NArith List Bool Ascii String Lia.
From Verif Require Import MpiModel MpiSpec MpiProofs MpiLemmas GatherModel GatherSpec GatherProofs.
Import ListNotations.

(** C31: for every number of processes and all strings (whose total length can be
    expressed by an int), every schedule ends, without deadlock, with every process
    holding exactly the non-empty strings in rank order. *)
Theorem C31_gathers_nonempty_strings_in_rank_order : forall N str,
  0 < N -> fit N str ->
  ends N (fun p => gatherStrings (str p)) (fun _ => Gathered (inRankOrder N str)).
Proof.
  intros N str HN Hf. apply ends_intro. unfold done. rewrite !start_cfg.
  apply gather_run; auto.
Qed.

(** C31: with a single process, with and without MPI is the same. *)
Theorem C31_serial_agrees : forall s, fit 1 (fun _ => s) ->
  ends 1 (fun _ => gatherStrings s) (fun _ => Gathered (gatherStringsSerial s)).
Proof.
  intros s Hf.
  pose proof (C31_gathers_nonempty_strings_in_rank_order 1 (fun _ => s) ltac:(lia) Hf) as H.
  unfold inRankOrder in H. cbn [seq map filter] in H.
  unfold gatherStringsSerial. destruct s; exact H.
Qed.

(** C32: if a step of the set up throws std::exceptions on some processes, then all
    processes throw the same error: the one of the lowest failing rank in the first
    failing step. *)
Theorem C32_all_processes_throw_the_first_error : forall N outcome steps i p prefix,
  (forall p i, outcome p i <> OtherException) ->
  (forall i, fit N (report N outcome i)) ->
  failsFirst N outcome i p ->
  1 < N \/ report N outcome i p <> [] ->
  nth_error steps i = Some prefix ->
  ends N (fun q => setUp N q steps 0 (outcome q))
         (fun _ => Threw (prefix ++ report N outcome i p)).
Proof.
  intros N outcome steps i p prefix Ho Hf (Hp & Hfail & Hi & Hlow) Hne Hn.
  apply ends_intro. unfold done. rewrite !start_cfg.
  apply (setUp_throws N outcome steps 0 i p prefix noMsg); auto. lia.
Qed.

(** C32: if no step fails on any process, then no process throws. *)
Theorem C32_no_process_throws_otherwise : forall N outcome steps,
  0 < N -> (forall p i, p < N -> outcome p i = Fine) ->
  ends N (fun q => setUp N q steps 0 (outcome q)) (fun _ => Constructed).
Proof.
  intros N outcome steps HN Ho.
  assert (G : forall o C, (forall p i, p < N -> o p i = Fine) -> forall st i0,
    assuredRun (cfg N (fun q => setUp N q st i0 (o q)) C) (cfg N (fun _ => Ret Constructed) C)).
  { intros o C H. induction st as [|pf st IH]; intros i0; [constructor|].
    econstructor.
    { apply (cfg_coll _ N _ C tagMax (fun _ => MInt 0)
        (fun p ms => if 0 <? fold_right Nat.max 0 (map asInt ms)
           then bind (gatherStrings []) (fun g =>
             match g with Gathered (w :: _) => Ret (Threw (pf ++ w)) | _ => Ret Undefined end)
           else setUp N p st (S i0) (o p)) HN).
      intros p Hp. cbn [setUp]. rewrite H by auto. reflexivity. }
    rewrite (map_asInt nat (fun _ => 0)). rewrite fold_max_pos.
    assert (Ef : existsb (fun _ : nat => 0 <? 0) (seq 0 N) = false).
    { induction (seq 0 N); auto. }
    rewrite Ef. apply IH. }
  apply ends_intro. unfold done. rewrite !start_cfg. apply G; auto.
Qed.

(** C32, full statement: whatever is thrown, no process is left behind.  An exception
    which is not derived from std::exception makes the other processes wait for ever
    in a collective call. *)
Theorem C32_every_exception_is_agreed_on_refuted :
  exists N outcome steps p, p < N /\ outcome p 0 = Fine
    /\ hangs N (fun q => setUp N q steps 0 (outcome q)) p.
Proof.
  exists 2, (fun p _ => match p with 0 => OtherException | _ => Fine end), [[]], 1.
  split; [lia|]. split; [reflexivity|].
  exists [], (start 2 (fun q => setUp 2 q [[]] 0 (fun _ => match q with 0 => OtherException | _ => Fine end))).
  split; [constructor|]. split.
  - intros [p|]; [|reflexivity]. destruct p as [|[|p]]; try reflexivity.
    cbn. destruct p; reflexivity.
  - eexists. split; [reflexivity|]. intros r. discriminate.
Qed.

(** C32, full statement: an exception always results in an error.  A single process
    whose exception has no text reads the front of an empty list. *)
Theorem C32_exception_without_text_refuted :
  exists outcome steps, outcome 0 0 = StdException [] /\
    ends 1 (fun q => setUp 1 q steps 0 (outcome q)) (fun _ => Undefined).
Proof.
  exists (fun _ _ => StdException []), [[]]. split; [reflexivity|].
  apply ends_intro. unfold done. rewrite !start_cfg.
  apply step_run; try lia.
  - intros p _. discriminate.
  - unfold fit. cbn. lia.
  - intros _. cbn. constructor.
  - discriminate.
Qed.

(** C32: the macro for fatal exceptions aborts all processes or none, for every kind
    of exception. *)
Theorem C32_fatal_exceptions_abort_everywhere : forall N outcome, 0 < N ->
  ends N (fun p => catchFatal (outcome p))
         (fun _ => existsb (fun p => match outcome p with Fine => false | _ => true end) (seq 0 N)).
Proof. intros. apply ends_intro. apply catchFatal_run; auto. Qed.

(** C32: the preconditioner fails on all processes or on none (set up, clean up, and
    application if every process has peers). *)
Theorem C32_preconditioner_agrees_partial : forall N ok, 0 < N ->
  ends N (fun p => preconditionerPre (ok p))
         (fun _ => if forallb ok (seq 0 N) then Applied else Failed)
  /\ ends N (fun p => preconditionerApply true (ok p))
         (fun _ => if forallb ok (seq 0 N) then Applied else Failed).
Proof. intros. split; apply ends_intro; apply pre_run; auto. Qed.

(** C32, full statement: the application works for every partition.  If one process
    has no peers then the processes with peers wait for ever. *)
Theorem C32_preconditioner_agrees_refuted :
  exists N hasPeers, hasPeers 0 = true
    /\ hangs N (fun p => preconditionerApply (hasPeers p) true) 0.
Proof.
  exists 3, (fun p => p <? 2). split; [reflexivity|].
  exists [], (start 3 (fun p => preconditionerApply (p <? 2) true)).
  split; [constructor|]. split.
  - intros [p|]; [|reflexivity]. destruct p as [|[|[|p]]]; try reflexivity.
    cbn. destruct p; reflexivity.
  - eexists. split; [reflexivity|]. intros r. discriminate.
Qed.

(* ----- the hypotheses can be met ----- *)

Example ex_strings (p : nat) : bytes :=
  match p with
  | 0 => [] | 1 => String.list_ascii_of_string "disk full" | _ => String.list_ascii_of_string "no mesh"
  end.

Example gather_three :
  ends 3 (fun p => gatherStrings (ex_strings p))
         (fun _ => Gathered [String.list_ascii_of_string "disk full"; String.list_ascii_of_string "no mesh"]).
Proof.
  assert (F : fit 3 ex_strings) by (unfold fit; cbn; lia).
  exact (C31_gathers_nonempty_strings_in_rank_order 3 ex_strings ltac:(lia) F).
Qed.

(** Three processes; the ranks 1 and 2 fail in the second step, rank 0 in the third. *)
Example ex_outcome (p i : nat) : stepResult :=
  match i, p with
  | 1, 1 => StdException (String.list_ascii_of_string "disk full")
  | 1, 2 => StdException (String.list_ascii_of_string "no mesh")
  | 2, 0 => StdException (String.list_ascii_of_string "bad input")
  | _, _ => Fine
  end.

Example throws_three :
  ends 3 (fun q => setUp 3 q [String.list_ascii_of_string "A: "; String.list_ascii_of_string "B: ";
                              String.list_ascii_of_string "C: "] 0 (ex_outcome q))
         (fun _ => Threw (String.list_ascii_of_string "B: disk full (on rank 1)")).
Proof.
  apply (C32_all_processes_throw_the_first_error 3 ex_outcome
    [String.list_ascii_of_string "A: "; String.list_ascii_of_string "B: ";
     String.list_ascii_of_string "C: "] 1 1 (String.list_ascii_of_string "B: ")).
  - intros p i. destruct i as [|[|[|i]]]; destruct p as [|[|[|p]]]; cbn; discriminate.
  - intros i. unfold fit, report. destruct i as [|[|[|i]]]; vm_compute; reflexivity.
  - split; [lia|]. split; [eexists; reflexivity|]. split.
    + intros i' p' Hi' Hp' (w & Hw). assert (i' = 0) by lia. subst. cbn in Hw. discriminate.
    + intros p' Hp' (w & Hw). assert (p' = 0) by lia. subst. cbn in Hw. discriminate.
  - left. lia.
  - reflexivity.
Qed.

Print Assumptions C31_gathers_nonempty_strings_in_rank_order.
Print Assumptions C31_serial_agrees.
Print Assumptions C32_all_processes_throw_the_first_error.
Print Assumptions C32_no_process_throws_otherwise.
Print Assumptions C32_every_exception_is_agreed_on_refuted.
Print Assumptions C32_exception_without_text_refuted.
Print Assumptions C32_fatal_exceptions_abort_everywhere.
Print Assumptions C32_preconditioner_agrees_partial.
Print Assumptions C32_preconditioner_agrees_refuted.
