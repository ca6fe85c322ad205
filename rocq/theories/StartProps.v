(** C59: the start routine honours help and error requests. *)
From Coq Require Import List Bool ZArith QArith Lia.
Import ListNotations.
From Verif Require Import Num ParamModel ParamSpec ParamProofs StartModel StartSpec StartProofs.
Local Close Scope Q_scope.
Local Open Scope nat_scope.

Section Program.
Variable registered : str -> bool.
Variable defaultFile : str.
Variable defaultEnd defaultStep : Q.
Variable defaultThreads defaultPrint : Z.
Variable number : str -> option Q.
Variable integer : str -> option Z.
Variable openMP : bool.
Let run := start registered defaultFile defaultEnd defaultStep defaultThreads defaultPrint number integer openMP.
Let ok := acceptable registered defaultFile defaultEnd defaultStep defaultThreads defaultPrint number integer openMP.
Let usable := usableValues defaultEnd defaultStep defaultThreads defaultPrint number integer openMP.

(** If help is not asked for, a process with acceptable parameters runs the simulation with
    them, whatever the other processes do; the exit status is that of the simulation. *)
Theorem C59_acceptable_parameters_are_used : forall mode ps k p t,
  nth_error ps k = Some p -> ~ asksForHelp p -> ok p t ->
  exists t', ok p t' /\ (forall name, t' name = t name) /\
    nth_error (run mode ps) k = Some ([Ran t'], Exit (exitOf (sim p t'))).
Proof.
  intros mode ps k p t K H (P & R & V).
  destruct (setup_complete registered defaultFile p t H P R) as (t' & S & E). exists t'.
  assert (V' : usable t') by (eapply usable_ext; [intros n; symmetry; apply E|exact V]).
  destruct (setup_sound registered defaultFile p t' S) as (_ & P' & R').
  split; [split; [exact P'|split; [exact R'|exact V']]|]. split; [exact E|].
  unfold run, start. rewrite nth_error_map, K. cbn [option_map]. f_equal. unfold continue_. rewrite S. cbn [fst snd app].
  rewrite proceed_complete by (assumption || discriminate). reflexivity.
Qed.

(** A process without MPI which is not asked for help and has no acceptable parameters ends with
    status 1, and no simulation is run. *)
Theorem C59_unacceptable_parameters_end_the_program : forall ps k p,
  nth_error ps k = Some p -> ~ asksForHelp p -> ~ (exists t, ok p t) ->
  nth_error (run NoMpi ps) k = Some ([], Exit 1).
Proof.
  intros ps k p K H N. unfold run, start. rewrite nth_error_map, K. cbn [option_map]. f_equal. unfold continue_.
  destruct (setup_shape registered defaultFile p H) as [S|[S|[(t & S)|(t & S)]]]; rewrite S; cbn [fst snd app].
  - reflexivity.
  - reflexivity.
  - reflexivity.
  - destruct (proceed_cases defaultEnd defaultStep defaultThreads defaultPrint number integer openMP p 0 t) as [E|(_ & V & _)];
      [discriminate|rewrite E; reflexivity|].
    exfalso. apply N. exists t. destruct (setup_sound registered defaultFile p t S) as (_ & P & R). split; [exact P|split; assumption].
Qed.

(** The two cases together: without help, the simulation runs if and only if the parameters are
    acceptable. *)
Theorem C59_runs_exactly_with_acceptable_parameters : forall ps k p o,
  nth_error ps k = Some p -> ~ asksForHelp p -> nth_error (run NoMpi ps) k = Some o ->
  (ran o <-> exists t, ok p t) /\ (~ ran o -> o = ([], Exit 1)) /\ ~ In Usage (fst o).
Proof.
  intros ps k p o K H O.
  assert (D : (exists t, ok p t /\ o = ([Ran t], Exit (exitOf (sim p t)))) \/
              (~ (exists t, ok p t) /\ o = ([], Exit 1))).
  { pose proof O as O'. unfold run, start in O'. rewrite nth_error_map, K in O'. cbn [option_map] in O'. injection O' as O'.
    unfold continue_ in O'.
    assert (NO : (forall t, setup registered defaultFile p <> ([], Status 0 t)) -> ~ exists t, ok p t).
    { intros Z (t & P & R & V). destruct (setup_complete registered defaultFile p t H P R) as (t' & S & _). apply (Z t'). exact S. }
    destruct (setup_shape registered defaultFile p H) as [S|[S|[(t & S)|(t & S)]]]; rewrite S in O', NO; cbn [fst snd app] in O'.
    - right. split; [apply NO; intros; discriminate|now rewrite <- O'].
    - right. split; [apply NO; intros; discriminate|now rewrite <- O'].
    - right. split; [apply NO; intros; discriminate|now rewrite <- O'].
    - destruct (setup_sound registered defaultFile p t S) as (_ & P & R).
      destruct (proceed_cases defaultEnd defaultStep defaultThreads defaultPrint number integer openMP p 0 t) as [E|(_ & V & E)];
        [discriminate| |]; rewrite E in O'; cbn [fst snd] in O'.
      + right. split; [|now rewrite <- O']. intros (t' & P' & R' & V').
        destruct (setup_complete registered defaultFile p t' H P' R') as (t2 & S2 & E2). rewrite S in S2. injection S2 as <-.
        assert (V2 : usable t) by (eapply usable_ext; [intros n; symmetry; apply E2|exact V']).
        rewrite proceed_complete in E by (assumption || discriminate). discriminate.
      + left. exists t. split; [split; [exact P|split; assumption]|now rewrite <- O']. }
  destruct D as [(t & A & ->)|(N & ->)].
  - split; [split; [eauto|intros _; exists t; now left]|]. split.
    + intros Z. exfalso. apply Z. exists t. now left.
    + intros [Z|[]]. discriminate.
  - split; [split; [intros (t & [])|intros Z; contradiction]|]. split; [reflexivity|intros []].
Qed.

(** Help.  The usage is printed, but the program does not end: whenever the default values are
    usable, the simulation is run, with the defaults, and its status is returned. *)
Theorem C59_help_runs_the_simulation_refuted : forall mode ps k p,
  nth_error ps k = Some p -> asksForHelp p -> usable noTree ->
  mode = NoMpi \/ (mode = MpiReady /\ forall q, In q ps -> asksForHelp q) ->
  nth_error (run mode ps) k = Some ([Usage; Ran noTree], Exit (exitOf (sim p noTree))).
Proof.
  intros mode ps k p K H U M. unfold run, start. rewrite nth_error_map, K. cbn [option_map]. f_equal. unfold continue_.
  rewrite (setup_help registered defaultFile p H). cbn [fst snd].
  destruct M as [->|(-> & A)].
  - rewrite proceed_complete by (assumption || discriminate). reflexivity.
  - assert (F : forallb stops (map (setup registered defaultFile) ps) = true).
    { apply forallb_forall. intros r I. apply in_map_iff in I. destruct I as (q & <- & I).
      rewrite (setup_help registered defaultFile q (A q I)). reflexivity. }
    rewrite F. assert (Z : fold_right Z.min (-1)%Z (map statusOf (map (setup registered defaultFile) ps)) = (-1)%Z).
    { clear K F. induction ps as [|q ps IH]; [reflexivity|]. cbn [map fold_right].
      rewrite IH by (intros q' I; apply A; now right). rewrite (setup_help registered defaultFile q (A q (or_introl eq_refl))). reflexivity. }
    rewrite Z. rewrite proceed_complete by (assumption || discriminate). reflexivity.
Qed.

(** Before MPI is initialised, as in the programs which only call [start], help and every
    command line that is not well formed make the program call an MPI function which aborts
    it. *)
Theorem C59_before_mpi_is_initialised_refuted : forall ps k p,
  nth_error ps k = Some p ->
  asksForHelp p \/ (fst (parse_cmdline no_positional false (args p) noTree) = CError) ->
  exists ev, nth_error (run MpiNotReady ps) k = Some (ev, Aborted).
Proof.
  intros ps k p K H. unfold run, start. rewrite nth_error_map, K. cbn [option_map]. unfold continue_.
  unfold setup. destruct (existsb is_help (args p)) eqn:X; [eexists; reflexivity|].
  destruct H as [H|H]; [apply is_help_iff in H; congruence|].
  unfold parse_cmdline in H. cbn [andb] in H.
  destruct (cmd_loop no_positional (args p) (args p) 0 1 0 {| seen := []; ctree := noTree |}) as (r & c).
  cbn in H. subst r. eexists. reflexivity.
Qed.

(** Processes which see the same command line and the same files end in the same way. *)
Theorem C59_equal_processes_agree : forall mode ps j k p q,
  (forall a b, In a ps -> In b ps -> args a = args b /\ (forall f, files a f = files b f) /\ (forall t, sim a t = sim b t)) ->
  mode <> MpiNotReady ->
  nth_error ps j = Some p -> nth_error ps k = Some q ->
  nth_error (run mode ps) j = nth_error (run mode ps) k /\
  (forall o, nth_error (run mode ps) j = Some o -> exists s, snd o = Exit s).
Proof.
  intros mode ps j k p q A M J K. unfold run, start. rewrite !nth_error_map, J, K. cbn [option_map].
  assert (S : forall a b, In a ps -> In b ps -> setup registered defaultFile a = setup registered defaultFile b).
  { intros a b Ia Ib. destruct (A a b Ia Ib) as (E & F & _). unfold setup. rewrite E.
    destruct (existsb is_help (args b)); [reflexivity|].
    destruct (cmd_loop _ _ _ _ _ _ _) as (r & c). destruct r; try reflexivity. f_equal. unfold readFile.
    destruct (value _ _ _ _) as [[|x f]|]; [reflexivity| |reflexivity]. rewrite F. reflexivity. }
  assert (Ip : In p ps) by (eapply nth_error_In; eauto). assert (Iq : In q ps) by (eapply nth_error_In; eauto).
  assert (P : forall s t, proceed defaultEnd defaultStep defaultThreads defaultPrint number integer openMP p s t =
                          proceed defaultEnd defaultStep defaultThreads defaultPrint number integer openMP q s t).
  { intros s t. unfold proceed. destruct (A p q Ip Iq) as (_ & _ & E). rewrite (E t). reflexivity. }
  assert (X : forall s t, exists n, snd (proceed defaultEnd defaultStep defaultThreads defaultPrint number integer openMP p s t) = Exit n).
  { intros s t. destruct (Z.eq_dec s 2) as [->|N]; [exists 0; reflexivity|].
    destruct (proceed_cases defaultEnd defaultStep defaultThreads defaultPrint number integer openMP p s t N) as [E|(_ & _ & E)];
      rewrite E; eexists; reflexivity. }
  assert (F : forall s, snd (setup registered defaultFile p) = Stop s -> forallb stops (map (setup registered defaultFile) ps) = true).
  { intros s E. apply forallb_forall. intros r I. apply in_map_iff in I. destruct I as (a & <- & I).
    rewrite (S a p I Ip). unfold stops. now rewrite E. }
  split.
  - f_equal. unfold continue_. rewrite <- (S p q Ip Iq). destruct (snd (setup registered defaultFile p)); [|rewrite P; reflexivity|reflexivity].
    destruct mode; [rewrite P; reflexivity|rewrite P; reflexivity|reflexivity].
  - intros o O. injection O as <-. unfold continue_. destruct (snd (setup registered defaultFile p)) as [s|s t|] eqn:E; cbn [snd].
    + destruct mode; [apply X| |congruence]. rewrite (F s eq_refl). apply X.
    + apply X.
    + eauto.
Qed.

End Program.

(** A program with the parameters EndTime, InitialTimeStepSize and ParameterFile. *)
Definition known (k : str) : bool :=
  existsb (str_eqb k) [lit "EndTime"; lit "InitialTimeStepSize"; lit "ParameterFile"].
Definition digits (s : str) : option Q := match s with [] => None | c :: _ => if isdigit c then Some 7%Q else None end.
Definition demo := start known [] 1%Q 1%Q (-1)%Z 0%Z digits (fun _ => None) true.
Definition noFiles (f : str) : option str := None.
Definition summary (o : list event * ending) : list bool * ending :=
  (map (fun e => match e with Usage => false | Ran _ => true end) (fst o), snd o).

Example demo_runs :
  map summary (demo NoMpi [mkProc [lit "--end-time=12"] noFiles (fun _ => Completes)]) = [([true], Exit 0)].
Proof. vm_compute. reflexivity. Qed.

Example demo_errors :
  map summary (demo NoMpi [mkProc [lit "--end-time=abc"] noFiles (fun _ => Completes);
                           mkProc [lit "--end-tim=12"] noFiles (fun _ => Completes);
                           mkProc [lit "--end-time"] noFiles (fun _ => Completes);
                           mkProc [lit "--parameter-file=a"] noFiles (fun _ => Completes);
                           mkProc [lit "abc"] noFiles (fun _ => Completes)])
  = repeat ([], Exit 1) 5.
Proof. vm_compute. reflexivity. Qed.

Example demo_help :
  map summary (demo NoMpi [mkProc [lit "--help"] noFiles (fun _ => Completes)]) = [([false; true], Exit 0)].
Proof. vm_compute. reflexivity. Qed.

(** Processes which cannot read the parameter file end with an error, and the others run the
    simulation, without noticing; and a process whose command line is refused waits for ever if
    the other command lines are accepted. *)
Theorem C59_error_on_every_process_refuted :
  (exists ps o1 o2, demo MpiReady ps = [o1; o2] /\
     (forall p q, In p ps -> In q ps -> args p = args q) /\ snd o1 = Exit 1 /\ ~ ran o1 /\ ran o2) /\
  (exists ps o1 o2, demo MpiReady ps = [o1; o2] /\ snd o1 = Blocked /\ ran o2).
Proof.
  split.
  - eexists [mkProc [lit "--parameter-file=a"] noFiles (fun _ => Completes);
             mkProc [lit "--parameter-file=a"] (fun _ => Some []) (fun _ => Completes)], _, _.
    split; [vm_compute; reflexivity|]. split; [intros p q [<-|[<-|[]]] [<-|[<-|[]]]; reflexivity|].
    split; [reflexivity|]. split; [intros (t & [])|eexists; left; reflexivity].
  - eexists [mkProc [lit "abc"] noFiles (fun _ => Completes);
             mkProc [] noFiles (fun _ => Completes)], _, _.
    split; [vm_compute; reflexivity|]. split; [reflexivity|]. eexists; left; reflexivity.
Qed.

Print Assumptions C59_acceptable_parameters_are_used.
Print Assumptions C59_unacceptable_parameters_end_the_program.
Print Assumptions C59_runs_exactly_with_acceptable_parameters.
Print Assumptions C59_help_runs_the_simulation_refuted.
Print Assumptions C59_before_mpi_is_initialised_refuted.
Print Assumptions C59_equal_processes_agree.
Print Assumptions C59_error_on_every_process_refuted.
