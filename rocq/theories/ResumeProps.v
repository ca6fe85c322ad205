(** C29: continuing a simulation from a restart file. *)
From Verif Require Import ResumeModel ResumeSpec ResumeProofs.
From Verif Require FloatTextSpec RestartProofs RestartProps.
Open Scope Q_scope.

(** The six quantities of the simulator a restart file holds are restored exactly; all
    others keep the values of the new process. *)
Theorem C29_clock_and_episode_restored :
  forall k n g codim withVtk s vtk sol old c,
    match k with RestartModel.BlackOil extra => (length extra <= 1)%nat | _ => True end -> (1 <= n)%nat ->
    RestartProps.writable k n (RestartModel.mkState (saved s) vtk sol) ->
    length (RestartModel.s_sol old) = length sol -> Forall (RestartSpec.shape k n) (RestartModel.s_sol old) ->
    exists st, RestartModel.read_all k g codim withVtk old
        (Some (RestartModel.write_all k g codim withVtk (RestartModel.mkState (saved s) vtk sol))) = Some st /\
      let s' := restored (RestartModel.s_sim st) c in
      s_time s' == s_time s /\ s_idx s' = s_idx s /\ s_start s' == s_start s /\
      s_epidx s' = s_epidx s /\ s_epstart s' == s_epstart s /\ s_eplen s' == s_eplen s /\
      s_end s' = s_end c /\ s_dt s' = s_dt c /\ s_fin s' = s_fin c /\ s_forced s' = s_forced c.
Proof.
  intros k n g codim w s vtk sol old c Hk Hn Hw Hl Ho.
  destruct (RestartProps.C27_restart_round_trip_partial k n g codim w (RestartModel.mkState (saved s) vtk sol) old Hk Hn Hw Hl Ho)
    as (st & E & S & _).
  exists st. split; [exact E|]. destruct S as (S1 & S2 & S3 & S4 & S5 & S6). cbn in *. tauto.
Qed.
Print Assumptions C29_clock_and_episode_restored.

(** For a problem whose behaviour depends on the simulator's state only: a run that is
    continued from a restart file makes the calls the original run makes after writing the
    file, at the same times and with the same step sizes, for ever, if the new process
    starts with the step size, the end time and the forced steps of the old one, and the
    question whether an episode is to begin has the same answer. *)
Theorem C29_restart_continues_partial :
  forall p c0 c k n s, memoryless p ->
    let r := run p None c0 k in wrote_restart_file r s ->
    s_end c = s_end s -> s_dt c = s_dt s -> s_fin c = s_fin s -> s_forced c = s_forced s ->
    r_epb r = (episodeIsOver s || (s_idx s =? 0)%Z) ->
    let whole := run p None c0 (k + n) in let resumed := run p (Some (restored (saved s) c)) c n in
    r_sim resumed = r_sim whole /\ r_out resumed = r_out whole /\
    exists calls, history whole = history r ++ calls /\ history resumed = mkEvent KDeserialize s :: calls.
Proof. exact resume. Qed.
Print Assumptions C29_restart_continues_partial.

(** Steps of one second, restart files after every step. *)
Definition steady : problem :=
  mkProblem (fun k s _ => ([], false)) (fun _ _ => false) (fun _ _ => true) (fun _ _ => 1).
Lemma steady_memoryless : memoryless steady.
Proof. repeat split. Qed.
Definition here (dt : Q) : sim := mkSim 0 0 0 10 dt 0 0 100 false [].
Example C29_continues_case :
  let r := run steady None (here 1) 3 in
  wrote_restart_file r (r_sim r) /\ s_time (r_sim r) == 3 /\
  r_epb r = (episodeIsOver (r_sim r) || (s_idx (r_sim r) =? 0)%Z) /\
  kinds (run steady (Some (restored (saved (r_sim r)) (here 1))) (here 1) 1) =
    [KDeserialize; KBeginStep; KIntegrate; KEndStep; KAdvance; KSerialize].
Proof. vm_compute. split; [|auto]. exists [mkEvent KInitial (mkSim 0 (-1) 0 10 0 0 0 100 false []);
   mkEvent KBeginEpisode (mkSim 0 0 0 10 1 0 0 100 false []); 
   mkEvent KBeginStep (mkSim 0 0 0 10 1 0 0 100 false []);
   mkEvent KIntegrate (mkSim 0 0 0 10 1 0 0 100 false []);
   mkEvent KEndStep (mkSim 0 0 0 10 1 0 0 100 false []);
   mkEvent KAdvance (mkSim 0 0 0 10 1 0 0 100 false []);
   mkEvent KSerialize (mkSim 1 1 0 10 1 0 0 100 false []);
   mkEvent KBeginStep (mkSim 1 1 0 10 1 0 0 100 false []);
   mkEvent KIntegrate (mkSim 1 1 0 10 1 0 0 100 false []);
   mkEvent KEndStep (mkSim 1 1 0 10 1 0 0 100 false []);
   mkEvent KAdvance (mkSim 1 1 0 10 1 0 0 100 false []);
   mkEvent KSerialize (mkSim 2 2 0 10 1 0 0 100 false []);
   mkEvent KBeginStep (mkSim 2 2 0 10 1 0 0 100 false []);
   mkEvent KIntegrate (mkSim 2 2 0 10 1 0 0 100 false []);
   mkEvent KEndStep (mkSim 2 2 0 10 1 0 0 100 false []);
   mkEvent KAdvance (mkSim 2 2 0 10 1 0 0 100 false [])]. reflexivity. Qed.

(** The step size is not in the file: the first step of the continued run has the size the
    new process starts with. *)
Theorem C29_step_size_continues_refuted :
  ~ (forall p c k n s, memoryless p -> wrote_restart_file (run p None c k) s ->
       let whole := run p None c (k + n) in let resumed := run p (Some (restored (saved s) c)) c n in
       r_sim resumed = r_sim whole).
Proof.
  intros H. specialize (H steady (here 4) 1%nat 1%nat (mkSim 4 1 0 10 1 0 0 100 false []) steady_memoryless).
  assert (W : wrote_restart_file (run steady None (here 4) 1) (mkSim 4 1 0 10 1 0 0 100 false [])).
  { eexists [_; _; _; _; _; _]. vm_compute. reflexivity. }
  specialize (H W). vm_compute in H. discriminate.
Qed.
Print Assumptions C29_step_size_continues_refuted.

(** Episodes of four seconds, the next of which is started at the end of the one before, as
    the documentation of startNextEpisode proposes. *)
Definition episodic : problem :=
  mkProblem (fun k s _ => (match k with KEndEpisode => [StartNextEpisode 4] | _ => [] end, false))
            (fun _ _ => false) (fun _ _ => true) (fun _ _ => 4).
Lemma episodic_memoryless : memoryless episodic.
Proof. repeat split. Qed.

(** A restart file written at the end of an episode: the continued run never announces the
    new episode, which the original run does next. *)
Theorem C29_episode_announced_refuted :
  ~ (forall p c k n s, memoryless p -> wrote_restart_file (run p None c k) s -> s_dt c = s_dt s ->
       let whole := run p None c (k + n) in let resumed := run p (Some (restored (saved s) c)) c n in
       calls_of KBeginEpisode (kinds whole) =
       (calls_of KBeginEpisode (kinds (run p None c k)) + calls_of KBeginEpisode (kinds resumed))%nat).
Proof.
  intros H.
  specialize (H episodic (mkSim 0 0 0 10 4 0 0 4 false []) 1%nat 1%nat (mkSim 4 1 0 10 4 1 4 4 false []) episodic_memoryless).
  assert (W : wrote_restart_file (run episodic None (mkSim 0 0 0 10 4 0 0 4 false []) 1) (mkSim 4 1 0 10 4 1 4 4 false [])).
  { eexists [_; _; _; _; _; _; _]. vm_compute. reflexivity. }
  specialize (H W eq_refl). vm_compute in H. discriminate.
Qed.
Print Assumptions C29_episode_announced_refuted.
