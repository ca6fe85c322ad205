(** Model of the simulator's run loop: opm/models/utils/simulator.hh.

    Numbers are exact rationals (the code uses [double]; rounding is not modelled, the
    tolerance factors of the code are).  The problem, i.e. the user's code, is an
    arbitrary function from the whole observable past to a reply: the calls of the
    simulator's public setters which the call-back makes and whether it throws. *)
From Coq Require Export List Bool ZArith QArith Qabs Qminmax Lia.
Export ListNotations.
Open Scope Q_scope.

(** [std::numeric_limits<double>::epsilon()*1e3], simulator.hh:485,496,585,596,607. *)
Definition eps3 : Q := 1000 # 4503599627370496.

(** [a < b] on scalars. *)
Definition Qltb (a b : Q) : bool := negb (Qle_bool b a).

(** The data members of the simulator which the run loop uses, simulator.hh:979-1013.
    The timers are not modelled here (see TimerModel). *)
Record sim := mkSim {
  s_time : Q;         (* time_ *)
  s_idx : Z;          (* timeStepIdx_ *)
  s_start : Q;        (* startTime_ *)
  s_end : Q;          (* endTime_ *)
  s_dt : Q;           (* timeStepSize_ *)
  s_epidx : Z;        (* episodeIdx_ *)
  s_epstart : Q;      (* episodeStartTime_ *)
  s_eplen : Q;        (* episodeLength_ *)
  s_fin : bool;       (* finished_ *)
  s_forced : list Q   (* forcedTimeSteps_ *)
}.

(** The setters of the public interface: setStartTime :321, setTime :336 and :345,
    setEndTime :366, setTimeStepSize :437, setTimeStepIndex :447, setFinished :472,
    startNextEpisode :520 and :534, setEpisodeIndex :546, setEpisodeLength :569. *)
Inductive cmd :=
| SetStartTime (t : Q)
| SetTime (t : Q)
| SetTimeAndIndex (t : Q) (i : Z)
| SetEndTime (t : Q)
| SetTimeStepSize (dt : Q)
| SetTimeStepIndex (i : Z)
| SetFinished (b : bool)
| StartNextEpisodeAt (start len : Q)
| StartNextEpisode (len : Q)
| SetEpisodeIndex (i : Z)
| SetEpisodeLength (len : Q).

Definition exec (c : cmd) (s : sim) : sim :=
  let '(mkSim t i st en dt ei es el f fo) := s in
  match c with
  | SetStartTime t' => mkSim t i t' en dt ei es el f fo
  | SetTime t' => mkSim t' i st en dt ei es el f fo
  | SetTimeAndIndex t' i' => mkSim t' i' st en dt ei es el f fo
  | SetEndTime e => mkSim t i st e dt ei es el f fo
  | SetTimeStepSize d => mkSim t i st en d ei es el f fo
  | SetTimeStepIndex i' => mkSim t i' st en dt ei es el f fo
  | SetFinished b => mkSim t i st en dt ei es el b fo
  | StartNextEpisodeAt a l => mkSim t i st en dt (ei + 1) a l f fo
  | StartNextEpisode l => mkSim t i st en dt (ei + 1) (st + t) l f fo
  | SetEpisodeIndex i' => mkSim t i st en dt i' es el f fo
  | SetEpisodeLength l => mkSim t i st en dt ei es l f fo
  end.

(** A call-back executes its setter calls one after the other. *)
Definition exec_all (cs : list cmd) (s : sim) : sim := fold_left (fun a c => exec c a) cs s.

(** [Simulator::finished], simulator.hh:481-488. *)
Definition finished (s : sim) : bool :=
  let eps := Qmax (Qabs (s_time s)) (s_dt s) * eps3 in
  s_fin s || Qle_bool (s_end s) (s_time s * (1 + eps)).

(** [Simulator::willBeFinished], simulator.hh:494-499. *)
Definition willBeFinished (s : sim) : bool :=
  s_fin s || Qle_bool (s_end s) ((s_time s + s_dt s) * (1 + eps3)).

(** [Simulator::episodeStarts], simulator.hh:583-588. *)
Definition episodeStarts (s : sim) : bool :=
  Qle_bool (s_time s) ((s_epstart s - s_start s) * (1 + eps3)).

(** [Simulator::episodeIsOver], simulator.hh:594-599. *)
Definition episodeIsOver (s : sim) : bool :=
  Qle_bool ((s_epstart s - s_start s + s_eplen s) * (1 - eps3)) (s_time s).

(** [Simulator::episodeWillBeOver], simulator.hh:605-611. *)
Definition episodeWillBeOver (s : sim) : bool :=
  Qle_bool ((s_epstart s - s_start s + s_eplen s) * (1 - eps3)) (s_time s + s_dt s).

(** [Simulator::episodeMaxTimeStepSize], simulator.hh:617-631. *)
Definition episodeMaxTimeStepSize (s : sim) : Q :=
  if episodeIsOver s then 0
  else Qmax 0 ((s_epstart s + s_eplen s) - (s_time s + s_start s)).

(** [Simulator::maxTimeStepSize], simulator.hh:505-512. *)
Definition maxTimeStepSize (s : sim) : Q :=
  if finished s then 0
  else Qmin (episodeMaxTimeStepSize s) (Qmax 0 (s_end s - s_time s)).

(** The calls into the problem and the model made by [run], simulator.hh:643-814. *)
Inductive kind :=
| KInitial        (* model.applyInitialSolution, :683 *)
| KDeserialize    (* deserialize of simulator, problem and model, :658-663 *)
| KBeginEpisode   (* :702 *)
| KBeginStep      (* :723 *)
| KIntegrate      (* :738 *)
| KEndStep        (* :728 and :760 *)
| KWriteOutput    (* :687 and :766 *)
| KAdvance        (* advanceTimeLevel, :771 *)
| KEndEpisode     (* :707, :729 and :789 *)
| KSerialize      (* writing a restart file, :808 *)
| KFinalize.      (* :813 *)

(** One call, with the simulator's state at the time of the call. *)
Record event := mkEvent { e_kind : kind; e_sim : sim }.

(** The user's problem: any behaviour which may depend on the whole past.
    [p_call]: the setters called by the call-back, and whether it throws.
    [p_output]: shouldWriteOutput; [p_restart]: shouldWriteRestartFile;
    [p_next]: nextTimeStepSize. *)
Record problem := mkProblem {
  p_call : kind -> sim -> list event -> list cmd * bool;
  p_output : sim -> list event -> bool;
  p_restart : sim -> list event -> bool;
  p_next : sim -> list event -> Q
}.

(** How [run] ended.  A throwing call-back inside EWOMS_CATCH_PARALLEL_EXCEPTIONS_FATAL
    (simulator.hh:61-84) aborts the process; an exception of timeIntegration leaves
    [run] (simulator.hh:736-750). *)
Inductive outcome := Running | Done | Aborted | Threw.

(** State of [run]: the simulator, the calls so far (latest first), the local variable
    [episodeBegins] and how it ended. *)
Record rst := mkRst { r_sim : sim; r_hist : list event; r_epb : bool; r_out : outcome }.

Definition running (r : rst) : bool := match r_out r with Running => true | _ => false end.

Definition with_sim (f : sim -> sim) (r : rst) : rst :=
  if running r then mkRst (f (r_sim r)) (r_hist r) (r_epb r) (r_out r) else r.
Definition with_epb (b : bool) (r : rst) : rst :=
  if running r then mkRst (r_sim r) (r_hist r) b (r_out r) else r.
Definition with_out (o : outcome) (r : rst) : rst :=
  if running r then mkRst (r_sim r) (r_hist r) (r_epb r) o else r.

(** Constructor's values of timing data, simulator.hh:129-151; [big] is
    numeric_limits::max(). *)
Definition fresh (endTime dt0 big : Q) (forced : list Q) : sim :=
  mkSim 0 0 0 endTime dt0 0 0 big false forced.

Definition set_dt (d : Q) (s : sim) : sim :=
  mkSim (s_time s) (s_idx s) (s_start s) (s_end s) d (s_epidx s) (s_epstart s) (s_eplen s) (s_fin s) (s_forced s).
Definition set_idx (i : Z) (s : sim) : sim :=
  mkSim (s_time s) i (s_start s) (s_end s) (s_dt s) (s_epidx s) (s_epstart s) (s_eplen s) (s_fin s) (s_forced s).
Definition set_time (t : Q) (s : sim) : sim :=
  mkSim t (s_idx s) (s_start s) (s_end s) (s_dt s) (s_epidx s) (s_epstart s) (s_eplen s) (s_fin s) (s_forced s).

(** [time_ += oldDt; ++timeStepIdx_], simulator.hh:782-783. *)
Definition advance (oldDt : Q) (s : sim) : sim := set_idx (s_idx s + 1) (set_time (s_time s + oldDt) s).

(** Choice of the next step size, simulator.hh:792-802.  The assertion of line 800 is
    compiled out in release builds and is not modelled.  A negative index (undefined in
    the code) asks the problem. *)
Definition choose_dt (p : problem) (h : list event) (s : sim) : Q :=
  if (0 <=? s_idx s)%Z && (s_idx s <? Z.of_nat (length (s_forced s)))%Z
  then nth (Z.to_nat (s_idx s)) (s_forced s) 0
  else Qmin (maxTimeStepSize s) (p_next p s h).

Section Run.
  Variable p : problem.

  (** One call-back. *)
  Definition call (k : kind) (r : rst) : rst :=
    if running r then
      let '(cs, threw) := p_call p k (r_sim r) (r_hist r) in
      mkRst (exec_all cs (r_sim r)) (mkEvent k (r_sim r) :: r_hist r) (r_epb r)
            (if threw then match k with KIntegrate => Threw | _ => Aborted end else Running)
    else r.

  (** [if (problem_->shouldWriteOutput()) writeOutput()], simulator.hh:686-687, 765-766. *)
  Definition maybe_output (r : rst) : rst :=
    if running r && p_output p (r_sim r) (r_hist r) then call KWriteOutput r else r.

  (** [if (problem_->shouldWriteRestartFile()) serialize()], simulator.hh:807-808. *)
  Definition maybe_serialize (r : rst) : rst :=
    if running r && p_restart p (r_sim r) (r_hist r) then call KSerialize r else r.

  (** After the loop: [finalize], simulator.hh:813. *)
  Definition finish (r : rst) : rst := with_out Done (call KFinalize r).

  (** Simulator::run before the loop, simulator.hh:652-695.  [restored] is the simulator
      data read from a restart file: :653-670; otherwise the initial solution is applied
      with step size 0 and index -1, which are put back afterwards, :671-691. *)
  Definition prologue (restored : option sim) (s : sim) : rst :=
    let r0 := mkRst s [] false Running in
    let r2 :=
      match restored with
      | Some s' => call KDeserialize (with_sim (fun _ => s') r0)
      | None =>
          let r1 := maybe_output (call KInitial (with_sim (fun s => set_idx (-1) (set_dt 0 s)) r0)) in
          with_sim (fun a => set_idx (s_idx s) (set_dt (s_dt s) a)) r1
      end in
    with_epb (episodeIsOver (r_sim r2) || (s_idx (r_sim r2) =? 0)%Z) r2.

  (** [oldDt = timeStepSize(); advanceTimeLevel(); time_ += oldDt; ++timeStepIdx_],
      simulator.hh:770-783. *)
  Definition advance_step (r : rst) : rst := with_sim (advance (s_dt (r_sim r))) (call KAdvance r).

  (** End of the episode or choice of the next step size, simulator.hh:786-803. *)
  Definition after_advance (r : rst) : rst :=
    if episodeIsOver (r_sim r) then with_epb true (call KEndEpisode r)
    else with_sim (fun s => set_dt (choose_dt p (r_hist r) s) s) r.

  (** The part of the loop body from [timeIntegration] on, simulator.hh:736-809. *)
  Definition do_step (r : rst) : rst :=
    maybe_serialize (after_advance (advance_step (maybe_output (call KEndStep (call KIntegrate r))))).

  (** After beginTimeStep: leave the loop if the problem has finished the simulation,
      simulator.hh:725-733, or do the step. *)
  Definition step_or_stop (r : rst) : rst :=
    if finished (r_sim r) then finish (call KEndEpisode (call KEndStep r)) else do_step r.

  (** [episodeBegins = false; ... beginTimeStep()], simulator.hh:713-723. *)
  Definition begin_step (r : rst) : rst := step_or_stop (call KBeginStep (with_epb false r)).

  (** After beginEpisode: leave the loop if the problem has finished the simulation,
      simulator.hh:704-711. *)
  Definition begin_or_stop (r : rst) : rst :=
    if finished (r_sim r) then finish (call KEndEpisode r) else begin_step r.

  (** One iteration of [while (!finished())], simulator.hh:697-810, together with
      leaving the loop. *)
  Definition iteration (r : rst) : rst :=
    if negb (running r) then r
    else if finished (r_sim r) then finish r
    else if r_epb r then begin_or_stop (call KBeginEpisode r) else begin_step r.

  (** [run], cut off after [n] iterations. *)
  Fixpoint iterate (n : nat) (r : rst) : rst :=
    match n with O => r | S n => iterate n (iteration r) end.

  Definition run (restored : option sim) (s : sim) (n : nat) : rst := iterate n (prologue restored s).
End Run.
