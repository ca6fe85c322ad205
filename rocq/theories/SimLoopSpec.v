(** What a user of the run loop relies on, stated about the calls observed by the problem. *)
From Verif Require Export SimLoopModel.
Open Scope Q_scope.

(** The calls of a run, first one first. *)
Definition history (r : rst) : list event := rev (r_hist r).
Definition kinds (r : rst) : list kind := map e_kind (history r).

Fixpoint qsum (l : list Q) : Q := match l with [] => 0 | x :: l => x + qsum l end.

(** Sizes of the time steps completed in a history: the step size when the problem was
    told to advance to the next time level. *)
Definition completed (h : list event) : list Q :=
  flat_map (fun e => match e_kind e with KAdvance => [s_dt (e_sim e)] | _ => [] end) h.

(** At every call the problem sees a simulation time which is the start time plus the sum
    of the completed steps, and a step index which counts them. *)
Definition accounting (t0 : Q) (i0 : Z) (h : list event) : Prop :=
  forall before e after, h = before ++ e :: after ->
    s_time (e_sim e) == t0 + qsum (completed before) /\
    s_idx (e_sim e) = (i0 + Z.of_nat (length (completed before)))%Z.

(** The problem does not itself change the clock. *)
Definition leaves_clock_alone (p : problem) : Prop :=
  forall k s h c, In c (fst (p_call p k s h)) ->
    match c with SetTime _ | SetTimeAndIndex _ _ | SetTimeStepIndex _ => False | _ => True end.

(** The order of the calls, as a grammar.  [out_of_episode]: what may follow when no episode is
    under way; [in_episode]: what may follow when the problem is in an episode and the
    simulation is to go on. *)
Definition optional (b : bool) (k : kind) : list kind := if b then [k] else [].
Definition whole_step (output : bool) : list kind :=
  [KBeginStep; KIntegrate; KEndStep] ++ optional output KWriteOutput ++ [KAdvance].

Inductive out_of_episode : list kind -> Prop :=
| bt_end : out_of_episode [KFinalize]
| bt_cancelled : out_of_episode [KBeginEpisode; KEndEpisode; KFinalize]
| bt_episode l : in_episode l -> out_of_episode (KBeginEpisode :: l)
with in_episode : list kind -> Prop :=
| in_cancelled : in_episode [KBeginStep; KEndStep; KEndEpisode; KFinalize]
| in_end output save : in_episode (whole_step output ++ optional save KSerialize ++ [KFinalize])
| in_step output save l : in_episode l -> in_episode (whole_step output ++ optional save KSerialize ++ l)
| in_last_step output save l : out_of_episode l ->
    in_episode (whole_step output ++ [KEndEpisode] ++ optional save KSerialize ++ l).

(** The calls of a whole run: a new one, or one which continues from a restart file
    (which may be in the middle of an episode). *)
Inductive call_order : bool -> list kind -> Prop :=
| co_new output l : out_of_episode l -> call_order false (KInitial :: optional output KWriteOutput ++ l)
| co_resumed_between l : out_of_episode l -> call_order true (KDeserialize :: l)
| co_resumed_inside l : in_episode l \/ l = [KFinalize] -> call_order true (KDeserialize :: l).

(** The end of the simulation and of the current episode, both in simulated time. *)
Definition end_of_episode (s : sim) : Q := s_epstart s + s_eplen s - s_start s.

(** The step which is about to be done ends before both ends. *)
Definition fits (s : sim) : Prop :=
  s_time s + s_dt s <= s_end s /\ s_time s + s_dt s <= end_of_episode s.

(** A problem which keeps every step within the ends: it does not touch the clock, only
    the call-backs at the begin of an episode, at the begin of a step, in the time
    integration and at the end of an episode call setters, the first of them makes the
    step fit (or finishes the simulation) and the next two keep it fitting. *)
Record polite (p : problem) : Prop := {
  pol_clock : leaves_clock_alone p;
  pol_passive : forall k s h, k = KEndStep \/ k = KWriteOutput \/ k = KAdvance \/ k = KSerialize ->
                  fst (p_call p k s h) = [];
  pol_keep : forall k s h, k = KBeginStep \/ k = KIntegrate -> 0 <= s_dt s /\ fits s ->
                  let s' := exec_all (fst (p_call p k s h)) s in 0 <= s_dt s' /\ fits s';
  pol_begin : forall s h, 0 <= s_time s -> finished s = false ->
                  let s' := exec_all (fst (p_call p KBeginEpisode s h)) s in
                  finished s' = true \/ (0 <= s_dt s' /\ fits s');
  pol_next : forall s h, 0 <= p_next p s h
}.

(** How many calls of a kind. *)
Definition kind_eqb (a b : kind) : bool :=
  match a, b with
  | KInitial, KInitial | KDeserialize, KDeserialize | KBeginEpisode, KBeginEpisode | KBeginStep, KBeginStep
  | KIntegrate, KIntegrate | KEndStep, KEndStep | KWriteOutput, KWriteOutput | KAdvance, KAdvance
  | KEndEpisode, KEndEpisode | KSerialize, KSerialize | KFinalize, KFinalize => true
  | _, _ => false
  end.
Definition calls_of (k : kind) (l : list kind) : nat := length (filter (kind_eqb k) l).
