(** Vocabulary of property C29. *)
From Verif Require Import ResumeModel.

(** What the problem does depends on the simulator's state only, not on calls the process
    before the restart has made; writing and reading the restart file changes nothing else. *)
Definition memoryless (p : problem) : Prop :=
  (forall k s h, p_call p k s h = p_call p k s []) /\
  (forall s h, p_output p s h = p_output p s []) /\
  (forall s h, p_restart p s h = p_restart p s []) /\
  (forall s h, p_next p s h = p_next p s []) /\
  (forall s, p_call p KSerialize s [] = ([], false)) /\
  (forall s, p_call p KDeserialize s [] = ([], false)).

(** After [k] iterations of its loop the run has just written a restart file, with the
    simulator in state [s]. *)
Definition wrote_restart_file (r : rst) (s : sim) : Prop :=
  exists before, history r = before ++ [mkEvent KSerialize s].
