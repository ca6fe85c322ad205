(** Model of what a restart file keeps of the simulator: opm/models/utils/simulator.hh *)
From Coq Require Export List ZArith QArith Lia.
From Verif Require Export SimLoopModel SimLoopSpec.
Export ListNotations.
From Verif Require RestartModel RestartSpec.

(** Simulator::serialize, simulator.hh:931-942: the six quantities that are written. *)
Definition saved (s : sim) : RestartModel.simdata :=
  RestartModel.mkSimdata (s_epidx s) (s_epstart s) (s_eplen s) (s_start s) (s_time s) (s_idx s).

(** Simulator::deserialize, simulator.hh:951-963: the others keep the constructor's values. *)
Definition restored (d : RestartModel.simdata) (c : sim) : sim :=
  mkSim (RestartModel.d_time d) (RestartModel.d_idx d) (RestartModel.d_start d) (s_end c) (s_dt c)
        (RestartModel.d_epidx d) (RestartModel.d_epstart d) (RestartModel.d_eplen d) (s_fin c) (s_forced c).
