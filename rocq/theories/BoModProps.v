(** * C109: the mobilities with the extension modules *)
From Coq Require Import QArith List Bool Lqa.
From Verif Require Import BoIqModel BoIqSpec BoModModel BoModSpec.
Open Scope Q_scope.

(** Every undirected mobility is multiplied by the factors of all modules which concern it, each exactly once. *)
Theorem C109_undirected : forall C M m m',
  modulesUpdate C M m = Done m' ->
  (forall p, mobility (base m') p == mobility (base m) p * factorOf C M p) /\
  solventMobility m' == solventMobility m * foamFactor M FoamSolvent.
Proof.
  intros C M m m'. unfold modulesUpdate, foamUpdate, factorOf, foamFactor, mobility.
  assert (P : forall p, mobilityArray (base (polymerUpdate M m)) p ==
                        mobilityArray (base m) p * match p, polymerM M with Water, Some (corr, res) => corr / res | _, _ => 1 end).
  { unfold polymerUpdate. destruct (polymerM M) as [[a b]|]; intros []; cbn; ring. }
  assert (PS : solventMobility (polymerUpdate M m) = solventMobility m)
    by (unfold polymerUpdate; destruct (polymerM M) as [[a b]|]; reflexivity).
  assert (S : forall n p, mobilityArray (base (saltUpdate C M (micpUpdate M n))) p ==
     mobilityArray (base n) p * match p, micpM M with Water, Some x => x | _, _ => 1 end
     * match saltM M with Some x => if active C p then x else 1 | None => 1 end).
  { intros n p. unfold saltUpdate, micpUpdate.
    destruct (micpM M), (saltM M); destruct p; destruct (active C Water), (active C Oil), (active C Gas); cbn; ring. }
  assert (SS : forall n, solventMobility (saltUpdate C M (micpUpdate M n)) = solventMobility n).
  { intros n. unfold saltUpdate, micpUpdate.
    destruct (micpM M), (saltM M); destruct (active C Water), (active C Oil), (active C Gas); reflexivity. }
  destruct (foamM M) as [[F c]|].
  - destruct (transport F); [| |destruct (solventEnabled M); [|discriminate]|discriminate];
    (destruct (allowDesorption F (satRegion c)); [|discriminate]); intros E; injection E as <-;
    (split; [intros p; rewrite S|rewrite SS]; cbn [base solventMobility scale scaleSolvent scaleBase mobilityArray]).
    + destruct p; cbn [put phaseEqb]; rewrite P; ring.
    + rewrite PS; ring.
    + destruct p; cbn [put phaseEqb]; rewrite P; ring.
    + rewrite PS; ring.
    + destruct p; rewrite P; ring.
    + rewrite PS; ring.
  - intros E; injection E as <-. split; [intros p; rewrite S, P; destruct p; ring|rewrite SS, PS; ring].
Qed.

(** Without directional mobilities these are the mobilities towards every face. *)
Theorem C109_faces_partial : forall C M m m' p d,
  modulesUpdate C M m = Done m' -> dirMob (base m) = None ->
  exists x, mobilityTowards (base m') p d = Some x /\ x == mobility (base m) p * factorOf C M p.
Proof.
  intros C M m m' p d H N. destruct (C109_undirected C M m m' H) as [U _]. specialize (U p).
  assert (N' : dirMob (base m') = None).
  { revert H. unfold modulesUpdate, foamUpdate, polymerUpdate, micpUpdate, saltUpdate.
    destruct (foamM M) as [[F c]|];
      [destruct (transport F); [| |destruct (solventEnabled M); [|discriminate]|discriminate];
       (destruct (allowDesorption F (satRegion c)); [|discriminate])|];
    intros E; injection E as <-;
    destruct (polymerM M) as [[a b]|], (micpM M), (saltM M), (active C Water), (active C Oil), (active C Gas); exact N. }
  unfold mobilityTowards. rewrite N'. exists (mobilityArray (base m') p). split; [reflexivity|exact U].
Qed.

(** So the flow over every face is the one of the changed mobility of the upstream cell. *)
Theorem C109_flow_partial : forall C M m m' p d dp tm t a,
  modulesUpdate C M m = Done m' -> dirMob (base m) = None ->
  exists y, darcyFlux m' p d dp tm t a = Some y /\
            y == - (mobility (base m) p * factorOf C M p) * dp * tm * t / a.
Proof.
  intros C M m m' p d dp tm t a H N. destruct (C109_faces_partial C M m m' p d H N) as (x & E & X).
  unfold darcyFlux. rewrite E. eexists. split; [reflexivity|]. rewrite X. unfold Qdiv. ring.
Qed.

(** With directional mobilities no module has any effect on the flow over any face. *)
Theorem C109_directions_ignore_modules : forall C M m m' p d dp tm t a,
  modulesUpdate C M m = Done m' -> dirMob (base m) <> None ->
  darcyFlux m' p d dp tm t a = darcyFlux m p d dp tm t a.
Proof.
  intros C M m m' p d dp tm t a H N.
  assert (N' : dirMob (base m') = dirMob (base m)).
  { revert H. unfold modulesUpdate, foamUpdate, polymerUpdate, micpUpdate, saltUpdate.
    destruct (foamM M) as [[F c]|];
      [destruct (transport F); [| |destruct (solventEnabled M); [|discriminate]|discriminate];
       (destruct (allowDesorption F (satRegion c)); [|discriminate])|];
    intros E; injection E as <-;
    destruct (polymerM M) as [[x y]|], (micpM M), (saltM M), (active C Water), (active C Oil), (active C Gas); reflexivity. }
  unfold darcyFlux, mobilityTowards. rewrite N'. destruct (dirMob (base m)); [reflexivity|congruence].
Qed.

(** A cell with the relative permeability 1 towards all faces and for all phases. *)
Definition oneCell (dir : bool) : moduleQuants :=
  let st := {| saturation := fun _ => 1 # 3; pressure := fun _ => 1; Rs := 0; Rv := 0; Rvw := 0; Rsw := 0;
               invB := fun _ => 1; density := fun _ => 1 |} in
  {| base := {| fluid := st; mobilityArray := fun _ => 1;
                dirMob := if dir then Some {| mobX := fun _ => 1; mobY := fun _ => 1; mobZ := fun _ => 1 |} else None;
                porosity := 1;
                ext := {| eOilMu := 1; eGasMu := 1; eBo := 1; eBg := 1; eBz := 1; eRs := 0; eRv := 0; eX := 0; eY := 0; eZ := 0 |} |};
     solventMobility := 1; foamConcentration := 0; foamRockDensity := 0; foamAdsorbed := 0 |}.
Definition threePhases : config :=
  {| active := fun _ => true; dissolvedGas := false; dissolvedGasInWater := false; vaporizedOil := false;
     vaporizedWater := false; extbo := false; compositionSwitch := true; micp := false; saltPrecipitation := true;
     conserveSurfaceVolume := true |}.
Definition foamAndSalt : modules :=
  {| polymerM := Some (1 # 2, 5);
     foamM := Some ({| transport := FoamGas; multiplierTable := fun _ c => 1 - c; adsorbedTable := fun _ c => c;
                       rockDensityOf := fun _ => 2; allowDesorption := fun _ => true |},
                    {| pvtRegion := 0; satRegion := 0; foamVar := 3 # 4 |});
     micpM := None; saltM := Some (1 # 2); solventEnabled := false |}.

(** So the flow over a face is not that of the corrected mobility, although nothing depends on the direction. *)
Theorem C109_faces_refuted : exists C M m m' p d,
  modulesUpdate C M m = Done m' /\ mobilityTowards (base m) p d = Some (mobility (base m) p) /\
  exists x, mobilityTowards (base m') p d = Some x /\ ~ x == mobility (base m') p.
Proof.
  exists threePhases, foamAndSalt, (oneCell true). eexists. exists Gas, XPlus.
  split; [reflexivity|]. split; [reflexivity|]. eexists. split; [reflexivity|]. vm_compute; discriminate.
Qed.

Example C109_case : exists m', modulesUpdate threePhases foamAndSalt (oneCell false) = Done m' /\
  mobility (base m') Gas == 1 # 8 /\ mobility (base m') Oil == 1 # 2 /\ mobility (base m') Water == 1 # 20 /\
  foamAdsorbed m' == 3 # 4 /\
  darcyFlux m' Gas XPlus 2 1 3 1 <> None.
Proof. eexists. split; [reflexivity|]. vm_compute. repeat split; discriminate. Qed.

(** The update fails exactly for the settings of foam which are not supported. *)
Theorem C109_errors : forall C M m e,
  modulesUpdate C M m = Failed e <-> foamFails M e.
Proof.
  intros C M m e. unfold modulesUpdate, foamUpdate, foamFails.
  destruct (foamM M) as [[F c]|].
  - split.
    + intros H. exists F, c. split; [reflexivity|].
      destruct (transport F) eqn:T; [| |destruct (solventEnabled M) eqn:SE|];
      try (destruct (allowDesorption F (satRegion c)) eqn:A; [discriminate|]); injection H as <-;
      repeat split; try assumption; try discriminate; auto.
    + intros (P & k & E & H). injection E as <- <-. destruct e.
      * destruct H as [-> ->]; reflexivity.
      * rewrite H; reflexivity.
      * destruct H as (A & NO & SO). rewrite A.
        destruct (transport F); [reflexivity|reflexivity|rewrite (SO eq_refl); reflexivity|congruence].
  - split; [discriminate|]. intros (P & k & E & _); discriminate.
Qed.

(** The members of the foam module belong to the cell: adsorption and rock by the saturation region. *)
Theorem C109_foam_members : forall C M m m' P c,
  modulesUpdate C M m = Done m' -> foamM M = Some (P, c) ->
  foamConcentration m' = foamVar c /\ foamRockDensity m' = rockDensityOf P (satRegion c) /\
  foamAdsorbed m' = adsorbedTable P (satRegion c) (foamVar c) /\
  fluid (base m') = fluid (base m) /\ porosity (base m') = porosity (base m).
Proof.
  intros C M m m' P c H E. revert H. unfold modulesUpdate, foamUpdate. rewrite E.
  assert (S : forall n, let k := saltUpdate C M (micpUpdate M n) in
     foamConcentration k = foamConcentration n /\ foamRockDensity k = foamRockDensity n /\ foamAdsorbed k = foamAdsorbed n /\
     fluid (base k) = fluid (base n) /\ porosity (base k) = porosity (base n)).
  { intros n. unfold saltUpdate, micpUpdate.
    destruct (micpM M), (saltM M), (active C Water), (active C Oil), (active C Gas); repeat split. }
  assert (Q : fluid (base (polymerUpdate M m)) = fluid (base m) /\ porosity (base (polymerUpdate M m)) = porosity (base m))
    by (unfold polymerUpdate; destruct (polymerM M) as [[? ?]|]; split; reflexivity).
  destruct Q as [Q1 Q2].
  destruct (transport P); [| |destruct (solventEnabled M); [|discriminate]|discriminate];
  (destruct (allowDesorption P (satRegion c)); [|discriminate]); intros F; injection F as <-;
  match goal with |- context [saltUpdate C M (micpUpdate M ?n)] => destruct (S n) as (S1&S2&S3&S4&S5) end;
  rewrite S1, S2, S3, S4, S5; cbn [foamConcentration foamRockDensity foamAdsorbed base scale scaleSolvent scaleBase fluid porosity];
  repeat split; assumption.
Qed.

(** Multipliers between 0 and 1 can only slow the phases down. *)
Theorem C109_reductions : forall C M m m' p,
  modulesUpdate C M m = Done m' -> (0 <= factorOf C M p <= 1) -> 0 <= mobility (base m) p ->
  0 <= mobility (base m') p <= mobility (base m) p.
Proof.
  intros C M m m' p H [A B] N. destruct (C109_undirected C M m m' H) as [U _]. rewrite (U p).
  set (x := mobility (base m) p) in *. set (f := factorOf C M p) in *. split; nra.
Qed.

Print Assumptions C109_undirected.
Print Assumptions C109_faces_partial.
Print Assumptions C109_flow_partial.
Print Assumptions C109_directions_ignore_modules.
Print Assumptions C109_faces_refuted.
Print Assumptions C109_errors.
Print Assumptions C109_foam_members.
Print Assumptions C109_reductions.
