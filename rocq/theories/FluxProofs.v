(** Proofs about fluxes. *)
From Coq Require Import Permutation Setoid Morphisms.
From Verif Require Import FluxModel ResidualModel FluxSpec.

#[global] Instance Qltb_proper : Proper (Qeq ==> Qeq ==> eq) Qltb.
Proof.
  intros a b H c d K. destruct (Qltb a c) eqn:E; symmetry.
  - apply Qltb_lt in E. apply Qltb_lt. lra.
  - apply Qltb_ge in E. apply Qltb_ge. lra.
Qed.
#[global] Instance qabs_proper : Proper (Qeq ==> Qeq) qabs.
Proof.
  intros a b H. unfold qabs. rewrite <- H. destruct (Qltb a 0); rewrite H; reflexivity.
Qed.
Lemma qabs_opp a : qabs (- a) == qabs a.
Proof.
  unfold qabs. destruct (Qltb (- a) 0) eqn:E; destruct (Qltb a 0) eqn:F.
  - apply Qltb_lt in E, F. lra.
  - lra.
  - lra.
  - apply Qltb_ge in E, F. lra.
Qed.
Lemma qabs_nonneg a : 0 <= qabs a.
Proof. unfold qabs. destruct (Qltb a 0) eqn:E; [apply Qltb_lt in E|apply Qltb_ge in E]; lra. Qed.

(** ** Transmissibility *)
Definition opp (l : list Q) : list Q := map Qopp l.
Lemma dot_acc l m s : fold_left (fun s (ab : Q * Q) => s + fst ab * snd ab) (combine l m) s == s + dot l m.
Proof.
  unfold dot. revert m s. induction l as [|x l IH]; intros [|y m] s; cbn; try lra.
  rewrite IH. rewrite (IH m (0 + _)). lra.
Qed.
Lemma dot_cons x l y m : dot (x :: l) (y :: m) == x * y + dot l m.
Proof. unfold dot at 1. cbn. rewrite dot_acc. lra. Qed.
Lemma dot_opp l m : dot (opp l) m == - dot l m.
Proof.
  revert m. induction l as [|x l IH]; intros m.
  - reflexivity.
  - destruct m as [|y m]; [reflexivity|]. unfold opp in *. cbn [map]. rewrite !dot_cons, IH. lra.
Qed.
Lemma main_axis_fold n k b v w :
  v == w ->
  fst (fold_left (fun (best : nat * Q) (ix : nat * Q) =>
         if Qltb (snd best) (qabs (snd ix)) then (fst ix, qabs (snd ix)) else best)
       (combine (seq k (length (opp n))) (opp n)) (b, v)) =
  fst (fold_left (fun (best : nat * Q) (ix : nat * Q) =>
         if Qltb (snd best) (qabs (snd ix)) then (fst ix, qabs (snd ix)) else best)
       (combine (seq k (length n)) n) (b, w)).
Proof.
  revert k b v w. induction n as [|x n IH]; intros k b v w H; [reflexivity|].
  cbn. rewrite H, qabs_opp. destruct (Qltb w (qabs x)).
  - apply IH, qabs_opp.
  - apply IH, H.
Qed.
Lemma main_axis_opp n : main_axis (opp n) = main_axis n.
Proof. unfold main_axis. apply main_axis_fold. reflexivity. Qed.

Lemma half_trans_opp K n f p : same (half_trans K (opp n) f p) (half_trans K n f p).
Proof.
  unfold half_trans. cbn zeta. rewrite main_axis_opp. destruct (Qeq_bool _ 0); cbn; auto.
  rewrite dot_opp, qabs_opp. reflexivity.
Qed.
Lemma Qeq_bool_proper' a b c d : a == b -> c == d -> Qeq_bool a c = Qeq_bool b d.
Proof.
  intros H K. destruct (Qeq_bool a c) eqn:E; symmetry.
  - apply Qeq_bool_eq in E. apply Qeq_eq_bool. lra.
  - apply not_true_is_false. intro C. apply Qeq_bool_eq in C. apply Qeq_bool_neq in E. apply E. lra.
Qed.
Lemma trans_sym n f a b Ka Kb :
  same (transmissibility n f a b Ka Kb) (transmissibility (opp n) f b a Kb Ka).
Proof.
  unfold transmissibility.
  pose proof (half_trans_opp Ka n f a) as H. pose proof (half_trans_opp Kb n f b) as K.
  destruct (half_trans Ka (opp n) f a) as [x|], (half_trans Ka n f a) as [x'|]; try contradiction;
  destruct (half_trans Kb (opp n) f b) as [y|], (half_trans Kb n f b) as [y'|]; try contradiction; cbn; auto.
  cbn in H, K.
  rewrite (Qeq_bool_proper' (y + x) (x' + y') 0 0) by lra.
  destruct (Qeq_bool (x' + y') 0) eqn:E; cbn; auto.
  rewrite H, K. rewrite (Qplus_comm y' x'), (Qmult_comm y' x'). reflexivity.
Qed.

Lemma harmonic x y t : 0 < x -> 0 < y ->
  (if Qeq_bool (x + y) 0 then None else Some (x * y / (x + y))) = Some t ->
  1 / t == 1 / x + 1 / y /\ 0 < t /\ t < x /\ t < y.
Proof.
  intros X Y. destruct (Qeq_bool (x + y) 0) eqn:E; [discriminate|]. intros H. injection H as <-.
  assert (S : 0 < x + y) by lra.
  assert (P : 0 < x * y) by nra.
  assert (T : 0 < x * y / (x + y)) by (apply Qlt_shift_div_l; lra).
  split; [field; repeat split; lra|]. split; [exact T|]. split; apply Qlt_shift_div_r; nra.
Qed.

(** ** Volume fluxes *)
Lemma dp_antisym g a b ph : pressureDifference g a b ph == - pressureDifference g b a ph.
Proof. unfold pressureDifference. field. Qed.
Lemma dp_potential g a b ph :
  pressureDifference g a b ph == potential (meanDensity ph a b) g b ph - potential (meanDensity ph a b) g a ph.
Proof. unfold pressureDifference, potential, meanDensity. field. Qed.

Lemma upstream_other dp dq a b : dp == - dq -> c_idx a <> c_idx b -> upstream dp a b = negb (upstream dq b a).
Proof.
  intros H N. unfold upstream.
  destruct (Qltb 0 dp) eqn:E1.
  - apply Qltb_lt in E1. replace (Qltb 0 dq) with false by (symmetry; apply Qltb_ge; lra).
    replace (Qltb dq 0) with true by (symmetry; apply Qltb_lt; lra). reflexivity.
  - apply Qltb_ge in E1. destruct (Qltb dp 0) eqn:E2.
    + apply Qltb_lt in E2. replace (Qltb 0 dq) with true by (symmetry; apply Qltb_lt; lra). reflexivity.
    + apply Qltb_ge in E2. replace (Qltb 0 dq) with false by (symmetry; apply Qltb_ge; lra).
      replace (Qltb dq 0) with false by (symmetry; apply Qltb_ge; lra).
      destruct (Qltb (c_vol b) (c_vol a)) eqn:V1.
      * apply Qltb_lt in V1. replace (Qltb (c_vol a) (c_vol b)) with false by (symmetry; apply Qltb_ge; lra). reflexivity.
      * destruct (Qltb (c_vol a) (c_vol b)); [reflexivity|].
        destruct (c_idx a <? c_idx b)%nat eqn:I; destruct (c_idx b <? c_idx a)%nat eqn:J; try reflexivity.
        -- apply Nat.ltb_lt in I, J. lia.
        -- apply Nat.ltb_ge in I, J. lia.
Qed.

Lemma immobile_comm a b ph : Qle_bool (c_mob a ph) 0 && Qle_bool (c_mob b ph) 0 = Qle_bool (c_mob b ph) 0 && Qle_bool (c_mob a ph) 0.
Proof. apply andb_comm. Qed.

Lemma vflux_antisym g t a b ph : vflux (volumeFlux g t a b ph) == - vflux (volumeFlux g t b a ph).
Proof.
  unfold volumeFlux. rewrite immobile_comm.
  destruct (Qle_bool (c_mob b ph) 0 && Qle_bool (c_mob a ph) 0); cbn; [lra|].
  pose proof (dp_antisym g a b ph) as D. set (x := pressureDifference g a b ph) in *.
  set (y := pressureDifference g b a ph) in *. clearbody x y.
  unfold upstream.
  destruct (Qltb 0 x) eqn:E1.
  - apply Qltb_lt in E1. replace (Qltb 0 y) with false by (symmetry; apply Qltb_ge; lra).
    replace (Qltb y 0) with true by (symmetry; apply Qltb_lt; lra). rewrite D. lra.
  - apply Qltb_ge in E1. destruct (Qltb x 0) eqn:E2.
    + apply Qltb_lt in E2. replace (Qltb 0 y) with true by (symmetry; apply Qltb_lt; lra). rewrite D. lra.
    + apply Qltb_ge in E2. assert (X : x == 0) by lra. assert (Y : y == 0) by lra.
      clear - X Y. match goal with |- _ == - (_ * ?k * _) => generalize k; intro end.
      match goal with |- _ * ?k * _ == _ => generalize k; intro end. rewrite X, Y. lra.
Qed.

Lemma same_upstream g t a b ph : c_idx a <> c_idx b -> 0 < c_mob a ph \/ 0 < c_mob b ph ->
  upInterior (volumeFlux g t a b ph) = negb (upInterior (volumeFlux g t b a ph)).
Proof.
  intros N M. unfold volumeFlux. rewrite immobile_comm.
  destruct (Qle_bool (c_mob b ph) 0 && Qle_bool (c_mob a ph) 0) eqn:E; cbn.
  - apply andb_true_iff in E as [E F]. apply Qle_bool_iff in E, F. destruct M; lra.
  - apply upstream_other; [apply dp_antisym|exact N].
Qed.

(** The upstream cell has the larger potential and its mobility is the one which counts. *)
Lemma vflux_potential g t a b ph :
  0 <= c_mob a ph -> 0 <= c_mob b ph ->
  let P x := potential (meanDensity ph a b) g x ph in
  (P b < P a -> vflux (volumeFlux g t a b ph) == t * c_mob a ph * (P a - P b)) /\
  (P a < P b -> vflux (volumeFlux g t a b ph) == - (t * c_mob b ph * (P b - P a))) /\
  (P a == P b -> vflux (volumeFlux g t a b ph) == 0).
Proof.
  intros MA MB P. unfold volumeFlux.
  pose proof (dp_potential g a b ph) as D. fold (P a) (P b) in D. cbn zeta in *.
  set (x := pressureDifference g a b ph) in *. clearbody x.
  set (pa := P a) in *. set (pb := P b) in *. clearbody pa pb.
  destruct (Qle_bool (c_mob a ph) 0 && Qle_bool (c_mob b ph) 0) eqn:E; cbn.
  - apply andb_true_iff in E as [E F]. apply Qle_bool_iff in E, F.
    assert (A : c_mob a ph == 0) by lra. assert (B : c_mob b ph == 0) by lra.
    rewrite A, B. repeat split; intros; lra.
  - unfold upstream. repeat split; intros H.
    + replace (Qltb 0 x) with false by (symmetry; apply Qltb_ge; lra).
      replace (Qltb x 0) with true by (symmetry; apply Qltb_lt; lra). rewrite D. lra.
    + replace (Qltb 0 x) with true by (symmetry; apply Qltb_lt; lra). rewrite D. lra.
    + assert (X : x == 0) by lra. clear - X.
      match goal with |- _ * ?k * _ == _ => generalize k; intro end. rewrite X. lra.
Qed.

(** ** Component fluxes *)
Lemma advective_content fs pf a b c :
  advective fs pf a b c ==
  sumOver (fun ph => if active fs ph then
             let up := if upInterior (pf ph) then a else b in
             vflux (pf ph) * c_invB up ph * content fs up ph c * unitOf fs (c_region up) c
           else 0) phases.
Proof.
  unfold advective, sumOver, phases, qsum. cbn [fold_left map].
  destruct (active fs Water), (active fs Oil), (active fs Gas);
    unfold evalPhaseFluxes, content, unitOf, add;
    destruct (dissolvedGas fs), (dissolvedGasInWater fs), (vaporizedOil fs), (vaporizedWater fs), (conserveSurfaceVolume fs);
    destruct c; cbn; ring.
Qed.
Lemma enthalpy_content fs pf a b :
  enthalpyFlux fs pf a b ==
  sumOver (fun ph => if active fs ph then
             let up := if upInterior (pf ph) then a else b in vflux (pf ph) * c_rho up ph * c_enthalpy up ph else 0) phases.
Proof.
  unfold enthalpyFlux, sumOver, phases, qsum. cbn [fold_left map].
  destruct (active fs Water), (active fs Oil), (active fs Gas); cbn; ring.
Qed.

Definition opposite (p q : phaseFlux) : Prop :=
  vflux p == - vflux q /\ (upInterior p = negb (upInterior q) \/ (vflux p == 0 /\ vflux q == 0)).
Lemma sum_anti {A} (f g : A -> Q) l : (forall x, f x == - g x) -> sumOver f l == - sumOver g l.
Proof. intros H. unfold sumOver. induction l as [|x l IH]; cbn; [reflexivity|]. rewrite IH, H. lra. Qed.
Lemma advective_antisym fs pf pf' a b c :
  (forall ph, opposite (pf ph) (pf' ph)) -> advective fs pf a b c == - advective fs pf' b a c.
Proof.
  intros H. rewrite !advective_content. apply sum_anti. intros ph.
  destruct (active fs ph); [|reflexivity]. destruct (H ph) as [V [U|[U1 U2]]].
  - cbn zeta. rewrite V, U. destruct (upInterior (pf' ph)); cbn; lra.
  - cbn zeta. rewrite U1, U2. lra.
Qed.
Lemma enthalpy_antisym fs pf pf' a b :
  (forall ph, opposite (pf ph) (pf' ph)) -> enthalpyFlux fs pf a b == - enthalpyFlux fs pf' b a.
Proof.
  intros H. rewrite !enthalpy_content. apply sum_anti. intros ph.
  destruct (active fs ph); [|reflexivity]. destruct (H ph) as [V [U|[U1 U2]]].
  - cbn zeta. rewrite V, U. destruct (upInterior (pf' ph)); cbn; lra.
  - cbn zeta. rewrite U1, U2. lra.
Qed.
Lemma volumeFlux_opposite g t a b ph : c_idx a <> c_idx b -> opposite (volumeFlux g t a b ph) (volumeFlux g t b a ph).
Proof.
  intros N. split; [apply vflux_antisym|].
  destruct (Qle_bool (c_mob a ph) 0 && Qle_bool (c_mob b ph) 0) eqn:E.
  - right. unfold volumeFlux. rewrite E, immobile_comm, E. split; reflexivity.
  - left. apply same_upstream; auto. apply andb_false_iff in E as [E|E]; apply Qleb_gt in E; auto.
Qed.
Lemma tpfa_opposite t area a b up dp up' dp' ph : ~ area == 0 ->
  dp == - dp' -> up = negb up' ->
  opposite (tpfaDarcy t area a b up dp ph) (tpfaDarcy t area b a up' dp' ph).
Proof.
  intros A D ->. split; [|left; reflexivity]. unfold tpfaDarcy. cbn. rewrite D. destruct up'; cbn; field; auto.
Qed.

(** ** Heat conduction *)
Lemma heat_antisym x y area a b : ~ area == 0 -> heatFlux x y area a b == - heatFlux y x area b a.
Proof.
  intros A. unfold heatFlux. cbn zeta. rewrite andb_comm.
  destruct (Qltb 0 (c_lambda b * y) && Qltb 0 (c_lambda a * x)) eqn:E.
  - apply andb_true_iff in E as [E F]. apply Qltb_lt in E, F.
    assert (P : 0 < 1 / (c_lambda a * x)) by (apply Qlt_shift_div_l; lra).
    assert (R : 0 < 1 / (c_lambda b * y)) by (apply Qlt_shift_div_l; lra).
    set (p := 1 / (c_lambda a * x)) in *. set (r := 1 / (c_lambda b * y)) in *. clearbody p r.
    field. repeat split; try exact A; lra.
  - field. exact A.
Qed.
Lemma heat_direction x y area a b : 0 < area -> c_T b <= c_T a -> 0 <= heatFlux x y area a b.
Proof.
  intros A T. unfold heatFlux. cbn zeta.
  destruct (Qltb 0 (c_lambda a * x) && Qltb 0 (c_lambda b * y)) eqn:E.
  - apply andb_true_iff in E as [E F]. apply Qltb_lt in E, F.
    assert (P : 0 < 1 / (c_lambda a * x)) by (apply Qlt_shift_div_l; lra).
    assert (R : 0 < 1 / (c_lambda b * y)) by (apply Qlt_shift_div_l; lra).
    set (p := 1 / (c_lambda a * x)) in *. set (r := 1 / (c_lambda b * y)) in *. clearbody p r.
    assert (S : 0 < 1 / (p + r)) by (apply Qlt_shift_div_l; lra).
    set (s := 1 / (p + r)) in *. clearbody s.
    setoid_replace ((c_T b - c_T a) * (- s / area)) with ((c_T a - c_T b) * s / area) by (field; lra).
    apply Qle_shift_div_l; [lra|]. nra.
  - setoid_replace ((c_T b - c_T a) * (- 0 / area)) with 0 by (field; lra). lra.
Qed.

(** ** Diffusion and dispersion *)
Lemma conversion_sym fs fgo fgw fgo' fgw' a b ph :
  fgo == fgo' -> fgw == fgw' ->
  fst (conversion fs fgo fgw a b ph) == fst (conversion fs fgo' fgw' b a ph) /\
  snd (conversion fs fgo fgw a b ph) == - snd (conversion fs fgo' fgw' b a ph).
Proof.
  intros H K. unfold conversion. cbn zeta.
  assert (C : forall x y : Q, (x + y) / 2 == (y + x) / 2) by (intros; field).
  destruct (vaporizedWater fs && phase_eqb ph Gas); [cbn; rewrite K, (C (c_Rvw a)); split; [reflexivity|lra]|].
  destruct (dissolvedGasInWater fs && phase_eqb ph Water); [cbn; rewrite K, (C (c_Rsw a)); split; [reflexivity|lra]|].
  destruct (vaporizedOil fs && active fs Oil && phase_eqb ph Gas); [cbn; rewrite H, (C (c_Rv a)); split; [reflexivity|lra]|].
  destruct (dissolvedGas fs && active fs Gas && phase_eqb ph Oil); [cbn; rewrite H, (C (c_Rs a)); split; [reflexivity|lra]|].
  cbn. split; lra.
Qed.

Definition anti (f g : comp -> Q) : Prop := forall c, f c == - g c.
Lemma add_anti c x y f g : anti f g -> x == - y -> anti (add c x f) (add c y g).
Proof. intros H E d. unfold add. destruct (comp_eqb d c); rewrite (H d); lra. Qed.
Lemma fold_anti (S T : (comp -> Q) -> phase -> comp -> Q) l f g :
  (forall f g ph, anti f g -> anti (S f ph) (T g ph)) -> anti f g ->
  anti (fold_left S l f) (fold_left T l g).
Proof. intros H. revert f g. induction l as [|x l IH]; intros f g E; cbn; auto. Qed.

Lemma diffusive_antisym fs D a b :
  toFractionGasOil fs (c_region a) == toFractionGasOil fs (c_region b) ->
  toFractionGasWater fs (c_region a) == toFractionGasWater fs (c_region b) ->
  anti (diffusive fs D a b) (diffusive fs D b a).
Proof.
  intros H K. unfold diffusive. apply fold_anti; [|intros c; lra].
  intros f g ph E.
  destruct (negb (active fs ph)); auto.
  destruct (negb (dissolvedGasInWater fs) && phase_eqb ph Water); auto.
  destruct (phase_eqb ph Gas && negb (active fs Oil)); auto.
  assert (B : (c_sat a ph * c_invB a ph + c_sat b ph * c_invB b ph) / 2 == (c_sat b ph * c_invB b ph + c_sat a ph * c_invB a ph) / 2) by field.
  cbn zeta. rewrite B. set (x := (c_sat a ph * _ + _) / 2) in *. set (y := (c_sat b ph * _ + _) / 2) in *. clearbody x y.
  destruct (Qltb y (1#1000000)); auto.
  pose proof (conversion_sym fs _ _ _ _ a b ph H K) as [C1 C2].
  destruct (conversion fs (toFractionGasOil fs (c_region a)) _ a b ph) as [u v].
  destruct (conversion fs (toFractionGasOil fs (c_region b)) _ b a ph) as [u' v']. cbn in C1, C2.
  assert (F : forall c, effD a b ph c == effD b a ph c) by (intros; unfold effD; lra).
  apply add_anti; [apply add_anti; auto|]; rewrite B, C1, C2, F; ring.
Qed.
Lemma dispersive_antisym fs D a b :
  toMassFractionGasOil fs (c_region a) == toMassFractionGasOil fs (c_region b) ->
  toMassFractionGasWater fs (c_region a) == toMassFractionGasWater fs (c_region b) ->
  anti (dispersive fs D a b) (dispersive fs D b a).
Proof.
  intros H K. unfold dispersive. apply fold_anti; [|intros c; lra].
  intros f g ph E.
  destruct (negb (active fs ph)); auto.
  destruct (negb (dissolvedGasInWater fs) && phase_eqb ph Water); auto.
  destruct (phase_eqb ph Gas); auto.
  pose proof (conversion_sym fs _ _ _ _ a b ph H K) as [C1 C2].
  destruct (conversion fs (toMassFractionGasOil fs (c_region a)) _ a b ph) as [u v].
  destruct (conversion fs (toMassFractionGasOil fs (c_region b)) _ b a ph) as [u' v']. cbn in C1, C2.
  assert (B : (c_invB a ph + c_invB b ph) / 2 == (c_invB b ph + c_invB a ph) / 2) by field.
  assert (V : velAvg a b ph == velAvg b a ph) by (unfold velAvg; lra).
  cbn zeta. apply add_anti; [apply add_anti; auto|]; rewrite B, V, C1, C2; ring.
Qed.

(** ** Convective mixing *)
Lemma mix_dp_antisym fs z z' a b : z == - z' -> mix_dp fs z a b == - mix_dp fs z' b a.
Proof. intros H. unfold mix_dp. cbn zeta. rewrite H. field. Qed.
Lemma mixing_antisym fs m z z' t area a b : z == - z' -> ~ area == 0 ->
  (forall c, c = a \/ c = b -> ~ c_visc c (liquid fs) == 0) ->
  fst (mixingFlux fs m z t area a b) == - fst (mixingFlux fs m z' t area b a) /\
  snd (mixingFlux fs m z t area a b) == - snd (mixingFlux fs m z' t area b a).
Proof.
  intros H A V. unfold mixingFlux. rewrite orb_comm.
  destruct (negb (mixActive m (c_region b)) || negb (mixActive m (c_region a))); cbn; [lra|].
  pose proof (mix_dp_antisym fs z z' a b H) as D.
  set (x := mix_dp fs z a b) in *. set (y := mix_dp fs z' b a) in *. clearbody x y.
  cbn zeta. rewrite D, qabs_opp.
  destruct (Qltb (1#1000000000000) (qabs y)) eqn:E; cbn; [|lra].
  pose proof (V a (or_introl eq_refl)) as VA. pose proof (V b (or_intror eq_refl)) as VB.
  apply Qltb_lt in E.
  destruct (Qltb 0 y) eqn:P.
  - apply Qltb_lt in P. replace (Qltb 0 x) with false by (symmetry; apply Qltb_ge; lra).
    rewrite D. split; field; split; auto.
  - apply Qltb_ge in P. replace (Qltb 0 x) with true.
    2: { symmetry; apply Qltb_lt. unfold qabs in E. destruct (Qltb y 0) eqn:F; [apply Qltb_lt in F|apply Qltb_ge in F]; lra. }
    rewrite D. split; field; split; auto.
Qed.
