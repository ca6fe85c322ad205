(** Properties C52 and C53: primary variables of the switching model, and the Newton updates of
    the PVS and NCP models. *)
From Verif Require Import PvsModel PvsSpec PvsProofs PvsNewtonProofs.

(** C52: in equilibrium a fluid state is accepted, and exactly the phases with a positive
    saturation are present. *)
Theorem C52_presence_in_equilibrium : forall P C off fs v,
  (P <= 15)%nat -> balanced P fs -> equilibrium P C fs ->
  exists v', assignNaive P C off fs v = Some v' /\
    forall i, (i < P)%nat -> (phaseIsPresent i (presence v') = true <-> 0 < fs_sat fs i).
Proof.
  intros P C off fs v P15 B E.
  destruct (assignNaive P C off fs v) as [v'|] eqn:A.
  - exists v'. split; [reflexivity|]. intros i I.
    destruct (assigned P C off fs v v' A) as [PR _].
    rewrite PR, (presence_equilibrium P C fs E i I). apply Qltb_lt.
  - exfalso. revert A. apply (assign_total P C off P15).
    destruct (some_positive P (fs_sat fs) B) as [i [I F]]. exists i. split; [exact I|].
    destruct (E i I) as [_ [_ E3]]. rewrite (E3 F). lra.
Qed.

(** C52: in equilibrium every saturation is read back exactly, whichever phases are present. *)
Theorem C52_saturations_round_trip : forall P C off fs v v',
  (P <= 15)%nat -> balanced P fs -> equilibrium P C fs ->
  assignNaive P C off fs v = Some v' ->
  forall i, (i < P)%nat -> read_saturation P off v' i == fs_sat fs i.
Proof.
  intros P C off fs v v' P15 B E A. apply (saturations_back P C off fs v v' A B).
  intros i I N. destruct (assigned P C off fs v v' A) as [PR _].
  rewrite PR, (presence_equilibrium P C fs E i I) in N. apply Qltb_ge in N. destruct (E i I) as [E1 _]. lra.
Qed.

(** C52: without equilibrium, it suffices that phases which are not marked as present have no
    saturation. *)
Theorem C52_saturations_round_trip_any_state_partial : forall P C off fs v v',
  balanced P fs -> assignNaive P C off fs v = Some v' ->
  (forall i, (i < P)%nat -> phaseIsPresent i (presence v') = false -> fs_sat fs i == 0) ->
  forall i, (i < P)%nat -> read_saturation P off v' i == fs_sat fs i.
Proof. intros P C off fs v v' B A N. apply (saturations_back P C off fs v v' A B N). Qed.

(** C52 fails without that: a phase with a positive saturation whose mole fractions add up to
    less than the complement of the saturation is dropped, and its volume is given to the
    lowest present phase. *)
Definition undersaturated : fstate :=
  mkFstate (fun i => match i with O => 9#10 | 1%nat => 1#10 | _ => 0 end)
           (fun i c => match i, c with O, O => 1 | 1%nat, O => 1#2 | _, _ => 0 end)
           (fun _ => 100000).
Theorem C52_saturations_round_trip_refuted : exists v',
  balanced 2 undersaturated /\
  assignNaive 2 2 0 undersaturated (mkPvars (fun _ => 0) 0) = Some v' /\
  ~ read_saturation 2 0 v' 1 == fs_sat undersaturated 1 /\
  ~ read_saturation 2 0 v' 0 == fs_sat undersaturated 0.
Proof.
  eexists. split; [vm_compute; reflexivity|]. split; [unfold assignNaive; reflexivity|].
  split; vm_compute; discriminate.
Qed.

(** C52: the reference pressure is kept, and with it all phase pressures whose differences are
    the capillary pressures. *)
Theorem C52_pressures_round_trip : forall P C off fs v v' pc,
  assignNaive P C off fs v = Some v' ->
  (forall i, (i < P)%nat -> fs_p fs i - fs_p fs 0 == pc i - pc 0%nat) ->
  forall i, (i < P)%nat -> read_pressure off v' pc i == fs_p fs i.
Proof.
  intros P C off fs v v' pc A H i I. destruct (assigned P C off fs v v' A) as [_ [PR _]].
  unfold read_pressure. rewrite PR, <- (H i I). ring.
Qed.

(** C52: every mole fraction which is prescribed when the fluid state is rebuilt is the one of
    the original state, in the lowest present phase; for a single phase these are all
    components, otherwise as many as the phase rule leaves free. *)
Theorem C52_mole_fractions_round_trip : forall P C off fs v v' low,
  (P <= C)%nat -> assignNaive P C off fs v = Some v' ->
  lowest (presence v') = Some low ->
  total C (fs_x fs low) == 1 ->
  (forall p c q, In (p, c, q) (read_composition P C off v' low) -> p = low /\ (c < C)%nat /\ q == fs_x fs p c) /\
  length (read_composition P C off v' low) =
    (if numNonPresent P v' =? P - 1 then C else C - (P - numNonPresent P v'))%nat.
Proof.
  intros P C off fs v v' low PC A L S.
  destruct (composition_back P C off fs v v' A low L PC (fun _ => S)) as [X [Y Z]].
  split; [exact X|]. destruct (Nat.eqb_spec (numNonPresent P v') (P - 1)); auto.
Qed.

(** C52: the state is rejected exactly if no phase meets the presence condition. *)
Theorem C52_rejected_without_phase : forall P C off fs v,
  (P <= 15)%nat ->
  (assignNaive P C off fs v = None <->
   forall i, (i < P)%nat -> fs_sat fs i <= 1 - total C (fs_x fs i)).
Proof.
  intros P C off fs v P15. pose proof (assign_total P C off P15 fs v) as T. split.
  - intros N i I. destruct (Qlt_le_dec (1 - total C (fs_x fs i)) (fs_sat fs i)) as [F|F]; [|exact F].
    exfalso. apply (proj1 T); [exists i; auto|exact N].
  - intros H. destruct (assignNaive P C off fs v) eqn:A; [|reflexivity].
    exfalso. destruct (proj2 T) as [i [I F]]; [discriminate|]. specialize (H i I). lra.
Qed.

(** C52: marking a phase as present or absent changes that phase only. *)
Theorem C52_presence_flags : forall i b v j,
  phaseIsPresent j (presence (setPhasePresent i b v)) = (if (j =? i)%nat then b else phaseIsPresent j (presence v)) /\
  pv (setPhasePresent i b v) = pv v.
Proof. intros. split; [apply set_present|reflexivity]. Qed.

(** A gas-oil-water state without water: phases 1 and 2 present out of 3, 4 components. *)
Definition two_of_three : fstate :=
  mkFstate (fun i => match i with 1%nat => 1#4 | 2%nat => 3#4 | _ => 0 end)
           (fun i c => match i, c with
                       | O, 0%nat => 1#2
                       | 1%nat, 0%nat => 1#10 | 1%nat, 1%nat => 2#10 | 1%nat, 2%nat => 3#10 | 1%nat, 3%nat => 4#10
                       | 2%nat, 0%nat => 7#10 | 2%nat, 1%nat => 1#10 | 2%nat, 2%nat => 1#10 | 2%nat, 3%nat => 1#10
                       | _, _ => 0 end)
           (fun i => match i with O => 100 | 1%nat => 110 | _ => 130 end).
Example two_of_three_ok : balanced 3 two_of_three /\ equilibrium 3 4 two_of_three.
Proof.
  split; [vm_compute; reflexivity|]. intros i I. destruct i as [|[|[|i]]]; [| | |lia];
    (split; [vm_compute; discriminate|]; split; [vm_compute; discriminate|]; intros H; vm_compute in *; (discriminate || reflexivity)).
Qed.
Example two_of_three_assigned : exists v', assignNaive 3 4 1 two_of_three (mkPvars (fun _ => 0) 0) = Some v' /\
  presence v' = 6%Z /\ lowest (presence v') = Some 1%nat /\
  map (pv v') [1; 2; 3; 4]%nat = [100; 2#10; 3#4; 4#10] /\
  map (read_saturation 3 1 v') [0; 1; 2]%nat = [0; 1#4; 3#4] /\
  read_composition 3 4 1 v' 1 = [(1, 1, 2#10); (1, 3, 4#10)]%nat.
Proof. eexists. repeat split. Qed.
Example nothing_present : assignNaive 2 2 0 (mkFstate (fun _ => 0) (fun _ _ => 0) (fun _ => 1)) (mkPvars (fun _ => 0) 3) = None.
Proof. reflexivity. Qed.

(** C53, PVS: saturations change by at most 20 percent if the present phases have consecutive
    indices and either include the last phase or are at most two. *)
Theorem C53_pvs_saturations_limited_partial : forall P off cur upd low,
  lowest (presence cur) = Some low -> (low < P)%nat ->
  interval (presence cur) ->
  (phaseIsPresent (P - 1) (presence cur) = true \/ (P - 2 <= numNonPresent P cur)%nat) ->
  forall i, (i < P)%nat ->
    within (1#5) (read_saturation P off (pvs_update P off cur upd) i) (read_saturation P off cur i).
Proof. exact pvs_saturation_limit. Qed.

(** C53, PVS: for up to two phases every update is limited. *)
Theorem C53_pvs_saturations_limited_two_phases : forall P off cur upd low,
  lowest (presence cur) = Some low -> (low < P)%nat -> (P <= 2)%nat ->
  (forall i, (P <= i)%nat -> phaseIsPresent i (presence cur) = false) ->
  forall i, (i < P)%nat ->
    within (1#5) (read_saturation P off (pvs_update P off cur upd) i) (read_saturation P off cur i).
Proof.
  intros P off cur upd low L LP P2 N. apply (pvs_saturation_limit P off cur upd low L LP).
  - intros i j k [I J] A B. destruct (Nat.lt_ge_cases k P); [lia|]. rewrite N in B by lia. discriminate.
  - right. lia.
Qed.

(** C53, PVS, fails for other sets: with phases 0 and 2 out of three present, the saturation of
    phase 2 is not limited at all, since the code looks at the presence of phase 1. *)
Definition gap_state : pvars := mkPvars (fun i => match i with 2%nat => 1#10 | _ => 1#2 end) 5.
Theorem C53_pvs_saturations_limited_gap_refuted : forall big : Q, 1 < big ->
  let upd := fun i => if (i =? 2)%nat then - big else 0 in
  lowest (presence gap_state) = Some 0%nat /\
  ~ within big (read_saturation 3 0 (pvs_update 3 0 gap_state upd) 2) 0.
Proof.
  intros big B upd. split; [reflexivity|].
  assert (E : read_saturation 3 0 (pvs_update 3 0 gap_state upd) 2 == (1#10) + big).
  { destruct (pvs_update_spec 3 0 gap_state upd) as [A1 [_ [_ A4]]]. cbv zeta in A1, A4.
    unfold read_saturation. rewrite A1. cbn [lowest gap_state presence find].
    change (lowest 5) with (Some 0%nat). cbn [Nat.eqb]. unfold explicitSaturation. rewrite A1.
    change (lowest (presence gap_state)) with (Some 0%nat).
    change (phaseIsPresent 2 (presence gap_state)) with true. cbn [negb orb Nat.eqb].
    rewrite A4.
    - cbn. ring.
    - cbn. discriminate.
    - intros i I. apply limited_in in I. destruct I as [I1 I2].
      destruct i as [|[|i]]; [discriminate|vm_compute in I2; discriminate|lia]. }
  unfold within. rewrite E. lra.
Qed.

(** C53, PVS, fails for four phases of which the last is absent: the mole fraction update which
    takes the place of the absent saturation takes part in the sum, so that the implicit
    saturation may change by 40 percent. *)
Definition four_state : pvars := mkPvars (fun i => match i with 0%nat => 100000 | 1%nat => 1#10 | 2%nat => 1#10 | _ => 1#4 end) 7.
Theorem C53_pvs_saturations_limited_four_phases_refuted :
  let upd := fun i => match i with 1%nat => - (1#5) | 2%nat => - (1#5) | 3%nat => 1#5 | _ => 0 end in
  interval (presence four_state) /\
  ~ within (1#5) (read_saturation 4 0 (pvs_update 4 0 four_state upd) 0) (read_saturation 4 0 four_state 0).
Proof.
  split.
  - intros i j k [I J] A B. destruct k as [|[|[|k]]]; [lia|lia| |].
    + assert (j = 1%nat) by lia. subst j. reflexivity.
    + exfalso. rewrite present_testbit in B. cbn [presence four_state] in B.
      rewrite Z.testbit_odd in B. assert (X : Z.shiftr 7 (Z.of_nat (S (S (S k)))) = 0%Z); [|rewrite X in B; discriminate].
      rewrite Z.shiftr_div_pow2 by lia. apply Z.div_small. split; [lia|].
      apply Z.lt_le_trans with (2 ^ 3)%Z; [reflexivity|]. apply Z.pow_le_mono_r; lia.
  - intros [H _]. apply H. vm_compute. reflexivity.
Qed.

(** C53: the pressure of the PVS model changes by at most 20 percent of its size. *)
Theorem C53_pvs_pressure_limited : forall P off cur upd,
  within ((1#5) * qabs (pv cur (pressure0Idx off))) (pv (pvs_update P off cur upd) (pressure0Idx off))
    (pv cur (pressure0Idx off)).
Proof. intros. apply (pvs_update_spec P off cur upd). Qed.

(** C53: a PVS update which is small enough is taken unchanged, and presence never changes. *)
Theorem C53_pvs_small_updates_unchanged : forall P off cur upd,
  presence (pvs_update P off cur upd) = presence cur /\
  ((forall i, (i < P - 1)%nat -> phaseIsPresent i (presence cur) = true -> upd (switch0Idx off + i)%nat == 0) ->
   forall k, k <> pressure0Idx off -> pv (pvs_update P off cur upd) k == pv cur k - upd k).
Proof.
  intros P off cur upd. destruct (pvs_update_spec P off cur upd) as [A1 [_ [A3 A4]]]. cbv zeta in A1, A3, A4.
  split; [exact A1|]. intros Z k K.
  destruct (in_dec Nat.eq_dec k (map (fun i => switch0Idx off + i)%nat (limited_phases P cur))) as [I|I].
  - apply in_map_iff in I as [i [<- I]]. rewrite (A3 i I).
    apply limited_in in I as [I1 I2]. rewrite (Z i I1 I2). ring.
  - rewrite A4; [reflexivity|exact K|]. intros i J E. apply I, in_map_iff. exists i. auto.
Qed.

(** C53, NCP: every saturation changes by at most 20 percent after the first iterations, and
    always for up to three phases. *)
Theorem C53_ncp_saturations_limited_partial : forall P C off cur upd minPhi early,
  (1 <= P)%nat -> (early = false \/ (P <= 3)%nat) ->
  forall i, (i < P)%nat ->
    within (1#5) (ncp_read_saturation P C off (ncp_update P C off cur upd minPhi early) i)
      (ncp_read_saturation P C off cur i).
Proof. intros P C off cur upd minPhi early. exact (ncp_limit P C off cur upd minPhi early). Qed.

(** C53, NCP: all but the last saturation are limited for any number of phases. *)
Theorem C53_ncp_explicit_saturations_limited : forall P C off cur upd minPhi early i,
  (S i < P)%nat ->
  within (1#5) (ncp_read_saturation P C off (ncp_update P C off cur upd minPhi early) i)
    (ncp_read_saturation P C off cur i).
Proof.
  intros P C off cur upd minPhi early i I. unfold ncp_read_saturation.
  destruct (Nat.eqb_spec i (P - 1)); [lia|]. apply ncp_explicit; lia.
Qed.

(** C53, NCP, fails for four phases in the first iterations: cutting one saturation off at zero
    unbalances the sum. *)
Definition ncp_four (i : nat) : Q := match i with 1%nat => 1#10 | 2%nat => 1#10 | 3%nat => 1#100 | _ => 100000 end.
Theorem C53_ncp_saturations_limited_four_phases_refuted :
  let upd := fun i => match i with 1%nat => - (1#5) | 2%nat => - (1#5) | 3%nat => 1#5 | _ => 0 end in
  ~ within (1#5) (ncp_read_saturation 4 1 0 (ncp_update 4 1 0 ncp_four upd (fun _ => 1) true) 3)
     (ncp_read_saturation 4 1 0 ncp_four 3).
Proof. intros upd [H _]. apply H. vm_compute. reflexivity. Qed.

(** C53, NCP: the pressure changes by at most 20 percent of its size. *)
Theorem C53_ncp_pressure_limited : forall P C off cur upd minPhi early, (1 <= P)%nat ->
  within ((1#5) * qabs (cur (ncp_pressure0Idx P C off)))
    (ncp_update P C off cur upd minPhi early (ncp_pressure0Idx P C off)) (cur (ncp_pressure0Idx P C off)).
Proof. intros P C off cur upd minPhi early. exact (ncp_pressure_limit P C off cur upd minPhi early). Qed.

(** C53, NCP: fugacities never become negative, and change by at most 70 percent of the smallest
    activity coefficient (or of a thousandth of the pressure, if that is larger). *)
Theorem C53_ncp_fugacities_limited : forall P C off cur upd minPhi early c,
  (1 <= P)%nat -> (c < C)%nat -> 0 <= minPhi c ->
  0 <= ncp_update P C off cur upd minPhi early (fugacity0Idx off + c) /\
  (0 <= cur (fugacity0Idx off + c)%nat ->
   forall lim, (1#1000) * cur (ncp_pressure0Idx P C off) <= lim -> minPhi c <= lim ->
   within ((7#10) * lim) (ncp_update P C off cur upd minPhi early (fugacity0Idx off + c)) (cur (fugacity0Idx off + c)%nat)).
Proof. intros P C off cur upd minPhi early c P1 K M. exact (ncp_fugacity_limit P C off cur upd minPhi early P1 c K M). Qed.

(** C53, NCP: in the first iterations a saturation inside the unit interval stays there. *)
Theorem C53_ncp_early_saturations_physical : forall P C off cur upd minPhi i,
  (S i < P)%nat ->
  0 < cur (saturation0Idx C off + i)%nat -> cur (saturation0Idx C off + i)%nat < 1 ->
  0 <= ncp_update P C off cur upd minPhi true (saturation0Idx C off + i) /\
  ncp_update P C off cur upd minPhi true (saturation0Idx C off + i) <= 1.
Proof. intros P C off cur upd minPhi i I. apply ncp_range; [lia|reflexivity|lia]. Qed.

(** Concrete updates: three phases, limited by the implicit saturation. *)
Definition full_state : pvars := mkPvars (fun i => match i with 0%nat => 100 | 1%nat => 2#10 | _ => 3#10 end) 7.
Definition big_update (i : nat) : Q := match i with 0%nat => 50 | 1%nat => 1#5 | 2%nat => 1#5 | _ => 0 end.
Example full_update :
  interval 7 /\ phaseIsPresent 2 (presence full_state) = true /\ lowest (presence full_state) = Some 0%nat /\
  map (fun i => Qred (read_saturation 3 0 full_state i)) [0; 1; 2]%nat = [1#2; 1#5; 3#10] /\
  map (fun i => Qred (read_saturation 3 0 (pvs_update 3 0 full_state big_update) i)) [0; 1; 2]%nat = [7#10; 1#10; 1#5] /\
  Qred (pv (pvs_update 3 0 full_state big_update) 0) = 80.
Proof.
  split; [|repeat split; vm_compute; reflexivity].
  exact (proj1 C53_pvs_saturations_limited_four_phases_refuted).
Qed.
Example ncp_example :
  let cur i := match i with 0%nat => 5 | 1%nat => 1#10 | 2%nat => 1#5 | _ => 1000 end in
  let upd i := match i with 0%nat => 100 | 1%nat => 4#10 | 2%nat => 0 | _ => - 500 end in
  map (fun i => Qred (ncp_update 3 1 0 cur upd (fun _ => 2) false i)) [0; 1; 2; 3]%nat = [18#5; - (1#10); 1#5; 1200] /\
  map (fun i => Qred (ncp_update 3 1 0 cur upd (fun _ => 2) true i)) [0; 1; 2; 3]%nat = [18#5; 0; 1#5; 1200].
Proof. split; vm_compute; reflexivity. Qed.

Print Assumptions C52_presence_in_equilibrium.
Print Assumptions C52_saturations_round_trip.
Print Assumptions C52_saturations_round_trip_any_state_partial.
Print Assumptions C52_saturations_round_trip_refuted.
Print Assumptions C52_pressures_round_trip.
Print Assumptions C52_mole_fractions_round_trip.
Print Assumptions C52_rejected_without_phase.
Print Assumptions C52_presence_flags.
Print Assumptions C53_pvs_saturations_limited_partial.
Print Assumptions C53_pvs_saturations_limited_two_phases.
Print Assumptions C53_pvs_saturations_limited_gap_refuted.
Print Assumptions C53_pvs_saturations_limited_four_phases_refuted.
Print Assumptions C53_pvs_pressure_limited.
Print Assumptions C53_pvs_small_updates_unchanged.
Print Assumptions C53_ncp_saturations_limited_partial.
Print Assumptions C53_ncp_explicit_saturations_limited.
Print Assumptions C53_ncp_saturations_limited_four_phases_refuted.
Print Assumptions C53_ncp_pressure_limited.
Print Assumptions C53_ncp_fugacities_limited.
Print Assumptions C53_ncp_early_saturations_physical.
