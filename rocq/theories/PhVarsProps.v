(** Properties C74 (a stored fluid state is recovered), C75 (the phase presence equations of the NCP model) and C53 for the
    Richards and PT-flash models. *)
From Verif Require Import PhVarsModel PhVarsSpec PhVarsProofs.

(** ** C74 *)
(** Immiscible model: pressures and saturations are recovered exactly if they are physical, the temperature always. *)
Theorem C74_immiscible_state_recovered : forall energy P off pc problemT fs v, (1 <= P)%nat -> respects P pc ->
  let fs' := imm_read energy P off pc problemT (imm_assign energy P off fs v) in
  (samePhases P fs' fs <-> physical P pc fs) /\ (energy = true -> fs_T fs' == fs_T fs) /\ (energy = false -> fs_T fs' == problemT).
Proof.
  intros energy P off pc problemT fs v LP R fs'. split; [|split].
  - unfold fs', imm_read, samePhases. cbv zeta. cbn [fs_p fs_S].
    apply phases_recovered; [exact LP|exact R| |].
    + intros a L. rewrite imm_assign_sat by exact L. reflexivity.
    + rewrite imm_assign_p. reflexivity.
  - intros ->. unfold fs', imm_read. cbv zeta. cbn [fs_T imm_energy readTemperature]. rewrite imm_assign_T by exact LP. reflexivity.
  - intros ->. reflexivity.
Qed.
(** The primary variables of the fluid state of a degree of freedom are those of the degree of freedom. *)
Theorem C74_immiscible_variables_recovered : forall energy P off pc problemT v w i, (1 <= P)%nat ->
  (off <= i < off + P)%nat \/ (energy = true /\ i = off + P)%nat ->
  imm_assign energy P off (imm_read energy P off pc problemT v) w i == v i.
Proof.
  intros energy P off pc problemT v w i LP [L|[-> ->]].
  - destruct (Nat.eq_dec i off) as [->|N].
    + replace off with (off + 0)%nat at 3 4 by lia. rewrite imm_assign_p. unfold imm_read. cbv zeta. cbn [fs_p].
      rewrite readP by lia. ring.
    + replace i with (off + 1 + (i - off - 1))%nat by lia. rewrite imm_assign_sat by lia. unfold imm_read. cbv zeta. cbn [fs_S].
      rewrite readSat_explicit by lia. reflexivity.
  - rewrite imm_assign_T by exact LP. reflexivity.
Qed.
(** The conservative assignment keeps the moles of every component, if the flash calculation does: [conc] gives the molarities
    for a temperature and phase pressures. *)
Theorem C74_immiscible_moles_kept : forall energy P C off pc problemT prepare flash conc fs v, (1 <= P)%nat -> respects P pc ->
  fugacityLaw P conc ->
  (forall n, let s := flash (prepare fs) n in (forall c, n c == molesOf P (prepare fs) c) ->
     physical P pc s /\ fs_T s == fs_T (prepare fs) /\
     forall c, (c < C)%nat -> total P (fun a => fs_S s a * conc (fs_T s) (fs_p s) a c) == n c) ->
  (energy = false -> problemT == fs_T (prepare fs)) ->
  let fs' := imm_read energy P off pc problemT (imm_assign_mass energy P off prepare flash false fs v) in
  forall c, (c < C)%nat ->
    total P (fun a => fs_S fs' a * conc (fs_T fs') (fs_p fs') a c) == molesOf P (prepare fs) c.
Proof.
  intros energy P C off pc problemT prepare flash conc fs v LP R RC F HT fs' c L.
  unfold imm_assign_mass in fs'. cbv zeta in fs'.
  set (s := prepare fs) in *. set (n := globalMolarities P s) in *.
  destruct (F n) as [F1 [F2 F3]]; [intros d; unfold n, globalMolarities, molesOf; apply accum_total|].
  destruct (C74_immiscible_state_recovered energy P off pc problemT (flash s n) v LP R) as [K1 [K2 K3]].
  fold fs' in K1, K2, K3. assert (K := proj2 K1 F1).
  assert (T : fs_T fs' == fs_T (flash s n)).
  { destruct energy; [apply K2; reflexivity|]. rewrite K3 by reflexivity. rewrite F2. apply HT. reflexivity. }
  rewrite (total_ext P _ (fun a => fs_S (flash s n) a * conc (fs_T (flash s n)) (fs_p (flash s n)) a c)).
  - rewrite (F3 c L). unfold n, globalMolarities, molesOf. apply accum_total.
  - intros a La. destruct (K a La) as [_ KS]. rewrite KS.
    rewrite (RC (fs_T fs') (fs_T (flash s n)) (fs_p fs') (fs_p (flash s n)) T (fun b Lb => proj1 (K b Lb)) a c). reflexivity.
Qed.

(** NCP model: also the compositions are recovered exactly if all fugacities are equal, whatever the reference phase. *)
Theorem C74_ncp_state_recovered : forall energy P C off pc law phi compose problemT ref fs v,
  (ref < P)%nat -> respects P pc -> fugacityLaw P law -> (forall s a c, phi s a c == law (fs_T s) (fs_p s) a c) ->
  solvesComposition P C law compose -> (forall a c, (a < P)%nat -> ~ law (fs_T fs) (fs_p fs) a c * fs_p fs a == 0) ->
  (energy = false -> problemT == fs_T fs) ->
  let fs' := ncp_read energy P C off pc compose problemT (ncp_assign energy P C off phi ref fs v) in
  ((samePhases P fs' fs /\ sameComposition P C fs' fs) <-> (physical P pc fs /\ equalFugacities P C law ref fs)) /\ fs_T fs' == fs_T fs.
Proof.
  intros energy P C off pc law phi compose problemT ref fs v LR R RL HPhi SC NZ HT fs'.
  assert (LP : (1 <= P)%nat) by lia.
  assert (T : fs_T fs' == fs_T fs).
  { unfold fs', ncp_read. cbv zeta. cbn [fs_T]. destruct energy; cbn [ncp_energy readTemperature]; [rewrite ncp_assign_T by exact LP; reflexivity|apply HT; reflexivity]. }
  assert (PH : samePhases P fs' fs <-> physical P pc fs).
  { unfold fs', ncp_read, samePhases. cbv zeta. cbn [fs_p fs_S]. apply phases_recovered; [exact LP|exact R| |].
    - intros a L. rewrite ncp_assign_sat by exact L. reflexivity.
    - rewrite ncp_assign_p by exact LP. reflexivity. }
  assert (FU : samePhases P fs' fs -> forall a c, (a < P)%nat -> (c < C)%nat ->
     law (fs_T fs') (fs_p fs') a c * fs_x fs' a c * fs_p fs' a == law (fs_T fs) (fs_p fs) ref c * fs_x fs ref c * fs_p fs ref).
  { intros S1 a c La Lc.
    assert (NZ' : ~ law (fs_T fs') (fs_p fs') a c * fs_p fs' a == 0).
    { rewrite (RL (fs_T fs') (fs_T fs) (fs_p fs') (fs_p fs) T (fun b Lb => proj1 (S1 b Lb)) a c), (proj1 (S1 a La)). apply NZ. exact La. }
    unfold fs' at 3, ncp_read. cbv zeta. cbn [fs_x].
    assert (E := SC (fs_T fs') (fs_p fs') a (fill 0 C (fun c => ncp_assign energy P C off phi ref fs v (off + c)%nat) (fun _ => 0)) c La Lc NZ').
    rewrite fill0_in in E by exact Lc. rewrite ncp_assign_fug in E by assumption. rewrite HPhi in E. exact E. }
  split; [|exact T]. split.
  - intros [S1 S2]. split; [apply PH; exact S1|]. intros a c La Lc. rewrite <- (FU S1 a c La Lc).
    rewrite (S2 a c La Lc). rewrite (RL (fs_T fs') (fs_T fs) (fs_p fs') (fs_p fs) T (fun b Lb => proj1 (S1 b Lb)) a c).
    rewrite (proj1 (S1 a La)). reflexivity.
  - intros [S1 S2]. apply PH in S1. split; [exact S1|]. intros a c La Lc.
    assert (E := FU S1 a c La Lc). rewrite <- (S2 a c La Lc) in E.
    rewrite (RL (fs_T fs') (fs_T fs) (fs_p fs') (fs_p fs) T (fun b Lb => proj1 (S1 b Lb)) a c), (proj1 (S1 a La)) in E.
    apply (Qmult_inj_l _ _ (law (fs_T fs) (fs_p fs) a c * fs_p fs a) (NZ a c La)).
    transitivity (law (fs_T fs) (fs_p fs) a c * fs_x fs' a c * fs_p fs a); [ring|]. rewrite E. ring.
Qed.
(** Its conservative assignment stores the result of the flash calculation for the moles of the given state. *)
Theorem C74_ncp_conservative_assignment : forall energy P C off phi prepare flash fs v j, (1 <= P)%nat ->
  (forall s n m, (forall c, n c == m c) -> flash s n = flash s m) ->
  ncp_assign_mass energy P C off phi prepare flash true fs v j = ncp_assign energy P C off phi 0 fs v j /\
  ncp_assign_mass energy P C off phi prepare flash false fs v j =
    ncp_assign energy P C off phi 0 (flash (prepare fs) (molesOf P (prepare fs))) v j.
Proof.
  intros energy P C off phi prepare flash fs v j LP RF. split; [reflexivity|]. unfold ncp_assign_mass. cbv zeta.
  rewrite (RF (prepare fs) (globalMolarities P (prepare fs)) (molesOf P (prepare fs))); [reflexivity|].
  intros c. unfold globalMolarities, molesOf. apply accum_total.
Qed.

(** Flash model: the primary variables are the moles of the components; a flash calculation for them which conserves them
    keeps the moles. *)
Theorem C74_flash_moles_kept : forall energy P C off solve problemT fs v,
  (forall T n, (forall c, (c < C)%nat -> n c == molesOf P fs c) -> forall c, (c < C)%nat -> molesOf P (solve T n) c == n c) ->
  (forall c, (c < C)%nat -> flash_assign energy P C off fs v (off + c)%nat == molesOf P fs c) /\
  forall c, (c < C)%nat -> molesOf P (flash_read energy C off solve problemT (flash_assign energy P C off fs v)) c == molesOf P fs c.
Proof.
  intros energy P C off solve problemT fs v SO.
  assert (K : forall c, (c < C)%nat -> flash_assign energy P C off fs v (off + c)%nat == molesOf P fs c).
  { intros c L. unfold flash_assign. cbv zeta. rewrite (addPhases C off (fun a c => fs_c fs a c * fs_S fs a) P).
    replace ((off <=? off + c) && (off + c <? off + C))%nat with true
      by (symmetry; apply andb_true_iff; split; [apply Nat.leb_le|apply Nat.ltb_lt]; lia).
    replace (off + c - off)%nat with c by lia. unfold molesOf.
    rewrite (total_ext P (fun a => fs_S fs a * fs_c fs a c) (fun a => fs_c fs a c * fs_S fs a)) by (intros; ring).
    assert (Z : setTemperature (flash_energy energy C off) fs (fun _ => 0) (off + c)%nat == 0).
    { destruct energy; cbn [flash_energy setTemperature]; [rewrite put_other by lia|]; reflexivity. }
    rewrite Z. ring. }
  split; [exact K|]. intros c L. unfold flash_read. rewrite SO; [|intros d Ld; rewrite fill0_in by exact Ld; apply K; exact Ld|exact L].
  rewrite fill0_in by exact L. apply K. exact L.
Qed.

(** PT-flash model: what is read always are positive fractions which add up to one, equal to the stored ones if these and the last
    one are at least 1e-8. *)
Theorem C74_ptflash_fractions_read : forall C off v, (1 <= C)%nat ->
  total C (pt_read_fractions C off v) == 1 /\
  (forall c, (c < C)%nat -> 0 < pt_read_fractions C off v c) /\
  ((forall c, (c < C - 1)%nat -> floorZ <= v (off + 1 + c)%nat) -> floorZ <= lastFraction C off v ->
   (forall c, (c < C - 1)%nat -> pt_read_fractions C off v c == v (off + 1 + c)%nat) /\
   pt_read_fractions C off v (C - 1)%nat == lastFraction C off v).
Proof.
  intros C off v LC.
  assert (TP : 0 < total C (flooredZ C off v)).
  { apply total_pos; [exact LC|]. intros i. assert (F := floor_pos). assert (G := floored_ge C off v i). lra. }
  split; [|split].
  - rewrite (total_ext C _ (fun c => flooredZ C off v c * / total C (flooredZ C off v))) by (intros c L; apply pt_read_value; exact L).
    rewrite total_scale. field. lra.
  - intros c L. rewrite pt_read_value by exact L. assert (F := floor_pos). assert (G := floored_ge C off v c).
    apply Qlt_shift_div_l; [exact TP|]. lra.
  - intros H HL.
    assert (R : forall c, (c < C)%nat -> flooredZ C off v c == rawZ C off v c).
    { intros c L. unfold flooredZ. destruct (qmax_spec (rawZ C off v c) floorZ) as [[? ->]|[X ->]]; [reflexivity|]. exfalso.
      unfold rawZ in X. destruct (Nat.eqb_spec c (C - 1)); [unfold lastFraction in HL; lra|]. specialize (H c ltac:(lia)). lra. }
    assert (T : total C (flooredZ C off v) == 1) by (rewrite (total_ext C _ _ R); apply rawZ_total; exact LC).
    split.
    + intros c L. rewrite pt_read_value by lia. rewrite T, R by lia. unfold rawZ. destruct (Nat.eqb_spec c (C - 1)); [lia|]. field.
    + rewrite pt_read_value by lia. rewrite T, R by lia. unfold rawZ. rewrite Nat.eqb_refl. unfold lastFraction. field.
Qed.
(** They are the overall mole fractions of the given state if every phase holds at least 1e-8 moles of every component. *)
Theorem C74_ptflash_fractions_partial : forall energy P C off fs v c, (c < C - 1)%nat ->
  (forall a c, (a < P)%nat -> (c < C)%nat -> floorZ <= fs_S fs a * fs_c fs a c) ->
  pt_assign energy P C off fs v (off + 1 + c)%nat == molesOf P fs c / total C (molesOf P fs) /\
  pt_assign energy P C off fs v off == fs_p fs 0%nat.
Proof.
  intros energy P C off fs v c L H. unfold pt_assign. cbv zeta. split; [|rewrite put_same; reflexivity].
  rewrite put_other by lia. rewrite fill_in by exact L. rewrite pt_fractions_value by lia.
  assert (E : forall d, (d < C)%nat -> total P (fun a => pt_moles fs a d) == molesOf P fs d).
  { intros d Ld. unfold molesOf, pt_moles. apply total_ext. intros a La. ring. }
  rewrite (total_swap P C (pt_moles fs)).
  rewrite (total_ext C _ (molesOf P fs) E).
  rewrite (total_ext P _ (fun a => pt_moles fs a c)).
  - rewrite E by lia. reflexivity.
  - intros a La. unfold pt_moles. specialize (H a c La ltac:(lia)).
    destruct (qmax_spec (fs_c fs a c * fs_S fs a) floorZ) as [[? ->]|[X ->]]; [reflexivity|]. lra.
Qed.
(** Not so if a phase is missing: an absent phase counts as 1e-8 moles of every component, and the fractions add up to more than
    one. *)
Theorem C74_ptflash_fractions_refuted :
  ~ (forall energy P C off fs v c, (c < C - 1)%nat ->
     (forall a, (a < P)%nat -> 0 <= fs_S fs a) -> (forall a c, (a < P)%nat -> (c < C)%nat -> 0 <= fs_c fs a c) ->
     0 < total C (molesOf P fs) ->
     pt_assign energy P C off fs v (off + 1 + c)%nat == molesOf P fs c / total C (molesOf P fs)).
Proof.
  intros H.
  specialize (H false 2%nat 2%nat 0%nat (mkFs 300 (fun _ => 100) (fun a => if (a =? 0)%nat then 1 else 0) (fun _ _ => 1 # 2) (fun _ _ => 1)) (fun _ => 0) 0%nat).
  assert (X : pt_assign false 2 2 0 (mkFs 300 (fun _ => 100) (fun a => if (a =? 0)%nat then 1 else 0) (fun _ _ => 1 # 2) (fun _ _ => 1)) (fun _ => 0) (0 + 1 + 0)%nat ==
     molesOf 2 (mkFs 300 (fun _ => 100) (fun a => if (a =? 0)%nat then 1 else 0) (fun _ _ => 1 # 2) (fun _ _ => 1)) 0 /
     total 2 (molesOf 2 (mkFs 300 (fun _ => 100) (fun a => if (a =? 0)%nat then 1 else 0) (fun _ _ => 1 # 2) (fun _ _ => 1)))).
  { apply H; cbn; [lia| | |reflexivity].
    - intros [|a] _; cbn; lra.
    - intros a c _ _. lra. }
  vm_compute in X. discriminate X.
Qed.
(** The saturations are those of the flash result, brought into the unit interval. *)
Theorem C74_ptflash_saturations : forall q, let S := pt_saturations q in
  0 <= fst S /\ 0 <= snd S /\ fst S + snd S == 1 /\ (0 <= q <= 1 -> fst S == q).
Proof.
  intros q S. unfold S, pt_saturations. cbv zeta. cbn [fst snd].
  set (So := qmax q 0). set (Sg := qmax (1 - So) 0).
  assert (HS : 0 <= So /\ (0 <= q -> So == q)) by (unfold So; destruct (qmax_spec q 0) as [[? ->]|[? ->]]; split; lra).
  assert (HG : 0 <= Sg /\ 1 - So <= Sg /\ (So <= 1 -> Sg == 1 - So)) by (unfold Sg; destruct (qmax_spec (1 - So) 0) as [[? ->]|[? ->]]; repeat split; lra).
  destruct HS as [H1 H2], HG as [G1 [G2 G3]]. assert (SP : 0 < So + Sg) by lra.
  split; [apply Qle_shift_div_l; lra|]. split; [apply Qle_shift_div_l; lra|]. split; [field; lra|].
  intros L. rewrite G3 by (rewrite H2; lra). rewrite H2 by lra. field; lra.
Qed.

(** Richards model: the liquid is recovered if the gas is at the reference pressure. *)
Theorem C74_richards_state_recovered_partial : forall liquid gas pc sat pref pw Sw, liquid <> gas -> inverseLaws pc sat ->
  (forall p q, p == q -> sat p == sat q) ->
  exists pW, rich_fromWetting liquid gas pc pw Sw = Some pW /\ pW == pw /\
  (Sw <= 1 -> pw + pc Sw == pref -> rich_gasPressure pc pref pW == pw + pc Sw /\ rich_saturation pc sat pref pW == Sw).
Proof.
  intros liquid gas pc sat pref pw Sw N [D1 [D2 D3]] RS. exists pw. split; [|split; [reflexivity|]].
  - unfold rich_fromWetting, setPressure. destruct (Nat.eqb_spec liquid gas); [contradiction|]. rewrite Nat.eqb_refl. reflexivity.
  - intros L E. assert (G : rich_gasPressure pc pref pw == pw + pc Sw).
    { unfold rich_gasPressure. specialize (D1 Sw 1 L). destruct (qmax_spec pref (pw + pc 1)) as [[? ->]|[? ->]]; lra. }
    split; [exact G|]. unfold rich_saturation. rewrite (RS _ (pc Sw)); [apply D3|]. rewrite G. ring.
Qed.
(** Given the pressure of the gas, the pressure of the liquid is never set: the primary variable is undefined. *)
Theorem C74_richards_from_gas_pressure_refuted :
  ~ (forall liquid gas pc pn Sn, liquid <> gas -> exists pW, rich_fromNonWetting liquid gas pc pn Sn = Some pW /\ pW == pn - pc (1 - Sn)) /\
  forall liquid gas pc pn Sn, liquid <> gas -> rich_fromNonWetting liquid gas pc pn Sn = None.
Proof.
  assert (K : forall liquid gas pc pn Sn, liquid <> gas -> rich_fromNonWetting liquid gas pc pn Sn = None).
  { intros liquid gas pc pn Sn N. unfold rich_fromNonWetting, setPressure. destruct (Nat.eqb_spec liquid gas); [contradiction|reflexivity]. }
  split; [|exact K]. intros H. destruct (H 0%nat 1%nat (fun _ => 0) 1 0) as [pW [E _]]; [discriminate|].
  rewrite K in E by discriminate. discriminate E.
Qed.

(** ** C75 *)
(** The equation of a phase holds exactly if the phase is present or its mole fractions leave room, but not both. *)
Theorem C75_phase_equation : forall C fs a, phaseNcp C fs a == 0 <-> complementary C fs a.
Proof.
  intros C fs a. unfold phaseNcp, complementary, phasePresentIneq.
  assert (E : phaseNotPresentIneq C fs a == 1 - total C (fs_x fs a)) by apply sub_total.
  set (t := total C (fs_x fs a)) in *. set (s := fs_S fs a). split.
  - intros H. destruct (qmin_spec (phaseNotPresentIneq C fs a) s) as [[L X]|[L X]]; rewrite X in H; rewrite E in *.
    + split; [lra|]. split; [lra|]. rewrite H. ring.
    + split; [lra|]. split; [lra|]. rewrite H. ring.
  - intros [H1 [H2 H3]]. apply Qmult_integral in H3.
    destruct (qmin_spec (phaseNotPresentIneq C fs a) s) as [[L X]|[L X]]; rewrite X; rewrite E in *; destruct H3; lra.
Qed.
(** The equations are part of the source term, the other entries are those of the problem. *)
Theorem C75_equations_in_the_source_term : forall P C off fs source eq,
  (forall a, (a < P)%nat -> (ncp_source P C off fs source (off + C + a)%nat == 0 <-> complementary C fs a)) /\
  (~ phaseEquation P C off eq -> ncp_source P C off fs source eq = source eq).
Proof.
  intros P C off fs source eq. unfold ncp_source, phaseEquation. split.
  - intros a L. rewrite fill_in by exact L. apply C75_phase_equation.
  - intros N. apply fill_out. lia.
Qed.
(** The error which the Newton method compares with its tolerance is the largest weighted residual of the other equations. *)
Theorem C75_error_is_the_largest_balance_residual : forall P C off numEq gridDofs en dofs,
  let r := ncpError P C off numEq gridDofs en dofs in
  (forall i d eq, nth_error dofs i = Some d -> considered gridDofs en i d -> (eq < numEq)%nat -> ~ phaseEquation P C off eq ->
     - r <= d_residual d eq * d_weight d eq <= r) /\
  (r == 0 \/ exists i d eq, nth_error dofs i = Some d /\ considered gridDofs en i d /\ (eq < numEq)%nat /\ ~ phaseEquation P C off eq /\
     (r == d_residual d eq * d_weight d eq \/ r == - (d_residual d eq * d_weight d eq))).
Proof.
  intros P C off numEq gridDofs en dofs r.
  destruct (err_outer P C off numEq gridDofs en (combine (seq 0 (length dofs)) dofs) 0) as [H1 [H2 H3]]. cbv zeta in H1, H2, H3.
  change (0 <= r) in H1. fold (errStep P C off) in *. split.
  - intros i d eq N Co L NP. assert (I : In (i, d) (combine (seq 0 (length dofs)) dofs)) by (apply combine_seq_in; rewrite Nat.sub_0_r; split; [lia|exact N]).
    specialize (H2 i d eq I Co L NP). change (qabs (d_residual d eq * d_weight d eq) <= r) in H2.
    destruct (qabs_spec (d_residual d eq * d_weight d eq)) as [[? E]|[? E]]; rewrite E in H2; lra.
  - destruct H3 as [H3|[i [d [eq [I [Co [L [NP E]]]]]]]].
    + left. change (r = 0) in H3. rewrite H3. reflexivity.
    + right. exists i, d, eq. apply combine_seq_in in I. rewrite Nat.sub_0_r in I. split; [apply I|]. split; [exact Co|]. split; [exact L|]. split; [exact NP|].
      change (r = qabs (d_residual d eq * d_weight d eq)) in E. rewrite E.
      destruct (qabs_spec (d_residual d eq * d_weight d eq)) as [[? ->]|[? ->]]; [left|right]; reflexivity.
Qed.
(** So no tolerance makes the Newton method solve the equations of the phases. *)
Theorem C75_converged_state_refuted : forall violation : Q, ~ violation == 0 ->
  ~ (forall P C off numEq gridDofs en dofs, ncpError P C off numEq gridDofs en dofs == 0 ->
     forall i d eq, nth_error dofs i = Some d -> considered gridDofs en i d -> (eq < numEq)%nat -> ~ d_residual d eq == violation).
Proof.
  intros violation Z H.
  apply (H 1%nat 1%nat 0%nat 2%nat 1%nat false [mkDof 1 false (fun eq => if (eq =? 0)%nat then 0 else violation) (fun _ => 1)] (Qeq_refl 0) 0%nat
           (mkDof 1 false (fun eq => if (eq =? 0)%nat then 0 else violation) (fun _ => 1)) 1%nat);
    [reflexivity|split; [lia|split; [reflexivity|left; reflexivity]]|lia|reflexivity].
Qed.

(** ** C53 *)
(** Richards model: in the first iterations the saturation of the liquid changes by at most 20 percent (a negative saturation counts
    as zero), and the pressure does not leave the way to the unlimited result. *)
Theorem C53_richards_saturation_limited_partial : forall pc sat pref k pW upd, inverseLaws pc sat -> (k <= 4)%nat ->
  let pW' := rich_update pc sat pref k pW upd in
  let old := rich_saturation pc sat pref pW in
  (0 <= old -> within (1 # 5) (rich_saturation pc sat pref pW') old /\ (pW <= pW' <= pW - upd \/ pW - upd <= pW' <= pW)) /\
  (old < 0 -> within (1 # 5) (rich_saturation pc sat pref pW') 0).
Proof.
  intros pc sat pref k pW upd [D1 [D2 D3]] Lk pW' old.
  set (pN := rich_gasPressure pc pref pW).
  assert (HN : pref <= pN /\ pW + pc 1 <= pN /\ (pN = pref \/ pN = pW + pc 1)).
  { unfold pN, rich_gasPressure. destruct (qmax_spec pref (pW + pc 1)) as [[? ->]|[? ->]]; repeat split; auto; lra. }
  destruct HN as [N1 [N2 N3]].
  change old with (sat (pN - pW)) in *. clear old.
  assert (O1 : sat (pN - pW) <= 1) by (rewrite <- (D3 1); apply D2; lra).
  set (so := qmax 0 (sat (pN - pW))).
  assert (HS : 0 <= so /\ so <= 1 /\ sat (pN - pW) <= so /\ (sat (pN - pW) <= 0 /\ so == 0 \/ 0 < sat (pN - pW) /\ so == sat (pN - pW))).
  { unfold so. destruct (qmax_spec 0 (sat (pN - pW))) as [[? ->]|[? ->]]; (split; [lra|split; [lra|split; [lra|]]]); [left|right]; split; try reflexivity; lra. }
  destruct HS as [S0 [S1 [S2 S3]]].
  set (lo := pN - pc (so - (1 # 5))). set (hi := pN - pc (so + (1 # 5))).
  assert (LH : lo <= hi) by (unfold lo, hi; assert (DD := D1 (so - (1 # 5)) (so + (1 # 5)) ltac:(lra)); lra).
  assert (HW : lo <= pW' <= hi /\ (pW' == lo \/ pW' <= pW - upd) /\ (pW' == hi \/ pW - upd <= pW')).
  { unfold pW', rich_update. cbv zeta. replace (4 <? k)%nat with false by (symmetry; apply Nat.ltb_ge; exact Lk).
    fold pN. fold so. fold lo. fold hi.
    destruct (qmin_spec (pW - upd) hi) as [[A ->]|[A ->]].
    - destruct (qmax_spec lo (pW - upd)) as [[B ->]|[B ->]]; split; try lra; split; ((left; lra) || (right; lra)).
    - destruct (qmax_spec lo hi) as [[B ->]|[B ->]]; split; try lra; split; ((left; lra) || (right; lra)). }
  destruct HW as [HW1 [HW2 HW3]].
  assert (NEW : within (1 # 5) (rich_saturation pc sat pref pW') so).
  { unfold rich_saturation. set (pN' := rich_gasPressure pc pref pW').
    assert (HN : pref <= pN' /\ pW' + pc 1 <= pN' /\ (pN' = pref \/ pN' = pW' + pc 1)).
    { unfold pN', rich_gasPressure. destruct (qmax_spec pref (pW' + pc 1)) as [[? ->]|[? ->]]; repeat split; auto; lra. }
    destruct HN as [M1 [M2 M3]]. split.
    - assert (X : pN' - pW' <= pc (so - (1 # 5))).
      { unfold lo in HW1. assert (DD := D1 (so - (1 # 5)) 1 ltac:(lra)). destruct M3 as [->| ->]; lra. }
      apply D2 in X. rewrite D3 in X. lra.
    - destruct N3 as [N3|N3].
      + assert (X : pc (so + (1 # 5)) <= pN' - pW') by (unfold hi in HW1; rewrite N3 in HW1; lra).
        apply D2 in X. rewrite D3 in X. lra.
      + assert (X : pc 1 <= pN' - pW') by lra. apply D2 in X. rewrite D3 in X.
        assert (Y : sat (pc 1) <= sat (pN - pW)) by (apply D2; rewrite N3; lra). rewrite D3 in Y. lra. }
  split.
  - intros O0. assert (E : so == sat (pN - pW)) by (destruct S3; lra). unfold within in *. split; [lra|].
    assert (A : lo <= pW).
    { unfold lo. destruct (Qlt_le_dec (pc (so - (1 # 5))) (pN - pW)) as [X|X]; [|lra]. apply Qlt_le_weak in X. apply D2 in X. rewrite D3 in X. lra. }
    assert (B : pW <= hi).
    { unfold hi. destruct (Qlt_le_dec (pN - pW) (pc (so + (1 # 5)))) as [X|X]; [|lra]. apply Qlt_le_weak in X. apply D2 in X. rewrite D3 in X. lra. }
    destruct (Qlt_le_dec (pW - upd) pW); [right|left]; split; lra.
  - intros O0. assert (E : so == 0) by (destruct S3; lra). unfold within in *. lra.
Qed.
(** Later there is no limit. *)
Theorem C53_richards_saturation_later_refuted :
  ~ (forall pc sat pref k pW upd, inverseLaws pc sat -> 0 <= rich_saturation pc sat pref pW ->
     within (1 # 5) (rich_saturation pc sat pref (rich_update pc sat pref k pW upd)) (rich_saturation pc sat pref pW)).
Proof.
  intros H. destruct (H (fun s => 1 - s) (fun d => 1 - d) 0 5%nat (- (1 # 2)) (1 # 2)) as [A B].
  - split; [intros; lra|]. split; [intros; lra|]. intros; lra.
  - vm_compute. discriminate.
  - vm_compute in A. apply A. reflexivity.
Qed.
(** PT-flash model: every fraction changes by at most 0.2 and stays in the unit interval, with up to three components also the one of
    the last component; the pressure changes by at most 20 percent; smaller updates are taken unchanged. *)
Theorem C53_ptflash_limited_partial : forall C off cur upd, (1 <= C)%nat -> 0 <= cur off ->
  (forall c, (c < C - 1)%nat -> floorZ <= cur (off + 1 + c)%nat <= 1 - floorZ) ->
  exists v, pt_update C off cur upd = Some v /\
  (forall c, (c < C - 1)%nat -> within (1 # 5) (v (off + 1 + c)%nat) (cur (off + 1 + c)%nat) /\ floorZ <= v (off + 1 + c)%nat <= 1 - floorZ) /\
  ((C <= 3)%nat -> within (1 # 5) (lastFraction C off v) (lastFraction C off cur)) /\
  (cur off * (8 # 10) <= v off <= cur off * (12 # 10) /\
   (cur off * (8 # 10) <= cur off - upd off <= cur off * (12 # 10) -> v off = cur off - upd off)) /\
  ((forall c, (c < C - 1)%nat -> within (1 # 5) (upd (off + 1 + c)%nat) 0 /\ floorZ <= cur (off + 1 + c)%nat - upd (off + 1 + c)%nat <= 1 - floorZ) ->
   within (1 # 5) (total (C - 1) (fun c => upd (off + 1 + c)%nat)) 0 ->
   forall c, (c < C - 1)%nat -> v (off + 1 + c)%nat == cur (off + 1 + c)%nat - upd (off + 1 + c)%nat).
Proof.
  intros C off cur upd LC P0 HC. destruct (pt_update_some C off cur upd P0) as [v [p [E [EP [VP [VZ _]]]]]].
  exists v. split; [exact E|].
  destruct (pt_scaled_value C off cur upd (put (fun j => cur j - upd j) off p)) as [k [[K0 K1] [K2 [K3 K4]]]].
  { intros c L. rewrite put_other by lia. reflexivity. }
  destruct (maxDelta_bounds C off upd) as [MB MT]. set (m := pt_maxDelta C off upd) in *.
  assert (W : forall c, (c < C - 1)%nat -> - (1 # 5) <= k * upd (off + 1 + c)%nat <= 1 # 5).
  { intros c L. specialize (MB c L). split; nra. }
  assert (B : forall c, (c < C - 1)%nat ->
    (0 <= k * upd (off + 1 + c)%nat -> - (k * upd (off + 1 + c)%nat) <= v (off + 1 + c)%nat - cur (off + 1 + c)%nat <= 0) /\
    (k * upd (off + 1 + c)%nat <= 0 -> 0 <= v (off + 1 + c)%nat - cur (off + 1 + c)%nat <= - (k * upd (off + 1 + c)%nat))).
  { intros c L. rewrite VZ by exact L. apply clampZ_between; [apply HC; exact L|]. apply K3. exact L. }
  split; [|split; [|split]].
  - intros c L. split.
    + specialize (B c L). specialize (W c L). destruct B as [B1 B2]. unfold within.
      destruct (Qlt_le_dec (k * upd (off + 1 + c)%nat) 0) as [X|X]; [apply Qlt_le_weak in X; specialize (B2 X)|specialize (B1 X)]; lra.
    + rewrite VZ by exact L. apply (pt_clampZ_spec _).
  - intros L3. unfold lastFraction, within.
    assert (TT : - (1 # 5) <= k * total (C - 1) (fun c => upd (off + 1 + c)%nat) <= 1 # 5) by (split; nra).
    destruct (C - 1)%nat as [|[|[|n]]] eqn:EC; [cbn [total]; lra| | |lia].
    + specialize (B 0%nat ltac:(lia)). specialize (W 0%nat ltac:(lia)). cbn [total]. destruct B as [B1 B2].
      destruct (Qlt_le_dec (k * upd (off + 1 + 0)%nat) 0) as [X|X]; [apply Qlt_le_weak in X; specialize (B2 X)|specialize (B1 X)]; lra.
    + assert (B0 := B 0%nat ltac:(lia)). assert (W0 := W 0%nat ltac:(lia)). assert (B1 := B 1%nat ltac:(lia)). assert (W1 := W 1%nat ltac:(lia)).
      cbn [total] in *.
      assert (TT' : - (1 # 5) <= k * upd (off + 1 + 0)%nat + k * upd (off + 1 + 1)%nat <= 1 # 5) by (split; nra). clear TT.
      set (w0 := k * upd (off + 1 + 0)%nat) in *. set (w1 := k * upd (off + 1 + 1)%nat) in *.
      destruct B0 as [B01 B02], B1 as [B11 B12].
      destruct (Qlt_le_dec w0 0) as [X|X]; [apply Qlt_le_weak in X; specialize (B02 X)|specialize (B01 X)];
        (destruct (Qlt_le_dec w1 0) as [Y|Y]; [apply Qlt_le_weak in Y; specialize (B12 Y)|specialize (B11 Y)]); lra.
  - rewrite VP. destruct (clamp_spec (cur off - upd off) (cur off * (8 # 10)) (cur off * (12 # 10)) ltac:(lra)) as [r [ER BR]].
    rewrite EP in ER. injection ER as ->. exact BR.
  - intros HU HT c L. assert (K : k == 1).
    { apply K4. apply maxDelta_small; [lra| |].
      - intros d Ld. destruct (HU d Ld) as [[? ?] _]. lra.
      - unfold within in HT. lra. }
    rewrite VZ by exact L.
    assert (S := K3 c L). rewrite K in S. destruct (HU c L) as [_ R].
    destruct (pt_clampZ_spec (pt_scaled C off cur upd (put (fun j => cur j - upd j) off p) (off + 1 + c)%nat)) as [_ [Z _]].
    rewrite Z by lra. rewrite S. ring.
Qed.
(** With four components the last fraction may change by nearly 0.4 and become negative. *)
Theorem C53_ptflash_last_fraction_refuted :
  ~ (forall C off cur upd v, 0 <= cur off -> (forall c, (c < C - 1)%nat -> floorZ <= cur (off + 1 + c)%nat <= 1 - floorZ) ->
     0 <= lastFraction C off cur -> pt_update C off cur upd = Some v ->
     within (1 # 5) (lastFraction C off v) (lastFraction C off cur)) /\
  ~ (forall C off cur upd v, 0 <= cur off -> (forall c, (c < C - 1)%nat -> floorZ <= cur (off + 1 + c)%nat <= 1 - floorZ) ->
     0 <= lastFraction C off cur -> pt_update C off cur upd = Some v -> 0 <= lastFraction C off v).
Proof.
  pose (cur := fun j => nth j [100; floorZ; 3 # 10; 3 # 10] 0). pose (upd := fun j => nth j [0; 1 # 5; - (1 # 5); - (1 # 5)] 0).
  assert (HC : forall c, (c < 4 - 1)%nat -> floorZ <= cur (0 + 1 + c)%nat <= 1 - floorZ).
  { intros [|[|[|c]]] L; [| | |lia]; unfold cur, floorZ; cbn; lra. }
  assert (HP : 0 <= cur 0%nat) by (cbn; lra).
  assert (HL : 0 <= lastFraction 4 0 cur) by (vm_compute; discriminate).
  destruct (pt_update_some 4 0 cur upd HP) as [v [p [E _]]].
  assert (V : lastFraction 4 0 v == - floorZ).
  { unfold pt_update in E. cbv beta zeta in E.
    destruct (clamp (cur 0%nat - upd 0%nat) (cur 0%nat * (8 # 10)) (cur 0%nat * (12 # 10))) as [q|] eqn:Q0; [|discriminate E].
    injection E as <-. vm_compute. reflexivity. }
  split; intros H; specialize (H 4%nat 0%nat cur upd v HP HC HL E); [destruct H as [H _]|]; rewrite V in H; vm_compute in H; apply H; reflexivity.
Qed.
(** From a negative pressure the bounds given to std::clamp are in the wrong order. *)
Theorem C53_ptflash_negative_pressure_refuted : forall C off cur upd, cur off < 0 -> pt_update C off cur upd = None.
Proof.
  intros C off cur upd L. unfold pt_update, clamp.
  destruct (Qltb (cur off * (12 # 10)) (cur off * (8 # 10))) eqn:E; [reflexivity|]. apply Qltb_ge in E. lra.
Qed.

(** ** Concrete cases *)
(** Water and gas with a linear capillary pressure. *)
Definition linearLaw : vec -> vec := fun S a => if (a =? 0)%nat then 0 else 10 * S 1%nat.
Definition waterGas : fstate := mkFs 300 (fun a => if (a =? 0)%nat then 100 else 103) (fun a => if (a =? 0)%nat then 7 # 10 else 3 # 10)
  (fun a c => if (a =? c)%nat then 9 # 10 else 1 # 10) (fun a c => if (a =? c)%nat then 9 else 1).
Example water_and_gas_are_physical : respects 2 linearLaw /\ physical 2 linearLaw waterGas.
Proof.
  split.
  - intros s t H a. unfold linearLaw. destruct (a =? 0)%nat; [reflexivity|]. rewrite (H 1%nat) by lia. reflexivity.
  - split; [vm_compute; reflexivity|]. intros [|[|a]] L; [vm_compute; reflexivity..|lia].
Qed.
Example water_and_gas_recovered :
  map (fun a => (Qred (fs_p (imm_read true 2 3 linearLaw 0 (imm_assign true 2 3 waterGas (fun _ => 77))) a),
                 Qred (fs_S (imm_read true 2 3 linearLaw 0 (imm_assign true 2 3 waterGas (fun _ => 77))) a))) [0; 1]%nat
  = [(100, 7 # 10); (103, 3 # 10)].
Proof. vm_compute. reflexivity. Qed.
(** Coefficients for which the composition of [waterGas] is an equilibrium: each phase prefers its own component. *)
Definition ownLaw : Q -> vec -> nat -> nat -> Q := fun _ p a c => (if (a =? c)%nat then 1 else 9) / p a.
Example fugacities_equal : equalFugacities 2 2 ownLaw 0 waterGas.
Proof.
  intros [|[|a]] [|[|c]] La Lc; try lia; vm_compute; reflexivity.
Qed.
Definition ownCompose : Q -> vec -> nat -> vec -> vec := fun T p a fug c => fug c / (ownLaw T p a c * p a).
Example fugacity_laws_exist : fugacityLaw 2 (fun T p a c => if (a =? 0)%nat then 1 else p 1%nat) /\ solvesComposition 2 2 ownLaw ownCompose.
Proof.
  split.
  - intros T T' p p' _ H a c. destruct (a =? 0)%nat; [reflexivity|]. apply H. lia.
  - intros T p a fug c _ _ N. unfold ownCompose. field. split; intros Z; apply N; rewrite Z; ring.
Qed.
(** A flash calculation which keeps the moles of [waterGas]: the state itself. *)
Example moles_kept_by_a_flash : physical 2 linearLaw waterGas /\
  forall c, (c < 2)%nat -> total 2 (fun a => fs_S waterGas a * fs_c waterGas a c) == molesOf 2 waterGas c.
Proof. split; [apply water_and_gas_are_physical|]. intros [|[|c]] L; [vm_compute; reflexivity..|lia]. Qed.
Example phase_equation_examples :
  complementary 2 waterGas 0 /\ complementary 2 (mkFs 300 (fun _ => 100) (fun _ => 0) (fun _ _ => 1 # 3) (fun _ _ => 0)) 1 /\
  ~ complementary 2 (mkFs 300 (fun _ => 100) (fun _ => 1) (fun _ _ => 1 # 3) (fun _ _ => 0)) 0.
Proof.
  unfold complementary. split; [|split].
  - vm_compute. repeat split; discriminate.
  - vm_compute. repeat split; discriminate.
  - intros [_ [_ H]]. vm_compute in H. discriminate H.
Qed.
Example inverse_laws_exist : inverseLaws (fun s => 1 - s) (fun d => 1 - d).
Proof. split; [intros; lra|]. split; [intros; lra|]. intros; lra. Qed.

Print Assumptions C74_immiscible_state_recovered.
Print Assumptions C74_immiscible_variables_recovered.
Print Assumptions C74_immiscible_moles_kept.
Print Assumptions C74_ncp_state_recovered.
Print Assumptions C74_ncp_conservative_assignment.
Print Assumptions C74_flash_moles_kept.
Print Assumptions C74_ptflash_fractions_read.
Print Assumptions C74_ptflash_fractions_partial.
Print Assumptions C74_ptflash_fractions_refuted.
Print Assumptions C74_ptflash_saturations.
Print Assumptions C74_richards_state_recovered_partial.
Print Assumptions C74_richards_from_gas_pressure_refuted.
Print Assumptions C75_phase_equation.
Print Assumptions C75_equations_in_the_source_term.
Print Assumptions C75_error_is_the_largest_balance_residual.
Print Assumptions C75_converged_state_refuted.
Print Assumptions C53_richards_saturation_limited_partial.
Print Assumptions C53_richards_saturation_later_refuted.
Print Assumptions C53_ptflash_limited_partial.
Print Assumptions C53_ptflash_last_fraction_refuted.
Print Assumptions C53_ptflash_negative_pressure_refuted.
