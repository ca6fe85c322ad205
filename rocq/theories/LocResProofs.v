From Verif Require Import LocResModel LocResSpec ResidualProofs DarcyProofs.
From Verif Require TpfaProofs.
From Coq Require Import Lqa Qminmax Qfield.

(* ----- derivatives ----- *)

Lemma D_ext f g a b : (forall h, f h == g h) -> a == b -> derivative f a -> derivative g b.
Proof. apply TpfaProofs.derivative_ext. Qed.
Lemma D_plus f g a b : derivative f a -> derivative g b -> derivative (fun h => f h + g h) (a + b).
Proof. apply TpfaProofs.derivative_plus. Qed.
Lemma D_scale f a c : derivative f a -> derivative (fun h => c * f h) (c * a).
Proof. apply TpfaProofs.derivative_scale. Qed.
Lemma D_const f : (forall h, f h == f 0) -> derivative f 0.
Proof. apply TpfaProofs.derivative_const. Qed.

(** Only what happens near zero matters. *)
Lemma D_local f g a d : 0 < d -> (forall h, Qabs h < d -> f h == g h) -> derivative f a -> derivative g a.
Proof.
  intros Pd H F eps P. destruct (F eps P) as (d1 & D1 & B). exists (Qmin d d1). split.
  - apply Q.min_glb_lt; assumption.
  - intros h L.
    assert (L1 : Qabs h < d) by (eapply Qlt_le_trans; [exact L|apply Q.le_min_l]).
    assert (L2 : Qabs h < d1) by (eapply Qlt_le_trans; [exact L|apply Q.le_min_r]).
    rewrite <- (H h L1), <- (H 0) by (cbn; lra). now apply B.
Qed.

(** A function with a derivative is Lipschitz near zero. *)
Lemma D_lipschitz f a : derivative f a -> exists d, 0 < d /\
  forall h, Qabs h < d -> Qabs (f h - f 0) <= (Qabs a + 1) * Qabs h.
Proof.
  intros F. destruct (F 1) as (d & Pd & B); [lra|]. exists d. split; [assumption|]. intros h L. specialize (B h L).
  setoid_replace (f h - f 0) with ((f h - f 0 - a * h) + a * h) by lra.
  eapply Qle_trans; [apply Qabs_triangle|]. rewrite Qabs_Qmult. lra.
Qed.
Lemma D_small f g a b : derivative f a -> derivative g b -> derivative (fun h => (f h - f 0) * (g h - g 0)) 0.
Proof.
  intros F G eps P. destruct (D_lipschitz _ _ F) as (d1 & D1 & B1), (D_lipschitz _ _ G) as (d2 & D2 & B2).
  pose proof (Qabs_nonneg a) as Na. pose proof (Qabs_nonneg b) as Nb.
  set (C := (Qabs a + 1) * (Qabs b + 1)). assert (PC : 0 < C) by (unfold C; nra).
  exists (Qmin (Qmin d1 d2) (eps / C)). split.
  - apply Q.min_glb_lt; [apply Q.min_glb_lt; assumption|]. apply Qlt_shift_div_l; lra.
  - intros h L.
    assert (L0 : Qabs h < Qmin d1 d2) by (eapply Qlt_le_trans; [exact L|apply Q.le_min_l]).
    assert (L1 : Qabs h < d1) by (eapply Qlt_le_trans; [exact L0|apply Q.le_min_l]).
    assert (L2 : Qabs h < d2) by (eapply Qlt_le_trans; [exact L0|apply Q.le_min_r]).
    assert (L3 : Qabs h < eps / C) by (eapply Qlt_le_trans; [exact L|apply Q.le_min_r]).
    specialize (B1 h L1). specialize (B2 h L2).
    setoid_replace ((f h - f 0) * (g h - g 0) - (f 0 - f 0) * (g 0 - g 0) - 0 * h) with ((f h - f 0) * (g h - g 0)) by ring.
    rewrite Qabs_Qmult. pose proof (Qabs_nonneg h) as Nh.
    pose proof (Qabs_nonneg (f h - f 0)) as N1. pose proof (Qabs_nonneg (g h - g 0)) as N2.
    assert (E : C * Qabs h <= eps).
    { setoid_replace eps with (C * (eps / C)) by (field; lra). apply Qmult_le_l; lra. }
    set (A := Qabs (f h - f 0)) in *. set (B := Qabs (g h - g 0)) in *. set (H := Qabs h) in *.
    assert (A * B <= ((Qabs a + 1) * H) * ((Qabs b + 1) * H)).
    { eapply Qle_trans with (A * ((Qabs b + 1) * H)).
      - rewrite (Qmult_comm A), (Qmult_comm A). apply Qmult_le_compat_r; assumption.
      - apply Qmult_le_compat_r; [assumption|]. nra. }
    setoid_replace ((Qabs a + 1) * H * ((Qabs b + 1) * H)) with (C * H * H) in H0 by (unfold C; ring).
    eapply Qle_trans; [exact H0|]. apply Qmult_le_compat_r; assumption.
Qed.
Lemma D_mult f g a b : derivative f a -> derivative g b -> derivative (fun h => f h * g h) (a * g 0 + f 0 * b).
Proof.
  intros F G. pose proof (D_small _ _ _ _ F G) as Sm.
  apply (D_ext (fun h => (g 0 * f h + f 0 * g h) + ((f h - f 0) * (g h - g 0) + - (f 0 * g 0))) _
           ((g 0 * a + f 0 * b) + (0 + 0))).
  - intros h. ring.
  - ring.
  - apply D_plus; [apply D_plus; now apply D_scale|]. apply D_plus; [exact Sm|]. apply D_const. reflexivity.
Qed.
(** The sign stays near zero. *)
Lemma D_sign f a : derivative f a -> ~ f 0 == 0 ->
  exists d, 0 < d /\ forall h, Qabs h < d -> Qltb 0 (f h) = Qltb 0 (f 0).
Proof.
  intros F N. destruct (D_lipschitz _ _ F) as (d & Pd & B). pose proof (Qabs_nonneg a) as Na.
  assert (PA : 0 < Qabs (f 0)).
  { pose proof (Qabs_nonneg (f 0)). destruct (Qeq_dec (Qabs (f 0)) 0) as [E|E].
    - exfalso. apply N. destruct (Qlt_le_dec (f 0) 0) as [L|L].
      + rewrite Qabs_neg in E by lra. lra.
      + rewrite Qabs_pos in E by lra. lra.
    - lra. }
  exists (Qmin d (Qabs (f 0) / (Qabs a + 1))). split.
  - apply Q.min_glb_lt; [assumption|]. apply Qlt_shift_div_l; lra.
  - intros h L.
    assert (L1 : Qabs h < d) by (eapply Qlt_le_trans; [exact L|apply Q.le_min_l]).
    assert (L2 : Qabs h < Qabs (f 0) / (Qabs a + 1)) by (eapply Qlt_le_trans; [exact L|apply Q.le_min_r]).
    specialize (B h L1).
    assert (M : (Qabs a + 1) * Qabs h < Qabs (f 0)).
    { setoid_replace (Qabs (f 0)) with ((Qabs a + 1) * (Qabs (f 0) / (Qabs a + 1))) at 1 by (field; lra).
      apply Qmult_lt_l; lra. }
    assert (S1 : Qabs (f h - f 0) < Qabs (f 0)) by lra.
    apply Qabs_Qlt_condition in S1. destruct S1 as (S1 & S2).
    destruct (Qltb 0 (f 0)) eqn:E.
    + apply Qltb_lt in E. rewrite Qabs_pos in S1, S2 by lra. apply Qltb_lt. lra.
    + apply Qltb_ge in E. rewrite Qabs_neg in S1, S2 by lra. apply Qltb_ge. lra.
Qed.

(* ----- evaluations ----- *)

Definition eqv (x y : ad) : Prop := val x == val y /\ der x == der y.
Lemma eqv_refl x : eqv x x. Proof. split; reflexivity. Qed.
Lemma eqv_sym x y : eqv x y -> eqv y x. Proof. intros (A & B). split; now symmetry. Qed.
Lemma eqv_trans x y z : eqv x y -> eqv y z -> eqv x z.
Proof. intros (A & B) (C & D). split; [rewrite A|rewrite B]; assumption. Qed.
Lemma eqv_add x y x' y' : eqv x x' -> eqv y y' -> eqv (aadd x y) (aadd x' y').
Proof. intros (A & B) (C & D). split; cbn; [rewrite A, C|rewrite B, D]; reflexivity. Qed.

Definition asum (g : nat -> ad) (l : list nat) : ad := fold_right (fun a t => aadd (g a) t) (constant 0) l.
Lemma asum_val g l : val (asum g l) == sumOver (fun a => val (g a)) l.
Proof. induction l as [|x l IH]; [reflexivity|]. cbn [asum fold_right aadd val]. fold (asum g l). rewrite IH, sumOver_cons. reflexivity. Qed.
Lemma asum_der g l : der (asum g l) == sumOver (fun a => der (g a)) l.
Proof. induction l as [|x l IH]; [reflexivity|]. cbn [asum fold_right aadd der]. fold (asum g l). rewrite IH, sumOver_cons. reflexivity. Qed.
Lemma fold_asum g l s : eqv (fold_left (fun t a => aadd t (g a)) l s) (aadd s (asum g l)).
Proof.
  revert s; induction l as [|x l IH]; intros s; cbn [fold_left asum fold_right].
  - split; cbn; ring.
  - eapply eqv_trans; [apply IH|]. fold (asum g l). split; cbn; ring.
Qed.
Lemma fold_asum0 g l : eqv (fold_left (fun t a => aadd t (g a)) l (constant 0)) (asum g l).
Proof. eapply eqv_trans; [apply fold_asum|]. split; cbn; ring. Qed.

(** Folds over vectors of equations, at one entry. *)
Lemma fold_step (F : nat -> eqs -> eqs) (g : nat -> ad) j l : (forall a v, In a l -> eqv (F a v j) (aadd (v j) (g a))) ->
  forall v, eqv (fold_left (fun v a => F a v) l v j) (aadd (v j) (asum g l)).
Proof.
  induction l as [|x l IH]; intros H v; cbn [fold_left asum fold_right].
  - split; cbn; ring.
  - eapply eqv_trans; [apply IH; intros; apply H; now right|]. fold (asum g l).
    eapply eqv_trans; [apply eqv_add; [apply H; now left|apply eqv_refl]|]. split; cbn; ring.
Qed.
Lemma fold_skip (F : nat -> eqs -> eqs) j l : (forall a v, In a l -> F a v j = v j) ->
  forall v, fold_left (fun v a => F a v) l v j = v j.
Proof.
  induction l as [|x l IH]; intros H v; cbn [fold_left]; [reflexivity|].
  rewrite IH by (intros; apply H; now right). apply H; now left.
Qed.
Lemma addTo_same v i x : addTo v i x i = aadd (v i) x.
Proof. unfold addTo. now rewrite Nat.eqb_refl. Qed.
Lemma addTo_other v i x j : j <> i -> addTo v i x j = v j.
Proof. intros H. unfold addTo. apply Nat.eqb_neq in H. now rewrite H. Qed.
Lemma comps_entry n m (f : nat -> ad) v c : (c < m)%nat ->
  fold_left (fun v c => addTo v (n + c) (f c)) (seq 0 m) v (n + c)%nat = aadd (v (n + c)%nat) (f c).
Proof.
  intros H. revert v. assert (G : forall s, (s <= c < s + m)%nat -> forall v,
    fold_left (fun v c => addTo v (n + c) (f c)) (seq s m) v (n + c)%nat = aadd (v (n + c)%nat) (f c)).
  { clear H. induction m as [|m IH]; intros s R v; [lia|]. cbn [seq fold_left].
    destruct (Nat.eq_dec s c) as [->|N].
    - rewrite (fold_skip (fun c0 v => addTo v (n + c0) (f c0))).
      + apply addTo_same.
      + intros a w I. apply in_seq in I. apply addTo_other. lia.
    - rewrite IH by lia. rewrite addTo_other by lia. reflexivity. }
  apply G. lia.
Qed.
Lemma comps_other n m (f : nat -> ad) v j : ~ (n <= j < n + m)%nat ->
  fold_left (fun v c => addTo v (n + c) (f c)) (seq 0 m) v j = v j.
Proof.
  intros H. apply (fold_skip (fun c v => addTo v (n + c) (f c))). intros a w I. apply in_seq in I. apply addTo_other. lia.
Qed.

(* ----- storage ----- *)

Definition storeTerm (k : kind) (q : quants) (c a : nat) : ad :=
  match k with
  | PhaseMasses => if (a =? c)%nat then amul (amul (porosity q) (saturation q a)) (density q a) else constant 0
  | CompMoles => amul (amul (molarity q a c) (saturation q a)) (porosity q)
  | CompMasses => amul (amul (amul (massFraction q a c) (density q a)) (saturation q a)) (porosity q)
  end.
Definition energyTerm (q : quants) (a : nat) : ad :=
  amul (amul (amul (density q a) (internalEnergy q a)) (saturation q a)) (porosity q).

Lemma energyPhase_other l q a v j : l_energy l <> Some j -> energyPhaseStorage l q a v j = v j.
Proof. unfold energyPhaseStorage. destruct (l_energy l) as [e|]; intros H; [|reflexivity]. apply addTo_other. congruence. Qed.
Lemma energySolid_other l q v j : l_energy l <> Some j -> energySolidStorage l q v j = v j.
Proof. unfold energySolidStorage. destruct (l_energy l) as [e|]; intros H; [|reflexivity]. apply addTo_other. congruence. Qed.
Lemma fits_comp k phases l c : fits k phases l -> (c < l_comps l)%nat -> l_energy l <> Some (l_conti0 l + c)%nat.
Proof. intros (_ & F) L E. apply (F _ E). lia. Qed.

Lemma asum_delta (x : nat -> ad) c n : (c < n)%nat -> eqv (asum (fun a => if (a =? c)%nat then x a else constant 0) (seq 0 n)) (x c).
Proof.
  assert (Z : forall s m, ~ (s <= c < s + m)%nat -> eqv (asum (fun a => if (a =? c)%nat then x a else constant 0) (seq s m)) (constant 0)).
  { intros s m; revert s; induction m as [|m IH]; intros s R; [apply eqv_refl|]. cbn [seq asum fold_right].
    destruct (Nat.eqb_spec s c) as [->|N]; [lia|]. fold (asum (fun a => if (a =? c)%nat then x a else constant 0) (seq (S s) m)).
    eapply eqv_trans; [apply eqv_add; [apply eqv_refl|apply IH; lia]|]. split; cbn; ring. }
  assert (G : forall s m, (s <= c < s + m)%nat -> eqv (asum (fun a => if (a =? c)%nat then x a else constant 0) (seq s m)) (x c)).
  { intros s m; revert s; induction m as [|m IH]; intros s R; [lia|]. cbn [seq asum fold_right].
    fold (asum (fun a => if (a =? c)%nat then x a else constant 0) (seq (S s) m)).
    destruct (Nat.eqb_spec s c) as [->|N].
    - eapply eqv_trans; [apply eqv_add; [apply eqv_refl|apply Z; lia]|]. split; cbn; ring.
    - eapply eqv_trans; [apply eqv_add; [apply eqv_refl|apply IH; lia]|]. split; cbn; ring. }
  intros L. apply G. lia.
Qed.

Lemma storage_comp k phases l q c : fits k phases l -> (c < l_comps l)%nat ->
  eqv (computeStorage k phases l q (l_conti0 l + c)%nat) (asum (storeTerm k q c) (seq 0 phases)).
Proof.
  intros F L. unfold computeStorage. rewrite energySolid_other by (eapply fits_comp; eauto).
  destruct k.
  - (* assignments *)
    destruct F as (P & FE). specialize (P eq_refl). unfold storeTerm.
    eapply eqv_trans; [|apply eqv_sym, asum_delta; lia].
    assert (G : forall m s v, (s <= c < s + m)%nat ->
      fold_left (fun v a => phaseStorage PhaseMasses l q a v) (seq s m) v (l_conti0 l + c)%nat
      = amul (amul (porosity q) (saturation q c)) (density q c)).
    { induction m as [|m IH]; intros s v R; [lia|]. cbn [seq fold_left]. destruct (Nat.eq_dec s c) as [->|N].
      - rewrite (fold_skip (fun a v => phaseStorage PhaseMasses l q a v)).
        + unfold phaseStorage. rewrite energyPhase_other by (eapply (fits_comp PhaseMasses phases); eauto; split; auto).
          unfold assign. now rewrite Nat.eqb_refl.
        + intros a w I. apply in_seq in I. unfold phaseStorage.
          rewrite energyPhase_other by (eapply (fits_comp PhaseMasses phases); eauto; split; auto).
          unfold assign. destruct (Nat.eqb_spec (l_conti0 l + c) (l_conti0 l + a)); [lia|reflexivity].
      - apply IH. lia. }
    rewrite (G phases 0%nat) by lia. apply eqv_refl.
  - eapply eqv_trans; [apply (fold_step (fun a v => phaseStorage CompMoles l q a v) (storeTerm CompMoles q c))|split; cbn; ring].
    intros a v _. unfold phaseStorage. rewrite energyPhase_other by (eapply fits_comp; eauto).
    rewrite comps_entry by assumption. apply eqv_refl.
  - eapply eqv_trans; [apply (fold_step (fun a v => phaseStorage CompMasses l q a v) (storeTerm CompMasses q c))|split; cbn; ring].
    intros a v _. unfold phaseStorage. rewrite energyPhase_other by (eapply fits_comp; eauto).
    rewrite comps_entry by assumption. apply eqv_refl.
Qed.
Lemma phaseStorage_outside k phases l q a v j : fits k phases l -> (a < phases)%nat -> ~ (l_conti0 l <= j < l_conti0 l + l_comps l)%nat ->
  phaseStorage k l q a v j = energyPhaseStorage l q a v j.
Proof.
  intros (P & _) A R. unfold phaseStorage, energyPhaseStorage.
  assert (E : forall w, w j = v j -> match l_energy l with
     | Some e => addTo w e (amul (amul (amul (density q a) (internalEnergy q a)) (saturation q a)) (porosity q)) | None => w end j
     = match l_energy l with
     | Some e => addTo v e (amul (amul (amul (density q a) (internalEnergy q a)) (saturation q a)) (porosity q)) | None => v end j).
  { intros w W. destruct (l_energy l); [|exact W]. unfold addTo. rewrite W. reflexivity. }
  apply E. destruct k.
  - unfold assign. specialize (P eq_refl). destruct (Nat.eqb_spec j (l_conti0 l + a)); [lia|reflexivity].
  - now apply comps_other.
  - now apply comps_other.
Qed.
Lemma storage_energy k phases l q e : fits k phases l -> l_energy l = Some e ->
  eqv (computeStorage k phases l q e) (aadd (asum (energyTerm q) (seq 0 phases)) (solidEnergy q)).
Proof.
  intros F E. unfold computeStorage, energySolidStorage. rewrite E, addTo_same. apply eqv_add; [|apply eqv_refl].
  eapply eqv_trans; [apply (fold_step (fun a v => phaseStorage k l q a v) (energyTerm q))|split; cbn; ring].
  intros a v I. apply in_seq in I. rewrite (phaseStorage_outside k phases) by (auto; try lia; now apply (proj2 F)).
  unfold energyPhaseStorage. rewrite E, addTo_same. apply eqv_refl.
Qed.
Lemma storage_other k phases l q j : fits k phases l -> ~ (l_conti0 l <= j < l_conti0 l + l_comps l)%nat -> l_energy l <> Some j ->
  computeStorage k phases l q j = constant 0.
Proof.
  intros F R E. unfold computeStorage. rewrite energySolid_other by assumption.
  rewrite (fold_skip (fun a v => phaseStorage k l q a v)); [reflexivity|].
  intros a v I. apply in_seq in I. rewrite (phaseStorage_outside k phases) by (auto; lia). now apply energyPhase_other.
Qed.

(* ----- fluxes ----- *)

Definition keep (focus v : nat) (y : ad) : ad := if (v =? focus)%nat then y else dropped y.
Definition fluxTerm (k : kind) (focus : nat) (x : exts) (s : nat -> quants) (c a : nat) : ad :=
  let up := s (x_up x a) in
  match k with
  | PhaseMasses => if (a =? c)%nat then amul (x_flux x a) (keep focus (x_up x a) (density up a)) else constant 0
  | CompMoles => amul (amul (keep focus (x_up x a) (molarDensity up a)) (x_flux x a)) (keep focus (x_up x a) (moleFraction up a c))
  | CompMasses => amul (amul (keep focus (x_up x a) (density up a)) (x_flux x a)) (keep focus (x_up x a) (massFraction up a c))
  end.
Definition meanMolar (x : exts) (s : nat -> quants) (a : nat) : ad :=
  ascale (aadd (molarDensity (s (x_in x)) a) (dropped (molarDensity (s (x_ex x)) a))) (1 # 2).
Definition diffTerm (x : exts) (s : nat -> quants) (c a : nat) : ad :=
  amul (amul (aopp (meanMolar x s a)) (x_gradX x a c)) (x_D x a c).
Definition enTerm (x : exts) (s : nat -> quants) (a : nat) : ad :=
  amul (amul (x_flux x a) (enthalpy (s (x_up x a)) a)) (density (s (x_up x a)) a).
Definition diffuses (k : kind) (diffusion : bool) : bool := match k with PhaseMasses => false | _ => diffusion end.

Lemma energyAdv_other l phases x s v j : l_energy l <> Some j -> energyAdvective l phases x s v j = v j.
Proof.
  unfold energyAdvective. destruct (l_energy l) as [e|]; intros H; [|reflexivity].
  apply (fold_skip (fun a v => addTo v e (amul (amul (x_flux x a) (enthalpy (s (x_up x a)) a)) (density (s (x_up x a)) a)))).
  intros a w _. apply addTo_other. congruence.
Qed.
Lemma energyCond_other l x v j : l_energy l <> Some j -> energyConductive l x v j = v j.
Proof. unfold energyConductive. destruct (l_energy l) as [e|]; intros H; [|reflexivity]. apply addTo_other. congruence. Qed.
Lemma phaseAdv_comp k phases l focus x s a v c : fits k phases l -> (a < phases)%nat -> (c < l_comps l)%nat ->
  eqv (phaseAdvective k l focus x s a v (l_conti0 l + c)%nat) (aadd (v (l_conti0 l + c)%nat) (fluxTerm k focus x s c a)).
Proof.
  intros F A L. unfold phaseAdvective, fluxTerm, keep. destruct k; cbv zeta.
  - unfold addTo. destruct (Nat.eqb_spec a c) as [->|N].
    + rewrite Nat.eqb_refl. apply eqv_refl.
    + destruct (Nat.eqb_spec (l_conti0 l + c) (l_conti0 l + a)); [lia|]. split; cbn; ring.
  - rewrite comps_entry by assumption. apply eqv_refl.
  - rewrite comps_entry by assumption. apply eqv_refl.
Qed.
Lemma phaseAdv_other k phases l focus x s a v j : fits k phases l -> (a < phases)%nat ->
  ~ (l_conti0 l <= j < l_conti0 l + l_comps l)%nat -> phaseAdvective k l focus x s a v j = v j.
Proof.
  intros (P & _) A R. unfold phaseAdvective. destruct k; cbv zeta.
  - specialize (P eq_refl). apply addTo_other. lia.
  - now apply comps_other.
  - now apply comps_other.
Qed.
Lemma diffusive_comp en l phases x s v c : (c < l_comps l)%nat ->
  eqv (diffusive en l phases x s v (l_conti0 l + c)%nat)
      (aadd (v (l_conti0 l + c)%nat) (if en then asum (diffTerm x s c) (seq 0 phases) else constant 0)).
Proof.
  intros L. unfold diffusive. destruct en; [|split; cbn; ring].
  apply (fold_step (fun a v => fold_left (fun v c => addTo v (l_conti0 l + c)
           (amul (amul (aopp (meanMolar x s a)) (x_gradX x a c)) (x_D x a c))) (seq 0 (l_comps l)) v) (diffTerm x s c)).
  intros a w _. rewrite comps_entry by assumption. apply eqv_refl.
Qed.
Lemma diffusive_other en l phases x s v j : ~ (l_conti0 l <= j < l_conti0 l + l_comps l)%nat ->
  diffusive en l phases x s v j = v j.
Proof.
  intros R. unfold diffusive. destruct en; [|reflexivity].
  apply (fold_skip (fun a v => fold_left (fun v c => addTo v (l_conti0 l + c)
           (amul (amul (aopp (meanMolar x s a)) (x_gradX x a c)) (x_D x a c))) (seq 0 (l_comps l)) v)).
  intros a w _. now apply comps_other.
Qed.
Lemma flux_comp k diffusion l phases focus x s c : fits k phases l -> (c < l_comps l)%nat ->
  eqv (computeFlux k diffusion l phases focus x s (l_conti0 l + c)%nat)
      (aadd (asum (fluxTerm k focus x s c) (seq 0 phases))
            (if diffuses k diffusion then asum (diffTerm x s c) (seq 0 phases) else constant 0)).
Proof.
  intros F L. unfold computeFlux. cbv zeta. rewrite energyCond_other by (eapply fits_comp; eauto).
  fold (diffuses k diffusion). eapply eqv_trans; [now apply diffusive_comp|]. apply eqv_add; [|apply eqv_refl].
  unfold advective. rewrite energyAdv_other by (eapply fits_comp; eauto).
  eapply eqv_trans; [apply (fold_step (fun a v => phaseAdvective k l focus x s a v) (fluxTerm k focus x s c))|split; cbn; ring].
  intros a v I. apply in_seq in I. apply (phaseAdv_comp k phases); auto. lia.
Qed.
Lemma flux_energy k diffusion l phases focus x s e : fits k phases l -> l_energy l = Some e ->
  eqv (computeFlux k diffusion l phases focus x s e)
      (aadd (asum (enTerm x s) (seq 0 phases)) (amul (aopp (x_gradT x)) (x_lambda x))).
Proof.
  intros F E. assert (R : ~ (l_conti0 l <= e < l_conti0 l + l_comps l)%nat) by now apply (proj2 F).
  unfold computeFlux. cbv zeta. unfold energyConductive. rewrite E, addTo_same. apply eqv_add; [|apply eqv_refl].
  rewrite diffusive_other by assumption. unfold advective, energyAdvective. rewrite E.
  eapply eqv_trans; [apply (fold_step (fun a v => addTo v e (enTerm x s a)) (enTerm x s))|].
  - intros a v _. rewrite addTo_same. apply eqv_refl.
  - rewrite (fold_skip (fun a v => phaseAdvective k l focus x s a v)); [split; cbn; ring|].
    intros a v I. apply in_seq in I. apply (phaseAdv_other k phases); auto. lia.
Qed.
Lemma flux_other k diffusion l phases focus x s j : fits k phases l -> ~ (l_conti0 l <= j < l_conti0 l + l_comps l)%nat ->
  l_energy l <> Some j -> computeFlux k diffusion l phases focus x s j = constant 0.
Proof.
  intros F R E. unfold computeFlux. cbv zeta. rewrite energyCond_other, diffusive_other by assumption.
  unfold advective. rewrite energyAdv_other by assumption.
  rewrite (fold_skip (fun a v => phaseAdvective k l focus x s a v)); [reflexivity|].
  intros a v I. apply in_seq in I. apply (phaseAdv_other k phases); auto. lia.
Qed.

(* ----- values of gradients and volume fluxes ----- *)

Lemma normal_val p g : val (normalPart p g) == sumOver (fun k => val (g k) * pl_normal p k) (seq 0 (pl_dim p)).
Proof.
  unfold normalPart.
  rewrite (proj1 (fold_asum0 (fun k => ascale (g k) (pl_normal p k)) _)), asum_val. reflexivity.
Qed.
Lemma grad_val p focus focus' y k : val (calculateGradient p focus y k) == val (calculateGradient p focus' y k).
Proof.
  unfold calculateGradient. destruct (pl_shapes p) as [[n G]|].
  - rewrite (proj1 (fold_asum0 (fun v => ascale (if (focus =? v)%nat then y v else dropped (y v)) (G v k)) _)).
    rewrite (proj1 (fold_asum0 (fun v => ascale (if (focus' =? v)%nat then y v else dropped (y v)) (G v k)) _)).
    rewrite !asum_val. apply sumOver_ext. intros v _. destruct (focus =? v)%nat, (focus' =? v)%nat; reflexivity.
  - cbn [ascale val]. destruct (pl_in p =? focus)%nat, (pl_ex p =? focus)%nat, (pl_in p =? focus')%nat, (pl_ex p =? focus')%nat; reflexivity.
Qed.
Lemma pot_val p focus focus' s a k : val (adPotentialGrad p focus s a k) == val (adPotentialGrad p focus' s a k).
Proof.
  unfold adPotentialGrad. destruct (pl_gravity p) as [g|]; [|apply grad_val].
  cbn [aadd ascale asub aopp val]. rewrite (grad_val p focus focus').
  destruct (pl_in p =? focus)%nat, (pl_ex p =? focus)%nat, (pl_in p =? focus')%nat, (pl_ex p =? focus')%nat; reflexivity.
Qed.
Lemma driving_val p focus s a : val (normalPart p (adPotentialGrad p focus s a)) == driving p s a.
Proof. unfold driving. rewrite !normal_val. apply sumOver_ext. intros k _. now rewrite (pot_val p focus 0). Qed.
Lemma upstream_driving p focus s a : upstream p focus s a = if Qltb 0 (driving p s a) then pl_ex p else pl_in p.
Proof. unfold upstream. now rewrite (qltb_eq 0 _ 0 _ (Qeq_refl 0) (driving_val p focus s a)). Qed.
Lemma keep_val focus v y : val (keep focus v y) = val y.
Proof. unfold keep. now destruct (v =? focus)%nat. Qed.

Lemma grad_value p focus (y : nat -> ad) k : val (calculateGradient p focus y k) ==
  match pl_shapes p with
  | None => let d := fromTo (pl_pos p (pl_in p)) (pl_pos p (pl_ex p)) in
      (val (y (pl_ex p)) - val (y (pl_in p))) * (d k / inner (pl_dim p) d d)
  | Some (n, G) => sumOver (fun v => val (y v) * G v k) (seq 0 n) end.
Proof.
  unfold calculateGradient. destruct (pl_shapes p) as [[n G]|].
  - rewrite (proj1 (fold_asum0 (fun v => ascale (if (focus =? v)%nat then y v else dropped (y v)) (G v k)) _)).
    rewrite asum_val. apply sumOver_ext. intros v _. destruct (focus =? v)%nat; reflexivity.
  - cbn [ascale val]. rewrite (fold_inner (pl_dim p) (fromTo (pl_pos p (pl_in p)) (pl_pos p (pl_ex p))) (fromTo (pl_pos p (pl_in p)) (pl_pos p (pl_ex p)))).
    destruct (pl_in p =? focus)%nat, (pl_ex p =? focus)%nat; reflexivity.
Qed.
Lemma pot_value p focus s a k : val (adPotentialGrad p focus s a k) ==
  match pl_shapes p with
  | None => let d := fromTo (pl_pos p (pl_in p)) (pl_pos p (pl_ex p)) in
      (val (pressure (s (pl_ex p)) a) - val (pressure (s (pl_in p)) a)) * (d k / inner (pl_dim p) d d)
  | Some (n, G) => sumOver (fun v => val (pressure (s v) a) * G v k) (seq 0 n) end
  + (match pl_gravity p with
     | Some g => val (density (s (pl_ex p)) a) * inner (pl_dim p) (g (pl_ex p)) (fromTo (pl_pos p (pl_ex p)) (pl_ipos p)) | None => 0 end
     - match pl_gravity p with
     | Some g => val (density (s (pl_in p)) a) * inner (pl_dim p) (g (pl_in p)) (fromTo (pl_pos p (pl_in p)) (pl_ipos p)) | None => 0 end)
    * (fromTo (pl_pos p (pl_in p)) (pl_pos p (pl_ex p)) k
       / inner (pl_dim p) (fromTo (pl_pos p (pl_in p)) (pl_pos p (pl_ex p))) (fromTo (pl_pos p (pl_in p)) (pl_pos p (pl_ex p)))).
Proof.
  pose proof (grad_value p focus (fun v => pressure (s v) a) k) as G.
  unfold adPotentialGrad. destruct (pl_gravity p) as [g|].
  - cbn [aadd val ascale asub aopp]. rewrite G. apply Qplus_comp; [reflexivity|].
    unfold norm2. rewrite !dot_inner.
    change (vminus (pl_pos p (pl_ex p)) (pl_pos p (pl_in p))) with (fromTo (pl_pos p (pl_in p)) (pl_pos p (pl_ex p))).
    assert (V : forall v, inner (pl_dim p) (g v) (vminus (pl_pos p v) (pl_ipos p)) == - inner (pl_dim p) (g v) (fromTo (pl_pos p v) (pl_ipos p))).
    { intros v. unfold inner. setoid_replace (- sumOver (fun k0 => g v k0 * fromTo (pl_pos p v) (pl_ipos p) k0) (seq 0 (pl_dim p)))
        with (sumOver (fun k0 => g v k0 * fromTo (pl_pos p v) (pl_ipos p) k0) (seq 0 (pl_dim p)) * (-1)) by ring.
      rewrite <- sumOver_scale. apply sumOver_ext. intros k0 _. unfold vminus, fromTo. ring. }
    rewrite !V.
    destruct (pl_in p =? focus)%nat, (pl_ex p =? focus)%nat; cbn [dropped constant val]; unfold Qdiv; ring.
  - rewrite G. destruct (pl_shapes p) as [[n H]|]; cbv zeta; ring.
Qed.
Lemma inner_times n (d m : vec) q : inner n (fun k => d k * q) m == inner n d m * q.
Proof. unfold inner. rewrite <- sumOver_scale. apply sumOver_ext. intros k _. ring. Qed.

Lemma volume_val p focus s a :
  val (volumeFlux p focus s a) ==
  - val (mobility (s (upstream p focus s a)) a)
  * bilinear (pl_dim p) (pl_normal p) (pl_K p) (fun k => val (adPotentialGrad p focus s a k)).
Proof.
  unfold volumeFlux. rewrite normal_val. unfold bilinear. rewrite Qmult_comm, <- sumOver_scale. apply sumOver_ext. intros r _.
  cbn [amul val]. rewrite (proj1 (fold_asum0 (fun k => ascale (adPotentialGrad p focus s a k) (pl_K p r k)) _)), asum_val.
  cbn [ascale val aopp]. unfold upMobility. fold (keep focus (upstream p focus s a) (mobility (s (upstream p focus s a)) a)).
  rewrite keep_val. unfold inner. rewrite (sumOver_ext (fun k => pl_K p r k * val (adPotentialGrad p focus s a k))
    (fun a0 => val (adPotentialGrad p focus s a a0) * pl_K p r a0)) by (intros; ring). ring.
Qed.
Lemma volume_focus p focus focus' s a : val (volumeFlux p focus s a) == val (volumeFlux p focus' s a).
Proof.
  rewrite !volume_val, !upstream_driving. apply Qmult_comp; [reflexivity|]. unfold bilinear. apply sumOver_ext. intros r _.
  apply Qmult_comp; [reflexivity|]. apply inner_ext. intros k _. now rewrite (pot_val p focus focus').
Qed.

(* ----- the other side of a face ----- *)

Lemma grad_swapped p f y k : val (calculateGradient (swapped p) f y k) == val (calculateGradient p f y k).
Proof.
  unfold calculateGradient, swapped. cbn [pl_shapes pl_in pl_ex pl_pos pl_dim].
  destruct (pl_shapes p) as [[n G]|]; [reflexivity|]. cbn [ascale val].
  set (i := pl_in p). set (j := pl_ex p).
  assert (E : fold_left (fun t k => t + (pl_pos p i k - pl_pos p j k) * (pl_pos p i k - pl_pos p j k)) (seq 0 (pl_dim p)) 0
     == fold_left (fun t k => t + (pl_pos p j k - pl_pos p i k) * (pl_pos p j k - pl_pos p i k)) (seq 0 (pl_dim p)) 0).
  { rewrite (fold_inner (pl_dim p) (fun k => pl_pos p i k - pl_pos p j k) (fun k => pl_pos p i k - pl_pos p j k)).
    rewrite (fold_inner (pl_dim p) (fun k => pl_pos p j k - pl_pos p i k) (fun k => pl_pos p j k - pl_pos p i k)).
    apply inner_ext. intros; ring. }
  rewrite E. unfold Qdiv.
  destruct (j =? f)%nat, (i =? f)%nat; cbn [asub dropped constant val]; ring.
Qed.
Lemma pot_swapped p f s a k : val (adPotentialGrad (swapped p) f s a k) == val (adPotentialGrad p f s a k).
Proof.
  unfold adPotentialGrad. change (pl_gravity (swapped p)) with (pl_gravity p).
  destruct (pl_gravity p) as [g|]; [|apply grad_swapped].
  cbn [aadd val]. rewrite grad_swapped. cbn [pl_in pl_ex pl_pos pl_dim pl_ipos swapped].
  set (i := pl_in p). set (j := pl_ex p).
  assert (E : norm2 (pl_dim p) (vminus (pl_pos p i) (pl_pos p j)) == norm2 (pl_dim p) (vminus (pl_pos p j) (pl_pos p i))).
  { unfold norm2. rewrite !dot_inner. apply inner_ext. intros. unfold vminus. ring. }
  cbn [ascale asub aopp val]. rewrite E.
  change (vminus (pl_pos p i) (pl_pos p j) k) with (pl_pos p i k - pl_pos p j k).
  change (vminus (pl_pos p j) (pl_pos p i) k) with (pl_pos p j k - pl_pos p i k).
  destruct (j =? f)%nat, (i =? f)%nat; cbn [dropped constant val]; ring.
Qed.
Lemma normal_swapped p g g' : (forall k, val (g k) == val (g' k)) -> val (normalPart (swapped p) g) == - val (normalPart p g').
Proof.
  intros E. rewrite !normal_val. cbn [swapped pl_normal pl_dim].
  rewrite (sumOver_ext _ (fun k => (val (g' k) * pl_normal p k) * (-1))), sumOver_scale; [ring|].
  intros k _. rewrite E. unfold opposite. ring.
Qed.
Lemma driving_swapped p s a : driving (swapped p) s a == - driving p s a.
Proof. unfold driving. apply normal_swapped. intros k. apply pot_swapped. Qed.
Lemma upstream_swapped p f f' s a : ~ driving p s a == 0 -> upstream (swapped p) f s a = upstream p f' s a.
Proof.
  intros N. rewrite !upstream_driving, (qltb_eq 0 _ 0 _ (Qeq_refl 0) (driving_swapped p s a)).
  cbn [swapped pl_in pl_ex]. destruct (Qltb 0 (driving p s a)) eqn:E.
  - apply Qltb_lt in E. assert (E2 : Qltb 0 (- driving p s a) = false) by (apply Qltb_ge; lra). now rewrite E2.
  - apply Qltb_ge in E. assert (E2 : Qltb 0 (- driving p s a) = true).
    { apply Qltb_lt. destruct (Qlt_le_dec (driving p s a) 0); [lra|]. exfalso. apply N. lra. }
    now rewrite E2.
Qed.
Lemma volume_swapped p f f' s a : ~ driving p s a == 0 -> val (volumeFlux (swapped p) f s a) == - val (volumeFlux p f' s a).
Proof.
  intros N. rewrite !volume_val, (upstream_swapped p f f') by assumption. cbn [swapped pl_dim pl_normal pl_K].
  fold (swapped p). rewrite bilinear_opp.
  rewrite (bilinear_ext _ _ _ (pl_K p) _ (fun k => val (adPotentialGrad p f' s a k))).
  - ring.
  - reflexivity.
  - intros k. rewrite pot_swapped. apply pot_val.
Qed.
Lemma flux_swapped k diffusion l phases f f' p s j : fits k phases l -> (forall a, (a < phases)%nat -> ~ driving p s a == 0 \/
    val (volumeFlux p f' s a) == 0 /\ val (volumeFlux (swapped p) f s a) == 0) ->
  val (computeFlux k diffusion l phases f (extensive (swapped p) f s) s j)
  == - val (computeFlux k diffusion l phases f' (extensive p f' s) s j).
Proof.
  intros F N.
  assert (GX : forall y, val (normalPart (swapped p) (calculateGradient (swapped p) f y)) == - val (normalPart p (calculateGradient p f' y))).
  { intros y. apply normal_swapped. intros k0. rewrite grad_swapped. apply grad_val. }
  assert (U : forall a, (a < phases)%nat ->
     (x_up (extensive (swapped p) f s) a = x_up (extensive p f' s) a /\
      val (x_flux (extensive (swapped p) f s) a) == - val (x_flux (extensive p f' s) a))
     \/ (val (x_flux (extensive p f' s) a) == 0 /\ val (x_flux (extensive (swapped p) f s) a) == 0)).
  { intros a A. cbn [extensive x_up x_flux]. destruct (N a A) as [NA|ZA]; [left|right; exact ZA].
    split; [now apply upstream_swapped|now apply volume_swapped]. }
  assert (S1 : forall g g' : nat -> Q, (forall a, (a < phases)%nat -> g a == - g' a) ->
    sumOver g (seq 0 phases) == - sumOver g' (seq 0 phases)).
  { intros g g' H. rewrite (sumOver_ext g (fun a => g' a * (-1))), sumOver_scale; [ring|].
    intros a I. apply in_seq in I. rewrite H by lia. ring. }
  destruct (le_lt_dec (l_conti0 l) j) as [L|L]; [destruct (le_lt_dec (l_conti0 l + l_comps l) j) as [R|R]|].
  2: { (* a component *)
    replace j with (l_conti0 l + (j - l_conti0 l))%nat by lia. set (c := (j - l_conti0 l)%nat).
    assert (C : (c < l_comps l)%nat) by lia.
    rewrite (proj1 (flux_comp k diffusion l phases f _ s c F C)), (proj1 (flux_comp k diffusion l phases f' _ s c F C)).
    cbn [aadd val]. rewrite !asum_val.
    rewrite (S1 _ (fun a => val (fluxTerm k f' (extensive p f' s) s c a))).
    - assert (E : val (if diffuses k diffusion then asum (diffTerm (extensive (swapped p) f s) s c) (seq 0 phases) else constant 0)
         == - val (if diffuses k diffusion then asum (diffTerm (extensive p f' s) s c) (seq 0 phases) else constant 0)).
      { destruct (diffuses k diffusion); [|reflexivity]. rewrite !asum_val. apply S1. intros a A.
        unfold diffTerm, meanMolar. cbn [extensive x_in x_ex x_gradX x_D amul aopp ascale aadd dropped constant val].
        cbn [swapped pl_in pl_ex]. fold (swapped p). rewrite GX. ring. }
      rewrite E. ring.
    - intros a A. unfold fluxTerm. destruct (U a A) as [(E & V)|(V & V')]; [rewrite E|];
      (destruct k; [destruct (a =? c)%nat; [|reflexivity]| |]); cbn [amul val]; rewrite !keep_val, ?V, ?V'; ring. }
  all: assert (O : ~ (l_conti0 l <= j < l_conti0 l + l_comps l)%nat) by lia.
  all: destruct (l_energy l) as [e|] eqn:E; [destruct (Nat.eq_dec j e) as [->|NE]|].
  all: try (rewrite !flux_other by (auto; rewrite E; congruence); reflexivity).
  all: rewrite (proj1 (flux_energy k diffusion l phases f _ s e F E)), (proj1 (flux_energy k diffusion l phases f' _ s e F E));
    cbn [aadd val]; rewrite !asum_val; rewrite (S1 _ (fun a => val (enTerm (extensive p f' s) s a)));
    [cbn [extensive x_gradT x_lambda amul aopp ascale aadd val]; cbn [swapped pl_in pl_ex]; fold (swapped p); rewrite GX; ring
    |intros a A; unfold enTerm; destruct (U a A) as [(EU & V)|(V & V')]; [rewrite EU|]; cbn [amul val]; rewrite ?V, ?V'; ring].
Qed.
Lemma scalar_volume p f s a k : scalarMatrix (pl_dim p) k (pl_K p) ->
  val (volumeFlux p f s a) == - val (mobility (s (upstream p f s a)) a) * (k * driving p s a).
Proof.
  intros S0. rewrite volume_val, (bilinear_scalar _ k) by assumption. apply Qmult_comp; [reflexivity|]. apply Qmult_comp; [reflexivity|].
  rewrite <- (driving_val p f), normal_val. reflexivity.
Qed.
Lemma flux_swapped_scalar k diffusion l phases f f' p s j : fits k phases l ->
  (forall a, (a < phases)%nat -> ~ driving p s a == 0) \/ (exists kappa, scalarMatrix (pl_dim p) kappa (pl_K p)) ->
  val (computeFlux k diffusion l phases f (extensive (swapped p) f s) s j)
  == - val (computeFlux k diffusion l phases f' (extensive p f' s) s j).
Proof.
  intros F H. apply flux_swapped; [assumption|]. intros a A. destruct H as [H|(kappa & H)]; [left; now apply H|].
  destruct (Qeq_dec (driving p s a) 0) as [E|E]; [right|now left].
  rewrite (scalar_volume p f' s a kappa) by assumption. rewrite (scalar_volume (swapped p) f s a kappa) by exact H.
  rewrite driving_swapped, E. split; ring.
Qed.
Lemma flux_focus k diffusion l phases f f' p s j : fits k phases l ->
  val (computeFlux k diffusion l phases f (extensive p f s) s j) == val (computeFlux k diffusion l phases f' (extensive p f' s) s j).
Proof.
  intros F.
  assert (GX : forall y, val (normalPart p (calculateGradient p f y)) == val (normalPart p (calculateGradient p f' y))).
  { intros y. rewrite !normal_val. apply sumOver_ext. intros k0 _. now rewrite (grad_val p f f'). }
  assert (U : forall a, x_up (extensive p f s) a = x_up (extensive p f' s) a).
  { intros a. cbn [extensive x_up]. now rewrite !upstream_driving. }
  assert (V : forall a, val (x_flux (extensive p f s) a) == val (x_flux (extensive p f' s) a)).
  { intros a. cbn [extensive x_flux]. apply volume_focus. }
  destruct (le_lt_dec (l_conti0 l) j) as [L|L]; [destruct (le_lt_dec (l_conti0 l + l_comps l) j) as [R|R]|].
  2: { replace j with (l_conti0 l + (j - l_conti0 l))%nat by lia. set (c := (j - l_conti0 l)%nat).
    assert (C : (c < l_comps l)%nat) by lia.
    rewrite (proj1 (flux_comp k diffusion l phases f _ s c F C)), (proj1 (flux_comp k diffusion l phases f' _ s c F C)).
    cbn [aadd val]. rewrite !asum_val. apply Qplus_comp.
    - apply sumOver_ext. intros a _. unfold fluxTerm. rewrite (U a).
      destruct k; [destruct (a =? c)%nat; [|reflexivity]| |]; cbn [amul val]; rewrite !keep_val, (V a); ring.
    - destruct (diffuses k diffusion); [|reflexivity]. rewrite !asum_val. apply sumOver_ext. intros a _.
      unfold diffTerm, meanMolar. cbn [extensive x_in x_ex x_gradX x_D amul aopp ascale aadd dropped constant val].
      rewrite GX. ring. }
  all: assert (O : ~ (l_conti0 l <= j < l_conti0 l + l_comps l)%nat) by lia.
  all: destruct (l_energy l) as [e|] eqn:E; [destruct (Nat.eq_dec j e) as [->|NE]|].
  all: try (rewrite !flux_other by (auto; rewrite E; congruence); reflexivity).
  all: rewrite (proj1 (flux_energy k diffusion l phases f _ s e F E)), (proj1 (flux_energy k diffusion l phases f' _ s e F E));
    cbn [aadd val]; rewrite !asum_val; apply Qplus_comp;
    [apply sumOver_ext; intros a _; unfold enTerm; rewrite (U a); cbn [amul val]; rewrite (V a); ring
    |cbn [extensive x_gradT x_lambda amul aopp ascale aadd val]; rewrite GX; ring].
Qed.

(* ----- derivatives which are carried along ----- *)

(** The derivative which is carried along exceeds the derivative of the value by [e]. *)
Definition err (F : Q -> ad) (e : Q) : Prop := derivative (fun h => val (F h)) (der (F 0) - e).
Lemma err_ext F G e e' : (forall h, eqv (F h) (G h)) -> e == e' -> err F e -> err G e'.
Proof.
  intros E Ee H. apply (D_ext (fun h => val (F h)) _ (der (F 0) - e)); [intros h; apply E| |exact H].
  rewrite (proj2 (E 0)), Ee. reflexivity.
Qed.
Lemma err_eq F e e' : err F e -> e == e' -> err F e'.
Proof. intros H E. exact (err_ext F F e e' (fun h => eqv_refl (F h)) E H). Qed.
Lemma err_tracks F : tracks F <-> err F 0.
Proof.
  unfold tracks, err. split; intros H.
  - apply (D_ext (fun h => val (F h)) _ (der (F 0))); [reflexivity|ring|exact H].
  - apply (D_ext (fun h => val (F h)) _ (der (F 0) - 0)); [reflexivity|ring|exact H].
Qed.
Lemma err_local F G e d : 0 < d -> (forall h, Qabs h < d -> eqv (F h) (G h)) -> err F e -> err G e.
Proof.
  intros P E H. assert (E0 : eqv (F 0) (G 0)) by (apply E; cbn; lra).
  apply (D_local (fun h => val (F h)) _ _ d P); [intros h L; now apply E|].
  apply (D_ext (fun h => val (F h)) _ (der (F 0) - e)); [reflexivity| |exact H]. now rewrite (proj2 E0).
Qed.
Lemma err_const x : err (fun _ => x) (der x).
Proof. apply (D_ext (fun _ => val x) _ 0); [reflexivity|ring|]. now apply D_const. Qed.
Lemma err_add F G e f : err F e -> err G f -> err (fun h => aadd (F h) (G h)) (e + f).
Proof.
  intros A B. apply (D_ext (fun h => val (F h) + val (G h)) _ ((der (F 0) - e) + (der (G 0) - f))).
  - reflexivity.
  - cbn. ring.
  - now apply D_plus.
Qed.
Lemma err_scale F e q : err F e -> err (fun h => ascale (F h) q) (e * q).
Proof.
  intros A. apply (D_ext (fun h => q * val (F h)) _ (q * (der (F 0) - e))).
  - intros h. cbn. ring.
  - cbn. ring.
  - now apply D_scale.
Qed.
Lemma err_opp F e : err F e -> err (fun h => aopp (F h)) (- e).
Proof.
  intros A. apply (err_ext (fun h => ascale (F h) (-1)) _ (e * -1)); [intros h; split; cbn; ring|ring|]. now apply err_scale.
Qed.
Lemma err_sub F G e f : err F e -> err G f -> err (fun h => asub (F h) (G h)) (e - f).
Proof.
  intros A B. apply (err_ext (fun h => aadd (F h) (aopp (G h))) _ (e + - f)); [intros h; split; cbn; ring|ring|].
  apply err_add; [assumption|]. now apply err_opp.
Qed.
Lemma err_mul F G e f : err F e -> err G f -> err (fun h => amul (F h) (G h)) (e * val (G 0) + val (F 0) * f).
Proof.
  intros A B. pose proof (D_mult _ _ _ _ A B) as M.
  eapply D_ext; [intros h; reflexivity| |exact M]. cbn. ring.
Qed.
Lemma err_mul0 F G : err F 0 -> err G 0 -> err (fun h => amul (F h) (G h)) 0.
Proof. intros A B. eapply err_eq; [apply (err_mul _ _ _ _ A B)|]. ring. Qed.
Lemma err_sum (F : nat -> Q -> ad) (e : nat -> Q) l : (forall a, In a l -> err (F a) (e a)) ->
  err (fun h => asum (fun a => F a h) l) (sumOver e l).
Proof.
  induction l as [|x l IH]; intros H.
  - apply (err_const (constant 0)).
  - cbn [asum fold_right]. eapply err_eq; [apply err_add; [apply (H x); now left|apply IH; intros; apply H; now right]|].
    rewrite sumOver_cons. reflexivity.
Qed.
Lemma err_sum0 (F : nat -> Q -> ad) l : (forall a, In a l -> err (F a) 0) -> err (fun h => asum (fun a => F a h) l) 0.
Proof.
  intros H. eapply err_eq; [apply (err_sum F (fun _ => 0)); exact H|]. apply sumOver_zero.
Qed.

Section Varied.
  Variables (s : Q -> nat -> quants) (focus : nat).
  Hypothesis W : variation s focus.
  Variables (p : place).

  Lemma err_any (f : quants -> ad) v : tracks (fun h => f (s h focus)) ->
    err (fun h => f (s h v)) (der (f (s 0 v)) - own focus v (f (s 0 v))).
  Proof.
    intros T. unfold own. destruct (Nat.eqb_spec v focus) as [->|N].
    - apply (err_eq _ 0); [apply err_tracks; exact T|ring].
    - apply (err_ext (fun _ => f (s 0 v)) _ (der (f (s 0 v)))); [|ring|apply err_const].
      intros h. rewrite (v_others _ _ W h v N). apply eqv_refl.
  Qed.
  Lemma err_keep (f : quants -> ad) v : tracks (fun h => f (s h focus)) -> err (fun h => keep focus v (f (s h v))) 0.
  Proof.
    intros T. unfold keep. destruct (Nat.eqb_spec v focus) as [->|N].
    - apply err_tracks. exact T.
    - apply (err_ext (fun _ => dropped (f (s 0 v))) _ 0); [|reflexivity|apply (err_const (dropped (f (s 0 v))))].
      intros h. rewrite (v_others _ _ W h v N). apply eqv_refl.
  Qed.

  Hypothesis IJ : pl_shapes p = None -> pl_in p <> pl_ex p.
  Lemma grad_keep n y k : pl_shapes p = n -> eqv (calculateGradient p focus y k)
    match n with
    | None => ascale (asub (keep focus (pl_ex p) (y (pl_ex p))) (keep focus (pl_in p) (y (pl_in p))))
                ((pl_pos p (pl_ex p) k - pl_pos p (pl_in p) k)
                 / fold_left (fun s k => s + (pl_pos p (pl_ex p) k - pl_pos p (pl_in p) k) * (pl_pos p (pl_ex p) k - pl_pos p (pl_in p) k)) (seq 0 (pl_dim p)) 0)
    | Some (m, G) => asum (fun v => ascale (keep focus v (y v)) (G v k)) (seq 0 m)
    end.
  Proof.
    intros E. unfold calculateGradient. rewrite E. destruct n as [[m G]|].
    - eapply eqv_trans; [apply (fold_asum0 (fun v => ascale (if (focus =? v)%nat then y v else dropped (y v)) (G v k)))|].
      unfold keep. replace (fun v => ascale (if (focus =? v)%nat then y v else dropped (y v)) (G v k)) with
        (fun v => ascale (if (focus =? v)%nat then y v else dropped (y v)) (G v k)) by reflexivity.
      induction (seq 0 m) as [|v l IH]; [apply eqv_refl|]. cbn [asum fold_right]. apply eqv_add; [|exact IH].
      rewrite (Nat.eqb_sym focus v). apply eqv_refl.
    - pose proof (IJ E) as IJ2. unfold keep.
      destruct (Nat.eqb_spec (pl_in p) focus) as [A|A], (Nat.eqb_spec (pl_ex p) focus) as [B|B];
        [congruence| | |]; apply eqv_refl.
  Qed.
  Lemma err_grad (f : quants -> ad) k : tracks (fun h => f (s h focus)) ->
    err (fun h => calculateGradient p focus (fun v => f (s h v)) k) 0.
  Proof.
    intros T. assert (EN : exists n, pl_shapes p = n) by eauto. destruct EN as ([[m G]|] & E).
    - eapply err_ext; [intros h; apply eqv_sym, (grad_keep (Some (m, G))); assumption|reflexivity|]. cbv beta iota.
      apply (err_sum0 (fun v h => ascale (keep focus v (f (s h v))) (G v k))). intros v _.
      eapply err_eq; [apply err_scale, err_keep, T|]. ring.
    - eapply err_ext; [intros h; apply eqv_sym, (grad_keep None); assumption|reflexivity|]. cbv beta iota.
      eapply err_eq; [apply err_scale, err_sub; apply err_keep, T|]. ring.
  Qed.
  Lemma err_normal (g : Q -> nat -> ad) : (forall k, err (fun h => g h k) 0) -> err (fun h => normalPart p (g h)) 0.
  Proof.
    intros H. eapply err_ext; [intros h; apply eqv_sym, (fold_asum0 (fun k => ascale (g h k) (pl_normal p k)))|reflexivity|].
    apply (err_sum0 (fun k h => ascale (g h k) (pl_normal p k))). intros k _.
    eapply err_eq; [apply err_scale, H|]. ring.
  Qed.
  Lemma err_pot a k : err (fun h => adPotentialGrad p focus (s h) a k) 0.
  Proof.
    pose proof (err_grad (fun q => pressure q a) k (v_pressure _ _ W a)) as P.
    unfold adPotentialGrad. destruct (pl_gravity p) as [g|]; [|exact P]. cbv zeta.
    eapply err_eq; [apply err_add; [exact P|]|].
    1: { apply err_scale, err_scale, err_sub; apply err_scale, err_opp.
         - apply (err_keep (fun q => density q a) (pl_ex p)), (v_density _ _ W a).
         - apply (err_keep (fun q => density q a) (pl_in p)), (v_density _ _ W a). }
    ring.
  Qed.
  Lemma upstream_stays a : ~ driving p (s 0) a == 0 -> exists d, 0 < d /\
    forall h, Qabs h < d -> upstream p focus (s h) a = upstream p focus (s 0) a.
  Proof.
    intros N. pose proof (err_normal (fun h => adPotentialGrad p focus (s h) a) (err_pot a)) as P.
    destruct (D_sign _ _ P) as (d & Pd & B); [now rewrite driving_val|].
    exists d. split; [assumption|]. intros h L. unfold upstream. now rewrite (B h L).
  Qed.
  Lemma err_volume a : ~ driving p (s 0) a == 0 -> err (fun h => volumeFlux p focus (s h) a) 0.
  Proof.
    intros N. destruct (upstream_stays a N) as (d & Pd & U). set (up := upstream p focus (s 0) a) in *.
    apply (err_local (fun h => normalPart p (fun r =>
       amul (fold_left (fun t k => aadd t (ascale (adPotentialGrad p focus (s h) a k) (pl_K p r k))) (seq 0 (pl_dim p)) (constant 0))
            (aopp (keep focus up (mobility (s h up) a))))) _ _ d Pd).
    - intros h L. unfold volumeFlux, upMobility. rewrite (U h L). apply eqv_refl.
    - apply (err_normal (fun h r =>
       amul (fold_left (fun t k => aadd t (ascale (adPotentialGrad p focus (s h) a k) (pl_K p r k))) (seq 0 (pl_dim p)) (constant 0))
            (aopp (keep focus up (mobility (s h up) a))))). intros r. apply err_mul0.
      + eapply err_ext; [intros h; apply eqv_sym, (fold_asum0 (fun k => ascale (adPotentialGrad p focus (s h) a k) (pl_K p r k)))|reflexivity|].
        apply (err_sum0 (fun k h => ascale (adPotentialGrad p focus (s h) a k) (pl_K p r k))). intros k _.
        eapply err_eq; [apply err_scale, err_pot|]. ring.
      + eapply err_eq; [apply err_opp, (err_keep (fun q => mobility q a)), (v_mobility _ _ W)|]. ring.
  Qed.
  Lemma err_fluxTerm k c a : ~ driving p (s 0) a == 0 -> err (fun h => fluxTerm k focus (extensive p focus (s h)) (s h) c a) 0.
  Proof.
    intros N. destruct (upstream_stays a N) as (d & Pd & U). set (up := upstream p focus (s 0) a) in *.
    pose proof (err_volume a N) as V.
    apply (err_local (fun h =>
      match k with
      | PhaseMasses => if (a =? c)%nat then amul (volumeFlux p focus (s h) a) (keep focus up (density (s h up) a)) else constant 0
      | CompMoles => amul (amul (keep focus up (molarDensity (s h up) a)) (volumeFlux p focus (s h) a)) (keep focus up (moleFraction (s h up) a c))
      | CompMasses => amul (amul (keep focus up (density (s h up) a)) (volumeFlux p focus (s h) a)) (keep focus up (massFraction (s h up) a c))
      end) _ _ d Pd).
    - intros h L. unfold fluxTerm. cbn [extensive x_up x_flux]. rewrite (U h L). apply eqv_refl.
    - destruct k.
      + destruct (a =? c)%nat; [|apply (err_const (constant 0))].
        apply err_mul0; [exact V|]. apply (err_keep (fun q => density q a)), (v_density _ _ W).
      + apply err_mul0; [apply err_mul0; [|exact V]|].
        * apply (err_keep (fun q => molarDensity q a)), (v_molarDensity _ _ W).
        * apply (err_keep (fun q => moleFraction q a c)), (v_moleFraction _ _ W).
      + apply err_mul0; [apply err_mul0; [|exact V]|].
        * apply (err_keep (fun q => density q a)), (v_density _ _ W).
        * apply (err_keep (fun q => massFraction q a c)), (v_massFraction _ _ W).
  Qed.
  Definition surplus (f : quants -> ad) (v : nat) : Q := der (f (s 0 v)) - own focus v (f (s 0 v)).
  Lemma err_enTerm a : ~ driving p (s 0) a == 0 ->
    let up := upstream p focus (s 0) a in
    err (fun h => enTerm (extensive p focus (s h)) (s h) a)
      (val (volumeFlux p focus (s 0) a) *
       (surplus (fun q => enthalpy q a) up * val (density (s 0 up) a) + val (enthalpy (s 0 up) a) * surplus (fun q => density q a) up)).
  Proof.
    intros N up. destruct (upstream_stays a N) as (d & Pd & U). fold up in U.
    apply (err_local (fun h => amul (amul (volumeFlux p focus (s h) a) (enthalpy (s h up) a)) (density (s h up) a)) _ _ d Pd).
    - intros h L. unfold enTerm. cbn [extensive x_up x_flux]. rewrite (U h L). apply eqv_refl.
    - eapply err_eq; [apply err_mul; [apply err_mul; [apply err_volume; exact N|
        apply (err_any (fun q => enthalpy q a)), (v_enthalpy _ _ W)]|apply (err_any (fun q => density q a)), (v_density _ _ W)]|].
      unfold surplus. cbn [amul val]. ring.
  Qed.
  Lemma err_conduction :
    err (fun h => amul (aopp (x_gradT (extensive p focus (s h)))) (x_lambda (extensive p focus (s h))))
      (- val (x_gradT (extensive p focus (s 0))) * ((surplus conductivity (pl_in p) + surplus conductivity (pl_ex p)) * (1 # 2))).
  Proof.
    cbn [extensive x_gradT x_lambda].
    eapply err_eq; [apply err_mul; [apply err_opp, (err_normal (fun h => calculateGradient p focus (fun v => temperature (s h v))));
      intros k; apply err_grad, (v_temperature _ _ W)|apply err_scale, err_add; apply (err_any conductivity), (v_conductivity _ _ W)]|].
    unfold surplus. cbn [aopp val]. ring.
  Qed.
  Lemma err_diffTerm c a :
    err (fun h => diffTerm (extensive p focus (s h)) (s h) c a)
      (- ((der (molarDensity (s 0 (pl_in p)) a) - own focus (pl_in p) (molarDensity (s 0 (pl_in p)) a)
           - own focus (pl_ex p) (molarDensity (s 0 (pl_ex p)) a)) * (1 # 2))
         * val (x_gradX (extensive p focus (s 0)) a c) * val (x_D (extensive p focus (s 0)) a c)
       + - val (meanMolar (extensive p focus (s 0)) (s 0) a) * val (x_gradX (extensive p focus (s 0)) a c)
         * ((surplus (fun q => diffusivity q a c) (pl_in p) + surplus (fun q => diffusivity q a c) (pl_ex p)) * (1 # 2))).
  Proof.
    unfold diffTerm, meanMolar. cbn [extensive x_in x_ex x_gradX x_D].
    assert (DR : err (fun h => dropped (molarDensity (s h (pl_ex p)) a)) (- own focus (pl_ex p) (molarDensity (s 0 (pl_ex p)) a))).
    { pose proof (err_any (fun q => molarDensity q a) (pl_ex p) (v_molarDensity _ _ W a)) as E. unfold err in *. cbn [dropped constant val der].
      eapply D_ext; [intros h; reflexivity| |exact E]. ring. }
    pose proof (err_opp _ _ (err_scale _ _ (1 # 2) (err_add _ _ _ _
      (err_any (fun q => molarDensity q a) (pl_in p) (v_molarDensity _ _ W a)) DR))) as E1.
    pose proof (err_normal (fun h => calculateGradient p focus (fun v => moleFraction (s h v) a c))
      (fun k => err_grad (fun q => moleFraction q a c) k (v_moleFraction _ _ W a c))) as E2.
    pose proof (err_scale _ _ (1 # 2) (err_add _ _ _ _
      (err_any (fun q => diffusivity q a c) (pl_in p) (v_diffusivity _ _ W a c))
      (err_any (fun q => diffusivity q a c) (pl_ex p) (v_diffusivity _ _ W a c)))) as E3.
    pose proof (err_mul _ _ _ _ (err_mul _ _ _ _ E1 E2) E3) as E4. cbv beta in E4.
    eapply err_eq; [exact E4|].
    unfold surplus. cbn [amul aopp val]. ring.
  Qed.
  Lemma err_focus (f : quants -> ad) : tracks (fun h => f (s h focus)) -> err (fun h => f (s h focus)) 0.
  Proof. intros H. now apply err_tracks. Qed.
  Lemma err_storeTerm k c a v : v = focus -> err (fun h => storeTerm k (s h v) c a) 0.
  Proof.
    intros ->.
    pose proof (err_focus porosity (v_porosity _ _ W)) as P.
    pose proof (err_focus (fun q => saturation q a) (v_saturation _ _ W a)) as S0.
    pose proof (err_focus (fun q => density q a) (v_density _ _ W a)) as R.
    unfold storeTerm. destruct k.
    - destruct (a =? c)%nat; [|apply (err_const (constant 0))].
      exact (err_mul0 _ _ (err_mul0 _ _ P S0) R).
    - exact (err_mul0 _ _ (err_mul0 _ _ (err_focus (fun q => molarity q a c) (v_molarity _ _ W a c)) S0) P).
    - exact (err_mul0 _ _ (err_mul0 _ _ (err_mul0 _ _ (err_focus (fun q => massFraction q a c) (v_massFraction _ _ W a c)) R) S0) P).
  Qed.
  Lemma err_energyTerm a : err (fun h => energyTerm (s h focus) a) 0.
  Proof.
    exact (err_mul0 _ _ (err_mul0 _ _ (err_mul0 _ _ (err_focus (fun q => density q a) (v_density _ _ W a))
      (err_focus (fun q => internalEnergy q a) (v_internalEnergy _ _ W a)))
      (err_focus (fun q => saturation q a) (v_saturation _ _ W a))) (err_focus porosity (v_porosity _ _ W))).
  Qed.
  Lemma err_storage k phases l j : fits k phases l -> err (fun h => computeStorage k phases l (s h focus) j) 0.
  Proof.
    intros F.
    destruct (le_lt_dec (l_conti0 l) j) as [L|L]; [destruct (le_lt_dec (l_conti0 l + l_comps l) j) as [R|R]|].
    2: { replace j with (l_conti0 l + (j - l_conti0 l))%nat by lia. set (c := (j - l_conti0 l)%nat).
      assert (C : (c < l_comps l)%nat) by lia.
      eapply err_ext; [intros h; apply eqv_sym, storage_comp; assumption|reflexivity|].
      apply (err_sum0 (fun a h => storeTerm k (s h focus) c a)). intros a _. now apply err_storeTerm. }
    all: assert (O : ~ (l_conti0 l <= j < l_conti0 l + l_comps l)%nat) by lia.
    all: destruct (l_energy l) as [e|] eqn:E; [destruct (Nat.eq_dec j e) as [->|NE]|].
    all: try (eapply err_ext; [intros h; rewrite (storage_other k phases l (s h focus) j) by (auto; rewrite E; congruence); apply eqv_refl
      |reflexivity|apply (err_const (constant 0))]).
    all: pose proof (err_add _ _ _ _ (err_sum0 (fun a h => energyTerm (s h focus) a) (seq 0 phases) (fun a _ => err_energyTerm a))
      (err_focus solidEnergy (v_solidEnergy _ _ W))) as EE; cbv beta in EE;
      eapply err_ext; [intros h; apply eqv_sym, storage_energy; eassumption| |exact EE]; ring.
  Qed.
End Varied.

Lemma D_of_constant f a : derivative f a -> (forall h, f h == f 0) -> a == 0.
Proof.
  intros D C. destruct (Qeq_dec a 0) as [E|N]; [assumption|exfalso].
  assert (PA : 0 < Qabs a).
  { pose proof (Qabs_nonneg a). destruct (Qlt_le_dec a 0) as [L|L].
    - rewrite Qabs_neg by lra. lra.
    - rewrite Qabs_pos by lra. lra. }
  destruct (D (Qabs a / 2)) as (d & Pd & B); [apply Qlt_shift_div_l; lra|].
  specialize (B (d / 2)). assert (E : Qabs (d / 2) == d / 2) by (apply Qabs_pos, Qle_shift_div_l; lra).
  rewrite E in B. assert (L : d / 2 < d) by (apply Qlt_shift_div_r; lra). specialize (B L).
  rewrite C in B. setoid_replace (f 0 - f 0 - a * (d / 2)) with (- (a * (d / 2))) in B by ring.
  rewrite Qabs_opp, Qabs_Qmult, E in B.
  assert (Ph : 0 < d / 2) by (apply Qlt_shift_div_l; lra).
  setoid_replace (Qabs a / 2 * (d / 2)) with (Qabs a * (d / 2) * (1 # 2)) in B by field.
  assert (0 < Qabs a * (d / 2)) by (apply Qmult_lt_0_compat; assumption). lra.
Qed.

(* ----- fractures ----- *)

Definition fracTerm (f : quants) (a : nat) : ad := amul (amul (porosity f) (saturation f a)) (density f a).
Lemma fracPhase_comp l phases q fr a v c : fits PhaseMasses phases l -> (a < phases)%nat -> (c < phases)%nat ->
  eqv (fracturePhaseStorage l q fr a v (l_conti0 l + c)%nat)
    (aadd (v (l_conti0 l + c)%nat)
       (if (a =? c)%nat then
          match fr with None => fracTerm q a | Some (f, part) => aadd (ascale (fracTerm q a) (1 - part)) (ascale (fracTerm f a) part) end
        else constant 0)).
Proof.
  intros F A C. assert (C' : (c < l_comps l)%nat) by (rewrite (proj1 F eq_refl); assumption).
  assert (M : phaseStorage PhaseMasses l q a zeros (l_conti0 l + c)%nat = if (a =? c)%nat then fracTerm q a else constant 0).
  { unfold phaseStorage. rewrite energyPhase_other by (eapply fits_comp; eauto). unfold assign.
    destruct (Nat.eqb_spec a c) as [->|N]; [now rewrite Nat.eqb_refl|].
    destruct (Nat.eqb_spec (l_conti0 l + c) (l_conti0 l + a)); [lia|reflexivity]. }
  unfold fracturePhaseStorage. cbv zeta. destruct fr as [[f part]|]; [|rewrite M; apply eqv_refl].
  apply eqv_add; [apply eqv_refl|].
  assert (E : forall w : eqs, match l_energy l with
     | Some e => addTo w e (ascale (amul (amul (amul (density f a) (internalEnergy f a)) (saturation f a)) (porosity f)) part)
     | None => w end (l_conti0 l + c)%nat = w (l_conti0 l + c)%nat).
  { intros w. pose proof (fits_comp _ _ _ _ F C') as NE. destruct (l_energy l) as [e|]; [|reflexivity]. apply addTo_other. congruence. }
  rewrite E. unfold addTo. rewrite M. destruct (Nat.eqb_spec a c) as [->|N].
  - rewrite Nat.eqb_refl. apply eqv_refl.
  - destruct (Nat.eqb_spec (l_conti0 l + c) (l_conti0 l + a)); [lia|]. split; cbn; ring.
Qed.
Lemma fracPhase_energy l phases q fr a v e : fits PhaseMasses phases l -> (a < phases)%nat -> l_energy l = Some e ->
  eqv (fracturePhaseStorage l q fr a v e)
    (aadd (v e) match fr with None => energyTerm q a | Some (f, part) => aadd (ascale (energyTerm q a) (1 - part)) (ascale (energyTerm f a) part) end).
Proof.
  intros F A E. pose proof (proj2 F e E) as R. pose proof (proj1 F eq_refl) as P.
  assert (M : eqv (phaseStorage PhaseMasses l q a zeros e) (energyTerm q a)).
  { rewrite (phaseStorage_outside PhaseMasses phases) by auto. unfold energyPhaseStorage. rewrite E, addTo_same. split; cbn; ring. }
  unfold fracturePhaseStorage. cbv zeta. destruct fr as [[f part]|]; [|apply eqv_add; [apply eqv_refl|exact M]].
  apply eqv_add; [apply eqv_refl|]. rewrite E, addTo_same. apply eqv_add; [|apply eqv_refl].
  rewrite addTo_other by lia. destruct M as (M1 & M2). split; cbn [ascale val der]; [rewrite M1|rewrite M2]; reflexivity.
Qed.
Lemma in_seq0 a n : In a (seq 0 n) -> (a < n)%nat.
Proof. intros I. apply in_seq in I. lia. Qed.
Lemma tracks_affine (F : Q -> ad) : (forall h, val (F h) == val (F 0) + der (F 0) * h) -> tracks F.
Proof.
  intros H eps P. exists 1. split; [lra|]. intros h _. rewrite H.
  setoid_replace (val (F 0) + der (F 0) * h - val (F 0) - der (F 0) * h) with 0 by ring. cbn.
  apply Qmult_le_0_compat; [lra|apply Qabs_nonneg].
Qed.
