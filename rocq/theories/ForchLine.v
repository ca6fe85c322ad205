(** The iteration in one dimension. *)
From Coq Require Import Reals Lra Lia Psatz List.
From Verif Require Import ForchModel ForchSpec ForchProofs.
Local Open Scope R_scope.

Definition lineF (b c x : R) : R := x + b + c * Rabs x * x.
Definition lineH (x : R) : R := Rmax tol (x * (1 + tol)).
Definition lineG (b c x : R) : R := (lineF b c (x + lineH x) - lineF b c x) / lineH x.
Definition lineD (b c x : R) : R := lineF b c x / lineG b c x.

Fixpoint lineLoop (b c : R) (k : nat) (x dn : R) : option R :=
  if Rle_dec dn tol then Some x
  else match k with
       | O => None
       | S k' => lineLoop b c k' (x - lineD b c x) (Rabs (lineD b c x))
       end.

Lemma lineLoop_S : forall b c k x dn, lineLoop b c (S k) x dn =
  if Rle_dec dn tol then Some x else lineLoop b c k (x - lineD b c x) (Rabs (lineD b c x)).
Proof. reflexivity. Qed.

Lemma lineH_pos : forall x, 0 < lineH x.
Proof. intros. unfold lineH. pose proof tol_pos. pose proof (Rmax_l tol (x * (1 + tol))). lra. Qed.

Lemma square_abs_mono : forall x h, 0 <= h -> 0 <= Rabs (x + h) * (x + h) - Rabs x * x.
Proof.
  intros x h H. unfold Rabs. destruct (Rcase_abs (x + h)), (Rcase_abs x); nra.
Qed.

Lemma lineG_ge : forall b c x, 0 <= c -> 1 <= lineG b c x.
Proof.
  intros b c x C. pose proof (lineH_pos x) as H. set (h := lineH x) in *. unfold lineG. fold h. unfold lineF.
  apply Rmult_le_reg_r with h; [exact H|]. unfold Rdiv. rewrite Rmult_assoc, Rinv_l, Rmult_1_r, Rmult_1_l by lra.
  pose proof (square_abs_mono x h ltac:(lra)). nra.
Qed.

Lemma norm_line : forall v, norm 1 v = Rabs (v 0%nat).
Proof.
  intros. unfold norm. cbn [sum]. rewrite Rplus_0_l, <- Rsqr_pow2. apply sqrt_Rsqr_abs.
Qed.

Definition lineB (p : point) : R := p_mob p * p_K p 0%nat * p_grad p 0%nat.
Definition lineC (p : point) : R := turb p * sqrt (p_K p 0%nat).

Lemma line_resid : forall p v, resid 1 p v 0%nat = lineF (lineB p) (lineC p) (v 0%nat).
Proof. intros. rewrite resid_eq, norm_line. unfold lineF, lineB, lineC. ring. Qed.

Lemma line_grad : forall p v, gradResid 1 p v 0%nat 0%nat = lineG (lineB p) (lineC p) (v 0%nat).
Proof.
  intros. unfold gradResid. rewrite !line_resid. unfold bump, coordEps. cbn [Nat.eqb]. reflexivity.
Qed.

Lemma lineC_nonneg : forall p, physical 1 p -> 0 <= lineC p.
Proof. intros p H. unfold lineC. apply Rmult_le_pos; [apply (turb_nonneg 1 p H)|apply sqrt_pos]. Qed.

Lemma line_loop : forall solve p k v dn, physical 1 p -> solverSound 1 solve -> solverComplete 1 solve ->
  match newtonLoop solve 1 p k v dn with
  | Done u => lineLoop (lineB p) (lineC p) k (v 0%nat) dn = Some (u 0%nat)
  | NoConvergence => lineLoop (lineB p) (lineC p) k (v 0%nat) dn = None
  | Singular => False
  end.
Proof.
  intros solve p k. induction k as [|k IH]; intros v dn PH SS SC; cbn [newtonLoop lineLoop].
  - destruct (Rle_dec dn tol); reflexivity.
  - destruct (Rle_dec dn tol); [reflexivity|].
    pose proof (lineC_nonneg p PH) as CN. pose proof (lineG_ge (lineB p) (lineC p) (v 0%nat) CN) as G.
    destruct (SC (gradResid 1 p v) (resid 1 p v)) as (d & E).
    { exists (fun _ _ => / lineG (lineB p) (lineC p) (v 0%nat)). intros i j li lj.
      assert (i = 0%nat) by lia. assert (j = 0%nat) by lia. subst. cbn [sum Nat.eqb]. rewrite line_grad. field. lra. }
    rewrite E. pose proof (SS _ _ _ E 0%nat ltac:(lia)) as Q. cbn [sum] in Q. rewrite line_grad, line_resid, Rplus_0_l in Q.
    assert (D : d 0%nat = lineD (lineB p) (lineC p) (v 0%nat)).
    { unfold lineD. rewrite <- Q. field. lra. }
    assert (O : oneNorm 1 d = Rabs (lineD (lineB p) (lineC p) (v 0%nat))).
    { unfold oneNorm. cbn [sum]. rewrite D. lra. }
    rewrite O. specialize (IH (fun i => v i - d i) (Rabs (lineD (lineB p) (lineC p) (v 0%nat))) PH SS SC).
    cbv beta in IH. rewrite D in IH. exact IH.
Qed.

(** A gap that shrinks by a factor in every iteration. *)
Lemma loop_contracts : forall b c (P : R -> Prop) (gap : R -> R) q,
  0 <= q ->
  (forall x, P x -> gap x <= tol -> Rabs (lineD b c x) <= tol) ->
  (forall x, P x -> Rabs (lineD b c x) <= tol \/ (P (x - lineD b c x) /\ gap (x - lineD b c x) <= q * gap x)) ->
  forall j k x dn, (j < k)%nat -> P x -> gap x * q ^ j <= tol -> lineLoop b c k x dn <> None.
Proof.
  intros b c P gap q Q A B.
  assert (ONE : forall k x dn, (0 < k)%nat -> Rabs (lineD b c x) <= tol -> lineLoop b c k x dn <> None).
  { intros k x dn l H. destruct k as [|k]; [lia|]. cbn [lineLoop]. destruct (Rle_dec dn tol); [discriminate|].
    destruct k; cbn [lineLoop]; destruct (Rle_dec (Rabs (lineD b c x)) tol); try contradiction; discriminate. }
  induction j as [|j IH]; intros k x dn l H G.
  - apply ONE; [lia|]. apply A; [exact H|]. rewrite pow_O, Rmult_1_r in G. exact G.
  - destruct (B x H) as [Z | (H' & G')]; [apply ONE; [lia|exact Z]|].
    destruct k as [|k]; [lia|]. cbn [lineLoop]. destruct (Rle_dec dn tol); [discriminate|].
    apply IH; [lia|exact H'|]. eapply Rle_trans; [|exact G].
    rewrite <- tech_pow_Rmult. rewrite <- Rmult_assoc, (Rmult_comm (gap x) q). apply Rmult_le_compat_r; [apply pow_le; exact Q|exact G'].
Qed.

(* ----- flow in the positive direction ----- *)

Section Positive.
Variables d c root : R.
Hypothesis C : 0 <= c.
Hypothesis RP : 0 <= root.
Hypothesis RE : root * (1 + c * root) = d.

Lemma posF : forall x, 0 <= x -> lineF (- d) c x = (x - root) * (1 + c * (x + root)).
Proof. intros x H. unfold lineF. rewrite Rabs_pos_eq by exact H. rewrite <- RE. ring. Qed.

Lemma posG : forall x, 0 <= x -> lineG (- d) c x = 1 + c * (2 * x + lineH x).
Proof.
  intros x H. pose proof (lineH_pos x) as HP. unfold lineG, lineF. rewrite !Rabs_pos_eq by lra. field. lra.
Qed.

Lemma posG_pos : forall x, 0 <= x -> 0 < 1 + c * (2 * x + lineH x).
Proof. intros x H. pose proof (lineH_pos x). nra. Qed.

Lemma posNext : forall x, 0 <= x ->
  (x - lineD (- d) c x - root) * (1 + c * (2 * x + lineH x)) = (x - root) * (c * (x + lineH x - root)).
Proof.
  intros x H. pose proof (posG_pos x H). unfold lineD. rewrite posF, posG by exact H. field. lra.
Qed.

Lemma posD : forall x, 0 <= x -> lineD (- d) c x * (1 + c * (2 * x + lineH x)) = (x - root) * (1 + c * (x + root)).
Proof. intros x H. pose proof (posG_pos x H). unfold lineD. rewrite posF, posG by exact H. field. lra. Qed.

Lemma lineH_ge : forall x, 0 <= x -> x <= lineH x /\ tol <= lineH x /\ (lineH x = tol \/ lineH x = x * (1 + tol)).
Proof.
  intros x H. unfold lineH. pose proof tol_pos. pose proof (Rmax_l tol (x * (1 + tol))). pose proof (Rmax_r tol (x * (1 + tol))).
  split; [nra|]. split; [assumption|]. unfold Rmax. destruct (Rle_dec tol (x * (1 + tol))); [right|left]; reflexivity.
Qed.

(** Beyond the root the update does not overshoot. *)
Lemma posStep : forall x, root <= x ->
  0 <= lineD (- d) c x <= x - root /\ root <= x - lineD (- d) c x.
Proof.
  intros x H. assert (X : 0 <= x) by lra. pose proof (posG_pos x X) as G. pose proof (posD x X) as D. pose proof (posNext x X) as N.
  destruct (lineH_ge x X) as (H1 & _). pose proof (lineH_pos x) as HP.
  set (g := 1 + c * (2 * x + lineH x)) in *. set (D0 := lineD (- d) c x) in *.
  assert (A : 0 <= D0).
  { apply Rmult_le_reg_r with g; [exact G|]. rewrite Rmult_0_l, D. apply Rmult_le_pos; [lra|]. nra. }
  assert (B : 0 <= x - D0 - root).
  { apply Rmult_le_reg_r with g; [exact G|]. rewrite Rmult_0_l, N. apply Rmult_le_pos; [lra|]. apply Rmult_le_pos; lra. }
  lra.
Qed.

(** The gap to the root shrinks. *)
Lemma posShrink : forall x q, root <= x -> 0 <= q ->
  (forall y, root <= y <= x -> c * ((2 + tol) * y - root) <= q * (1 + (3 + tol) * (c * y))) ->
  Rabs (lineD (- d) c x) <= tol \/ x - lineD (- d) c x - root <= q * (x - root).
Proof.
  intros x q H Q Y. assert (X : 0 <= x) by lra. destruct (posStep x H) as (A & B).
  pose proof (posG_pos x X) as G. pose proof (posNext x X) as N. destruct (lineH_ge x X) as (_ & _ & [E | E]).
  - left. rewrite Rabs_pos_eq by lra. pose proof tol_pos.
    assert (x * (1 + tol) <= tol) by (rewrite <- E at 2; unfold lineH; apply Rmax_r). nra.
  - right. rewrite E in *. apply Rmult_le_reg_r with (1 + c * (2 * x + x * (1 + tol))); [exact G|]. rewrite N.
    replace (q * (x - root) * (1 + c * (2 * x + x * (1 + tol)))) with ((x - root) * (q * (1 + (3 + tol) * (c * x)))) by ring.
    apply Rmult_le_compat_l; [lra|]. eapply Rle_trans; [|apply Y; lra]. right. ring.
Qed.

(** After the first iteration. *)
Lemma posFirst : lineD (- d) c 0 = - d / (1 + c * tol).
Proof.
  unfold lineD. rewrite posG by lra. unfold lineF. rewrite Rabs_R0. unfold lineH.
  rewrite Rmult_0_l, Rmax_left by (pose proof tol_pos; lra). f_equal; ring.
Qed.

Lemma dpos : 0 <= d.
Proof. rewrite <- RE. assert (0 <= c * root) by (apply Rmult_le_pos; assumption). nra. Qed.

Lemma posSecond : root < tol -> Rabs (lineD (- d) c (d / (1 + c * tol))) <= tol.
Proof.
  intros L. pose proof tol_pos as T. pose proof dpos as DP.
  assert (CT : 0 < 1 + c * tol) by nra.
  set (x := d / (1 + c * tol)).
  assert (X : 0 <= x) by (apply Rmult_le_pos; [exact DP|left; apply Rinv_0_lt_compat; exact CT]).
  assert (XE : x * (1 + c * tol) = root * (1 + c * root)) by (unfold x; rewrite RE; field; lra).
  assert (XR : x <= root).
  { apply Rmult_le_reg_r with (1 + c * tol); [exact CT|]. rewrite XE. apply Rmult_le_compat_l; [exact RP|].
    assert (c * root <= c * tol) by (apply Rmult_le_compat_l; lra). lra. }
  pose proof (posD x X) as D. pose proof (posG_pos x X) as G. destruct (lineH_ge x X) as (_ & HT & _).
  set (g := 1 + c * (2 * x + lineH x)) in *. set (D0 := lineD (- d) c x) in *.
  assert (M : - (root - x) * g <= D0 * g).
  { rewrite D. unfold g. assert (c * (x + root) <= c * (2 * x + lineH x)) by (apply Rmult_le_compat_l; [exact C|lra]). nra. }
  assert (M2 : D0 * g <= 0 * g) by (rewrite D; assert (0 <= c * (x + root)) by (apply Rmult_le_pos; lra); nra).
  apply Rmult_le_reg_r in M; [|exact G]. apply Rmult_le_reg_r in M2; [|exact G].
  apply Rabs_le. lra.
Qed.

Lemma posConverges : forall q j dn,
  0 <= q -> (j < 49)%nat ->
  (forall y, root <= y <= d -> c * ((2 + tol) * y - root) <= q * (1 + (3 + tol) * (c * y))) ->
  d * q ^ j <= tol -> lineLoop (- d) c 50 0 dn <> None.
Proof.
  intros q j dn Q J Y B. pose proof tol_pos as T. pose proof dpos as DP.
  rewrite lineLoop_S. destruct (Rle_dec dn tol); [discriminate|]. rewrite posFirst.
  replace (0 - - d / (1 + c * tol)) with (d / (1 + c * tol)) by (unfold Rdiv; ring).
  set (x := d / (1 + c * tol)).
  assert (CT : 0 < 1 + c * tol) by nra.
  assert (XE : x * (1 + c * tol) = d) by (unfold x; field; lra).
  assert (X : 0 <= x) by (apply Rmult_le_pos; [exact DP|left; apply Rinv_0_lt_compat; exact CT]).
  assert (XD : x <= d) by (assert (0 <= x * (c * tol)) by (apply Rmult_le_pos; [exact X|apply Rmult_le_pos; lra]); lra).
  destruct (Rlt_le_dec root tol) as [S|S].
  - (* everything is tiny *)
    apply (loop_contracts (- d) c (fun y => y = x) (fun _ => 0) 0) with (j := 0%nat); [lra| | |lia|reflexivity|lra].
    + intros y -> _. apply posSecond. exact S.
    + intros y ->. left. apply posSecond. exact S.
  - apply (loop_contracts (- d) c (fun y => root <= y <= d) (fun y => y - root) q) with (j := j); [exact Q| | |exact J| |].
    + intros y H G. destruct (posStep y (proj1 H)) as (A & _). rewrite Rabs_pos_eq by lra. lra.
    + intros y H. destruct (posStep y (proj1 H)) as (A & A').
      destruct (posShrink y q (proj1 H) Q) as [Z|Z].
      * intros z Hz. apply Y. lra.
      * left. exact Z.
      * right. split; [lra|exact Z].
    + split; [|exact XD]. apply Rmult_le_reg_r with (1 + c * tol); [exact CT|]. rewrite XE, <- RE.
      apply Rmult_le_compat_l; [exact RP|]. assert (c * tol <= c * root) by (apply Rmult_le_compat_l; assumption). lra.
    + eapply Rle_trans; [|exact B]. apply Rmult_le_compat_r; [apply pow_le; exact Q|]. lra.
Qed.

End Positive.

(* ----- flow in the negative direction ----- *)

Section Negative.
Variables d c root : R.
Hypothesis C : 0 <= c.
Hypothesis RP : 0 <= root.
Hypothesis RE : root * (1 + c * root) = d.

(** The slope at the velocity -u. *)
Definition negG (u : R) : R :=
  if Rle_dec tol u then 1 + c * (2 * u - tol) else 1 + c * (tol - 2 * u + 2 * u * u / tol).

Lemma negH : forall u, 0 <= u -> lineH (- u) = tol.
Proof. intros u H. unfold lineH. pose proof tol_pos. apply Rmax_left. nra. Qed.

Lemma negF : forall u, 0 <= u -> lineF d c (- u) = - ((u - root) * (1 + c * (u + root))).
Proof. intros u H. unfold lineF. rewrite Rabs_Ropp, Rabs_pos_eq by exact H. rewrite <- RE. ring. Qed.

Lemma negG_eq : forall u, 0 <= u -> lineG d c (- u) = negG u.
Proof.
  intros u H. pose proof tol_pos as T. unfold lineG. rewrite negH by exact H. unfold lineF, negG.
  rewrite Rabs_Ropp, (Rabs_pos_eq u) by exact H. destruct (Rle_dec tol u) as [L|L].
  - rewrite Rabs_left1 by lra. field. lra.
  - rewrite Rabs_pos_eq by lra. field. lra.
Qed.

Lemma negG_pos : forall u, 0 <= u -> 1 <= negG u.
Proof. intros u H. rewrite <- negG_eq by exact H. apply lineG_ge. exact C. Qed.

Definition negD (u : R) : R := (u - root) * (1 + c * (u + root)) / negG u.

Lemma negD_eq : forall u, 0 <= u -> lineD d c (- u) = - negD u.
Proof. intros u H. unfold lineD, negD. rewrite negF, negG_eq by exact H. pose proof (negG_pos u H). field. lra. Qed.

Lemma negD_mul : forall u, 0 <= u -> negD u * negG u = (u - root) * (1 + c * (u + root)).
Proof. intros u H. unfold negD. pose proof (negG_pos u H). field. lra. Qed.

(** Close to the root the update is small. *)
Lemma negClose : forall u, 0 <= u -> root <= u -> u - root <= tol -> 0 <= negD u <= tol.
Proof.
  intros u H R L. pose proof tol_pos as T. pose proof (negG_pos u H) as G. pose proof (negD_mul u H) as D.
  assert (0 <= c * (u + root)) by (apply Rmult_le_pos; lra).
  split.
  - apply Rmult_le_reg_r with (negG u); [lra|]. rewrite D. nra.
  - apply Rmult_le_reg_r with (negG u); [lra|]. rewrite D. unfold negG. destruct (Rle_dec tol u) as [E|E].
    + assert (u * u - root * root <= tol * (2 * u - tol)) by nra.
      assert (c * (u * u - root * root) <= c * (tol * (2 * u - tol))) by (apply Rmult_le_compat_l; assumption). lra.
    + replace (tol * (1 + c * (tol - 2 * u + 2 * u * u / tol))) with (tol + c * (tol * tol - 2 * tol * u + 2 * (u * u))) by (field; lra).
      assert (u * u - root * root <= tol * tol - 2 * tol * u + 2 * (u * u)) by nra.
      assert (c * (u * u - root * root) <= c * (tol * tol - 2 * tol * u + 2 * (u * u))) by (apply Rmult_le_compat_l; assumption). lra.
Qed.

Lemma negNext : forall u, tol <= u ->
  (u - negD u - root) * (1 + c * (2 * u - tol)) = (u - root) * (c * (u - root - tol)).
Proof.
  intros u L. pose proof tol_pos as T. pose proof (negD_mul u ltac:(lra)) as D. unfold negG in D. destruct (Rle_dec tol u); [|contradiction].
  rewrite !Rmult_minus_distr_r, D. ring.
Qed.

Lemma negFar : forall u, root + tol <= u ->
  root <= u - negD u /\ u - negD u - root <= / 2 * (u - root) /\
  (u - negD u - root) * (2 * c * root) <= c * (u - root) * (u - root) /\ 0 <= negD u.
Proof.
  intros u L. pose proof tol_pos as T. pose proof (negNext u ltac:(lra)) as N.
  pose proof (negG_pos u ltac:(lra)) as G1. pose proof (negD_mul u ltac:(lra)) as DM.
  assert (0 <= c * (u + root)) by (apply Rmult_le_pos; lra).
  assert (D0 : 0 <= negD u) by (apply Rmult_le_reg_r with (negG u); [lra|]; rewrite DM; nra).
  assert (CU : 0 <= c * (u - tol - root)) by (apply Rmult_le_pos; lra).
  assert (G : 0 < 1 + c * (2 * u - tol)) by (assert (0 <= c * (2 * u - tol)) by (apply Rmult_le_pos; lra); lra).
  set (g := 1 + c * (2 * u - tol)) in *. set (y := u - negD u - root) in *.
  assert (A : 0 <= y).
  { apply Rmult_le_reg_r with g; [exact G|]. rewrite Rmult_0_l, N. apply Rmult_le_pos; [lra|]. replace (u - root - tol) with (u - tol - root) by ring. exact CU. }
  assert (B : y <= / 2 * (u - root)).
  { apply Rmult_le_reg_r with g; [exact G|]. rewrite N. replace (/ 2 * (u - root) * g) with ((u - root) * (/ 2 * g)) by ring. apply Rmult_le_compat_l; [lra|].
    unfold g. assert (0 <= c * (2 * root + tol)) by (apply Rmult_le_pos; lra). lra. }
  split; [unfold y in A; lra|]. split; [exact B|]. split; [|exact D0].
  apply Rle_trans with (y * g).
  - apply Rmult_le_compat_l; [exact A|]. unfold g. assert (c * (2 * root) <= c * (2 * u - tol)) by (apply Rmult_le_compat_l; [exact C|lra]). lra.
  - rewrite N. assert (c * (u - root - tol) <= c * (u - root)) by (apply Rmult_le_compat_l; lra).
    replace (c * (u - root) * (u - root)) with ((u - root) * (c * (u - root))) by ring. apply Rmult_le_compat_l; lra.
Qed.

Lemma negFirst : lineD d c 0 = d / (1 + c * tol).
Proof.
  pose proof tol_pos. rewrite <- Ropp_0, negD_eq by lra. unfold negD, negG. destruct (Rle_dec tol 0); [lra|].
  rewrite <- RE. assert (0 < 1 + c * tol) by nra. replace (1 + c * (tol - 2 * 0 + 2 * 0 * 0 / tol)) with (1 + c * tol) by (field; lra). field. lra.
Qed.

Lemma dneg : 0 <= d.
Proof. rewrite <- RE. assert (0 <= c * root) by (apply Rmult_le_pos; assumption). nra. Qed.

Lemma negSecond : root < tol -> Rabs (negD (d / (1 + c * tol))) <= tol.
Proof.
  intros L. pose proof tol_pos as T. pose proof dneg as DP.
  assert (CT : 0 < 1 + c * tol) by nra.
  set (u := d / (1 + c * tol)).
  assert (U : 0 <= u) by (apply Rmult_le_pos; [exact DP|left; apply Rinv_0_lt_compat; exact CT]).
  assert (UE : u * (1 + c * tol) = root * (1 + c * root)) by (unfold u; rewrite RE; field; lra).
  assert (UR : u <= root).
  { apply Rmult_le_reg_r with (1 + c * tol); [exact CT|]. rewrite UE. apply Rmult_le_compat_l; [exact RP|].
    assert (c * root <= c * tol) by (apply Rmult_le_compat_l; lra). lra. }
  pose proof (negD_mul u U) as D. pose proof (negG_pos u U) as G1.
  assert (GP : 1 + c * tol / 2 <= negG u).
  { unfold negG. destruct (Rle_dec tol u); [lra|].
    assert (tol / 2 <= tol - 2 * u + 2 * u * u / tol).
    { apply Rmult_le_reg_r with tol; [exact T|]. replace ((tol - 2 * u + 2 * u * u / tol) * tol) with (tol * tol - 2 * u * tol + 2 * u * u) by (field; lra).
      pose proof (pow2_ge_0 (tol - 2 * u)). nra. }
    assert (c * (tol / 2) <= c * (tol - 2 * u + 2 * u * u / tol)) by (apply Rmult_le_compat_l; assumption). lra. }
  (* how far u is below the root *)
  assert (GAP : (root - u) * (1 + c * tol) = root * (c * (tol - root))) by (rewrite Rmult_minus_distr_r, UE; ring).
  assert (Q : root * (c * (tol - root)) <= c * (tol * tol / 4)).
  { rewrite <- Rmult_assoc, (Rmult_comm root c), Rmult_assoc. apply Rmult_le_compat_l; [exact C|]. pose proof (pow2_ge_0 (tol - 2 * root)). nra. }
  assert (W : (root - u) * (1 + c * (u + root)) <= c * tol * tol / 2).
  { apply Rle_trans with ((root - u) * (2 * (1 + c * tol))).
    - apply Rmult_le_compat_l; [lra|]. assert (c * (u + root) <= c * (2 * tol)) by (apply Rmult_le_compat_l; lra). lra.
    - lra. }
  apply Rabs_le. split.
  - apply Rmult_le_reg_r with (negG u); [lra|]. rewrite D.
    assert (0 <= c * tol) by (apply Rmult_le_pos; lra). nra.
  - apply Rmult_le_reg_r with (negG u); [lra|]. rewrite D. assert (0 <= c * (u + root)) by (apply Rmult_le_pos; lra). nra.
Qed.

Lemma negUnfold : forall k u dn, 0 <= u ->
  lineLoop d c (S k) (- u) dn = if Rle_dec dn tol then Some (- u) else lineLoop d c k (- (u - negD u)) (Rabs (negD u)).
Proof.
  intros k u dn H. cbn [lineLoop]. destruct (Rle_dec dn tol); [reflexivity|]. rewrite negD_eq by exact H.
  rewrite Rabs_Ropp. f_equal. ring.
Qed.

(** The loop from a velocity beyond the root: halving, then squaring. *)
Lemma negConverges : forall j k u dn, (j < k)%nat -> root <= u -> (u - root) * (/ 2) ^ j <= tol ->
  lineLoop d c k (- u) dn <> None.
Proof.
  intros j k u dn l H G.
  replace u with (- - u) in H, G by ring.
  refine (loop_contracts d c (fun x => root <= - x) (fun x => - x - root) (/ 2) ltac:(lra) _ _ j k (- u) dn l H G).
  - intros x P Q. replace x with (- - x) by ring. rewrite negD_eq, Rabs_Ropp by lra.
    destruct (negClose (- x) ltac:(lra) P Q). rewrite Rabs_pos_eq by lra. lra.
  - intros x P. replace x with (- - x) by ring. rewrite negD_eq, Rabs_Ropp by lra. rewrite Ropp_involutive.
    destruct (Rle_lt_dec (root + tol) (- x)) as [F|F].
    + right. destruct (negFar (- x) F) as (A & B & _). lra.
    + left. destruct (negClose (- x) ltac:(lra) P ltac:(lra)). rewrite Rabs_pos_eq by lra. lra.
Qed.

Lemma negStart : forall dn, tol < dn ->
  lineLoop d c 50 0 dn = lineLoop d c 49 (- (d / (1 + c * tol))) (Rabs (d / (1 + c * tol))).
Proof.
  intros dn L. rewrite lineLoop_S. destruct (Rle_dec dn tol); [lra|]. rewrite negFirst. f_equal. ring.
Qed.

Lemma negFirst_bounds : tol <= root -> root <= d / (1 + c * tol) <= d.
Proof.
  intros S. pose proof tol_pos as T. pose proof dneg as DP. assert (CT : 0 < 1 + c * tol) by nra.
  set (u := d / (1 + c * tol)).
  assert (UE : u * (1 + c * tol) = d) by (unfold u; field; lra).
  assert (U : 0 <= u) by (apply Rmult_le_pos; [exact DP|left; apply Rinv_0_lt_compat; exact CT]).
  split.
  - apply Rmult_le_reg_r with (1 + c * tol); [exact CT|]. rewrite UE, <- RE.
    apply Rmult_le_compat_l; [exact RP|]. assert (c * tol <= c * root) by (apply Rmult_le_compat_l; assumption). lra.
  - assert (0 <= u * (c * tol)) by (apply Rmult_le_pos; [|apply Rmult_le_pos]; lra). lra.
Qed.

Lemma negAll : forall j dn, (j < 49)%nat -> d * (/ 2) ^ j <= tol -> lineLoop d c 50 0 dn <> None.
Proof.
  intros j dn J B. pose proof tol_pos as T. pose proof dneg as DP.
  destruct (Rle_dec dn tol) as [L|L]; [rewrite lineLoop_S; destruct (Rle_dec dn tol); [discriminate|contradiction]|].
  rewrite negStart by lra. assert (CT : 0 < 1 + c * tol) by nra.
  destruct (Rlt_le_dec root tol) as [S|S].
  - pose proof (negSecond S) as Q. set (u := d / (1 + c * tol)) in *.
    assert (U : 0 <= u) by (apply Rmult_le_pos; [exact DP|left; apply Rinv_0_lt_compat; exact CT]).
    rewrite negUnfold by exact U. destruct (Rle_dec (Rabs u) tol); [discriminate|].
    rewrite lineLoop_S. destruct (Rle_dec (Rabs (negD u)) tol); [discriminate|contradiction].
  - destruct (negFirst_bounds S) as (A & A'). apply negConverges with (j := j); [exact J|exact A|].
    eapply Rle_trans; [|exact B]. apply Rmult_le_compat_r; [apply pow_le; lra|]. lra.
Qed.

End Negative.
