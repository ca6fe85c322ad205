From Verif Require Export BoExtModel BoExtSpec BoExtProofs.
From Verif Require Import LocResProofs.
From Coq Require Import Lia Lqa Qfield.

(* ----- derivatives of quotients ----- *)
Lemma D_dominated f g C d : 0 < d -> 0 < C -> (forall h, Qabs h < d -> Qabs (f h) <= C * Qabs (g h)) ->
  g 0 == 0 -> derivative g 0 -> derivative f 0.
Proof.
  intros Pd PC B G0 G eps P. destruct (G (eps / C)) as (d1 & D1 & B1); [apply Qlt_shift_div_l; lra|].
  exists (Qmin d d1). split; [now apply Q.min_glb_lt|]. intros h L.
  assert (L1 : Qabs h < d) by (eapply Qlt_le_trans; [exact L|apply Q.le_min_l]).
  assert (L2 : Qabs h < d1) by (eapply Qlt_le_trans; [exact L|apply Q.le_min_r]).
  specialize (B1 h L2). rewrite G0 in B1. setoid_replace (g h - 0 - 0 * h) with (g h) in B1 by ring.
  assert (F0 : f 0 == 0).
  { pose proof (B 0 ltac:(cbn; lra)) as K. rewrite G0 in K. cbn [Qabs] in K. change (Qabs 0) with 0 in K.
    setoid_replace (C * 0) with 0 in K by ring. pose proof (Qabs_nonneg (f 0)). destruct (Qlt_le_dec (f 0) 0).
    - rewrite Qabs_neg in K by lra. lra.
    - rewrite Qabs_pos in K by lra. lra. }
  rewrite F0. setoid_replace (f h - 0 - 0 * h) with (f h) by ring.
  eapply Qle_trans; [exact (B h L1)|]. setoid_replace (eps * Qabs h) with (C * (eps / C * Qabs h)) by (field; lra).
  apply Qmult_le_l; lra.
Qed.
Lemma D_away g b : derivative g b -> ~ g 0 == 0 -> exists d, 0 < d /\ forall h, Qabs h < d -> Qabs (g 0) * (1 # 2) <= Qabs (g h).
Proof.
  intros G N. destruct (D_lipschitz _ _ G) as (d & Pd & B). pose proof (Qabs_nonneg b) as Nb.
  assert (PA : 0 < Qabs (g 0)).
  { destruct (Qlt_le_dec (g 0) 0) as [L|L]; [rewrite Qabs_neg by lra; lra|]. rewrite Qabs_pos by lra.
    destruct (Qeq_dec (g 0) 0) as [E|E]; [contradiction|lra]. }
  exists (Qmin d (Qabs (g 0) * (1 # 2) / (Qabs b + 1))). split.
  - apply Q.min_glb_lt; [assumption|]. apply Qlt_shift_div_l; lra.
  - intros h L.
    assert (L1 : Qabs h < d) by (eapply Qlt_le_trans; [exact L|apply Q.le_min_l]).
    assert (L2 : Qabs h < Qabs (g 0) * (1 # 2) / (Qabs b + 1)) by (eapply Qlt_le_trans; [exact L|apply Q.le_min_r]).
    specialize (B h L1).
    assert (M : (Qabs b + 1) * Qabs h <= Qabs (g 0) * (1 # 2)).
    { setoid_replace (Qabs (g 0) * (1 # 2)) with ((Qabs b + 1) * (Qabs (g 0) * (1 # 2) / (Qabs b + 1))) by (field; lra). apply Qmult_le_l; lra. }
    pose proof (Qabs_triangle (g h) (g 0 - g h)) as T. setoid_replace (g h + (g 0 - g h)) with (g 0) in T by ring.
    rewrite (Qabs_Qminus (g 0) (g h)) in T. lra.
Qed.
Lemma D_inv g b : derivative g b -> ~ g 0 == 0 -> derivative (fun h => / g h) (- b / (g 0 * g 0)).
Proof.
  intros G N. destruct (D_away _ _ G N) as (d & Pd & A).
  assert (PA : 0 < Qabs (g 0)).
  { destruct (Qlt_le_dec (g 0) 0) as [L|L]; [rewrite Qabs_neg by lra; lra|]. rewrite Qabs_pos by lra.
    destruct (Qeq_dec (g 0) 0) as [E|E]; [contradiction|lra]. }
  set (r := fun h => / g h - (2 * g 0 - g h) / (g 0 * g 0)).
  assert (R : derivative r 0).
  { apply (D_dominated r (fun h => (g h - g 0) * (g h - g 0)) (2 / (Qabs (g 0) * Qabs (g 0) * Qabs (g 0))) d Pd).
    - apply Qlt_shift_div_l; [|rewrite Qmult_0_l; lra]. apply Qmult_lt_0_compat; [apply Qmult_lt_0_compat|]; exact PA.
    - intros h L. specialize (A h L).
      assert (NH : ~ g h == 0). { intros E. rewrite E in A. change (Qabs 0) with 0 in A. lra. }
      unfold r. setoid_replace (/ g h - (2 * g 0 - g h) / (g 0 * g 0)) with ((g h - g 0) * (g h - g 0) * / (g h * (g 0 * g 0))) by (field; auto).
      rewrite Qabs_Qmult. rewrite (Qmult_comm (Qabs ((g h - g 0) * (g h - g 0)))). apply Qmult_le_compat_r; [|apply Qabs_nonneg].
      assert (I : Qabs (/ (g h * (g 0 * g 0))) == / (Qabs (g h) * (Qabs (g 0) * Qabs (g 0)))).
      { rewrite Qabs_Qinv, !Qabs_Qmult. reflexivity. }
      rewrite I. apply Qle_shift_div_l; [apply Qmult_lt_0_compat; [apply Qmult_lt_0_compat|]; exact PA|].
      setoid_replace (/ (Qabs (g h) * (Qabs (g 0) * Qabs (g 0))) * (Qabs (g 0) * Qabs (g 0) * Qabs (g 0)))
        with (Qabs (g 0) / Qabs (g h)) by (field; split; lra).
      apply Qle_shift_div_r; lra.
    - ring.
    - exact (D_small _ _ _ _ G G). }
  apply (D_ext (fun h => (2 / g 0 + - / (g 0 * g 0) * g h) + r h) _ ((0 + - / (g 0 * g 0) * b) + 0)).
  - intros h. unfold r. generalize (/ g h). intros q. field. exact N.
  - field. exact N.
  - apply D_plus; [|exact R]. apply D_plus; [now apply D_const|]. now apply D_scale.
Qed.

(* ----- evaluations which carry the right derivatives ----- *)
Lemma T_ext (f g : Q -> ad) : (forall h, f h = g h) -> tracks f -> tracks g.
Proof. intros E T. unfold tracks in *. rewrite <- (E 0). refine (D_ext _ _ _ _ _ (Qeq_refl _) T). intros h. now rewrite E. Qed.
Lemma T_const (f : Q -> ad) q : (forall h, f h = constant q) -> tracks f.
Proof. intros E. unfold tracks. rewrite E. apply D_const. intros h. now rewrite !E. Qed.
Lemma T_add f g : tracks f -> tracks g -> tracks (fun h => aadd (f h) (g h)).
Proof. intros F G. exact (D_plus _ _ _ _ F G). Qed.
Lemma T_scale f q : tracks f -> tracks (fun h => ascale (f h) q).
Proof. intros F. refine (D_ext _ _ _ _ _ _ (D_scale _ _ q F)); [intros h|]; cbn [ascale val der]; apply Qmult_comm. Qed.
Lemma T_sub f g : tracks f -> tracks g -> tracks (fun h => asub (f h) (g h)).
Proof.
  intros F G. refine (D_ext _ _ _ _ _ _ (D_plus _ _ _ _ F (D_scale _ _ (-1) G))); [intros h|]; cbn [asub val der]; ring.
Qed.
Lemma T_mul f g : tracks f -> tracks g -> tracks (fun h => amul (f h) (g h)).
Proof. intros F G. exact (D_mult _ _ _ _ F G). Qed.
Lemma T_opp f : tracks f -> tracks (fun h => aopp (f h)).
Proof. intros F. refine (D_ext _ _ _ _ _ _ (D_scale _ _ (-1) F)); [intros h|]; cbn [aopp val der]; ring. Qed.
Lemma T_div f g : tracks f -> tracks g -> ~ val (g 0) == 0 -> tracks (fun h => adiv (f h) (g h)).
Proof.
  intros F G N. refine (D_ext _ _ _ _ _ _ (D_mult _ _ _ _ F (D_inv _ _ G N))); [intros h; reflexivity|]. cbn [adiv der]. field. exact N.
Qed.
Lemma T_local (f g : Q -> ad) d : 0 < d -> (forall h, Qabs h < d -> f h = g h) -> tracks f -> tracks g.
Proof.
  intros P E T. assert (E0 : f 0 = g 0) by (apply E; exact P). unfold tracks in *. rewrite <- E0.
  refine (D_local _ _ _ d P _ T). intros h L. now rewrite (E h L).
Qed.
Lemma T_maxQ f q : tracks f -> ~ val (f 0) == q -> tracks (fun h => amaxQ (f h) q).
Proof.
  intros F N. assert (D : derivative (fun h => val (f h) + - q) (der (f 0) + 0)) by (apply D_plus; [exact F|now apply D_const]).
  destruct (D_sign _ _ D) as (d & Pd & B). { intros E. apply N. lra. }
  assert (X : forall h, Qltb (val (f h)) q = true \/ Qltb 0 (val (f h) + - q) = true \/ val (f h) == q).
  { intros h. destruct (Qltb (val (f h)) q) eqn:E1; [now left|]. apply Qltb_ge in E1. destruct (Qeq_dec (val (f h)) q); [now right; right|].
    right; left. apply Qltb_lt. lra. }
  destruct (Qltb (val (f 0)) q) eqn:E0.
  - apply Qltb_lt in E0.
    assert (S0 : derivative (fun h => q + - val (f h)) (0 + -1 * der (f 0))).
    { apply D_plus; [now apply D_const|]. refine (D_ext _ _ _ _ _ (Qeq_refl _) (D_scale _ _ (-1) F)). intros h. ring. }
    destruct (D_sign _ _ S0) as (d' & Pd' & B'); [lra|].
    apply (T_local (fun _ => constant q) _ d' Pd'); [|now apply T_const with q].
    intros h L. unfold amaxQ. specialize (B' h L). cbv beta in B'. rewrite (proj2 (Qltb_lt 0 (q + - val (f 0)))) in B' by lra. apply Qltb_lt in B'.
    now rewrite (proj2 (Qltb_lt (val (f h)) q)) by lra.
  - apply Qltb_ge in E0. apply (T_local f _ d Pd); [|exact F].
    intros h L. unfold amaxQ. specialize (B h L). cbv beta in B.
    assert (P0 : Qltb 0 (val (f 0) + - q) = true). { apply Qltb_lt. destruct (Qeq_dec (val (f 0)) q); [contradiction|lra]. }
    rewrite P0 in B. apply Qltb_lt in B. now rewrite (proj2 (Qltb_ge (val (f h)) q)) by lra.
Qed.
Lemma T_dropped f : (forall h, val (f h) == val (f 0)) -> tracks (fun h => dropped (f h)).
Proof. intros E. unfold tracks. cbn [dropped constant der val]. now apply D_const. Qed.
Lemma D_unique f a b : derivative f a -> derivative f b -> a == b.
Proof.
  intros A B. destruct (Qeq_dec a b) as [E|N]; [exact E|exfalso].
  assert (P : 0 < Qabs (a - b)).
  { pose proof (Qabs_nonneg (a - b)). destruct (Qeq_dec (Qabs (a - b)) 0) as [Z|Z]; [|lra]. exfalso. apply N.
    revert Z. apply Qabs_case; intros; lra. }
  destruct (A (Qabs (a - b) * (1 # 4)) ltac:(lra)) as (d1 & P1 & B1). destruct (B (Qabs (a - b) * (1 # 4)) ltac:(lra)) as (d2 & P2 & B2).
  set (h := Qmin d1 d2 * (1 # 2)). assert (PM : 0 < Qmin d1 d2) by now apply Q.min_glb_lt.
  pose proof (Q.le_min_l d1 d2). pose proof (Q.le_min_r d1 d2).
  assert (PH : 0 < h) by (unfold h; lra). assert (AH : Qabs h == h) by (apply Qabs_pos; lra).
  specialize (B1 h ltac:(rewrite AH; unfold h; lra)). specialize (B2 h ltac:(rewrite AH; unfold h; lra)). rewrite AH in B1, B2.
  set (x := f h - f 0 - a * h) in *. set (y := f h - f 0 - b * h) in *.
  assert (T : Qabs ((a - b) * h) <= Qabs y + Qabs x).
  { assert (E : (a - b) * h == y - x) by (unfold x, y; ring). rewrite E. unfold Qminus. eapply Qle_trans; [apply Qabs_triangle|]. rewrite Qabs_opp. apply Qle_refl. }
  rewrite Qabs_Qmult, AH in T. assert (0 < Qabs (a - b) * h) by now apply Qmult_lt_0_compat. lra.
Qed.
