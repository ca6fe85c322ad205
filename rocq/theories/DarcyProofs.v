From Verif Require Import DarcyModel DarcySpec ResidualProofs.

Lemma dot_inner n a b : dot n a b == inner n a b.
Proof. unfold dot, inner. rewrite fold_sum. ring. Qed.
Lemma fold_inner n a b : fold_left (fun s k => s + a k * b k) (seq 0 n) 0 == inner n a b.
Proof. apply dot_inner. Qed.
Lemma inner_ext n a b a' b' : (forall k, (k < n)%nat -> a k * b k == a' k * b' k) -> inner n a b == inner n a' b'.
Proof. intros H. apply sumOver_ext. intros k I. apply in_seq in I. apply H. lia. Qed.
Lemma inner_scale n a b a' b' c : (forall k, (k < n)%nat -> a k * b k == a' k * b' k * c) -> inner n a b == inner n a' b' * c.
Proof.
  intros H. unfold inner. rewrite <- sumOver_scale. apply sumOver_ext. intros k I. apply in_seq in I. apply H. lia.
Qed.
Lemma inner_plus n a b a1 b1 a2 b2 : (forall k, (k < n)%nat -> a k * b k == a1 k * b1 k + a2 k * b2 k) ->
  inner n a b == inner n a1 b1 + inner n a2 b2.
Proof.
  intros H. unfold inner. rewrite <- sumOver_plus. apply sumOver_ext. intros k I. apply in_seq in I. apply H. lia.
Qed.
Lemma inner_comm n a b : inner n a b == inner n b a.
Proof. apply inner_ext. intros; ring. Qed.
Lemma inner_opp_r n a b : inner n a (opposite b) == - inner n a b.
Proof. rewrite (inner_scale n a (opposite b) a b (-1)); [ring|]. intros k _. unfold opposite. ring. Qed.
Lemma inner_minus_r n a x y : inner n a (fromTo x y) == inner n a y - inner n a x.
Proof. unfold inner, fromTo. rewrite <- sumOver_minus. apply sumOver_ext. intros k _. ring. Qed.
Lemma inner_nonneg n a : 0 <= inner n a a.
Proof.
  unfold inner. induction (seq 0 n) as [|k l IH].
  - discriminate.
  - rewrite sumOver_cons. assert (0 <= a k * a k) by nra. lra.
Qed.

(** ** Gradients *)
Lemma gradient_eq dim x y p q k :
  gradient dim x y p q k == (q - p) * (fromTo x y k / inner dim (fromTo x y) (fromTo x y)).
Proof. unfold gradient. cbv zeta. rewrite (fold_inner dim (fun k => y k - x k) (fun k => y k - x k)). reflexivity. Qed.
Lemma boundaryGradient_eq dim x y p q k :
  boundaryGradient dim x y p q k == (q - p) * (fromTo x y k / inner dim (fromTo x y) (fromTo x y)).
Proof. exact (gradient_eq dim x y p q k). Qed.

Lemma gradient_along dim x y p q : ~ inner dim (fromTo x y) (fromTo x y) == 0 ->
  inner dim (gradient dim x y p q) (fromTo x y) == q - p.
Proof.
  intros N. rewrite (inner_scale dim _ _ (fromTo x y) (fromTo x y) ((q - p) / inner dim (fromTo x y) (fromTo x y))).
  - field. exact N.
  - intros k _. rewrite gradient_eq. unfold Qdiv. ring.
Qed.
Lemma affine_difference dim c G x y : affine dim c G y - affine dim c G x == inner dim G (fromTo x y).
Proof. unfold affine. rewrite inner_minus_r. ring. Qed.

Lemma potentialGrad_eq gravity dim x s t a k :
  potentialGrad gravity dim x s t a k ==
  fromTo (p_pos s) (p_pos t) k *
  ((restPressure gravity dim x t a - restPressure gravity dim x s a) / inner dim (fromTo (p_pos s) (p_pos t)) (fromTo (p_pos s) (p_pos t))).
Proof.
  unfold potentialGrad, restPressure. destruct gravity; cbv zeta.
  - unfold vplus, vscale. rewrite gradient_eq, !dot_inner. unfold norm2. rewrite dot_inner.
    change (vminus (p_pos t) (p_pos s)) with (fromTo (p_pos s) (p_pos t)).
    change (vminus (p_pos s) x) with (fromTo x (p_pos s)). change (vminus (p_pos t) x) with (fromTo x (p_pos t)).
    rewrite !inner_minus_r. unfold Qdiv. ring.
  - rewrite gradient_eq. unfold Qdiv. ring.
Qed.
Lemma boundaryPotentialGrad_eq gravity dim x s pB a k :
  boundaryPotentialGrad gravity dim x s pB a k ==
  fromTo (p_pos s) x k *
  ((pB - restPressure gravity dim x s a) / inner dim (fromTo (p_pos s) x) (fromTo (p_pos s) x)).
Proof.
  unfold boundaryPotentialGrad, restPressure. destruct gravity; cbv zeta.
  - unfold vplus, vscale. rewrite boundaryGradient_eq, !dot_inner. unfold norm2. rewrite dot_inner.
    change (vminus (p_pos s) x) with (fromTo x (p_pos s)).
    assert (E : inner dim (fromTo x (p_pos s)) (fromTo x (p_pos s)) == inner dim (fromTo (p_pos s) x) (fromTo (p_pos s) x)).
    { apply inner_ext. intros j _. unfold fromTo. ring. }
    rewrite E, !inner_minus_r. unfold fromTo, Qdiv. ring.
  - rewrite boundaryGradient_eq. unfold Qdiv. ring.
Qed.

(** ** Fluxes *)
Lemma flux_eq dim K m grad d s n : (forall k, (k < dim)%nat -> grad k == d k * s) ->
  fold_left (fun q k => q + filterVelocity dim K m grad k * n k) (seq 0 dim) 0 == - m * (bilinear dim n K d * s).
Proof.
  intros H. rewrite fold_inner. unfold bilinear.
  transitivity (sumOver (fun r => n r * inner dim (K r) d) (seq 0 dim) * (- m * s)); [|ring].
  rewrite <- sumOver_scale. apply sumOver_ext. intros r _. unfold filterVelocity, vscale, mv. rewrite dot_inner.
  rewrite (inner_scale dim (K r) grad (K r) d s); [ring|]. intros k L. rewrite (H k L). ring.
Qed.
Lemma normal_part dim grad d s n : (forall k, (k < dim)%nat -> grad k == d k * s) ->
  fold_left (fun q k => q + grad k * n k) (seq 0 dim) 0 == inner dim d n * s.
Proof.
  intros H. rewrite fold_inner. apply inner_scale. intros k L. rewrite (H k L). ring.
Qed.
Lemma upstream_iff dim n grad d s : (forall k, (k < dim)%nat -> grad k == d k * s) ->
  interiorIsUpstream dim n grad = negb (Qltb 0 (inner dim d n * s)).
Proof.
  intros H. unfold interiorIsUpstream. f_equal. unfold Qltb. f_equal. rewrite (normal_part dim grad d s n H). reflexivity.
Qed.
Lemma sum_delta n j (G : nat -> Q) : (j < n)%nat ->
  sumOver (fun k => G k * (if (j =? k)%nat then 1 else 0)) (seq 0 n) == G j.
Proof.
  intros L.
  assert (H : forall m b, sumOver (fun k => G k * (if (j =? k)%nat then 1 else 0)) (seq b m) == if ((b <=? j) && (j <? b + m))%nat then G j else 0).
  { induction m; intros b; cbn [seq].
    - replace ((b <=? j) && (j <? b + 0))%nat with false; [reflexivity|]. symmetry. apply andb_false_iff.
      destruct (Nat.leb_spec b j); [right; apply Nat.ltb_ge; lia|left; reflexivity].
    - rewrite sumOver_cons, IHm. destruct (Nat.eqb_spec j b).
      + subst. replace ((S b <=? b) && (b <? S b + m))%nat with false by (symmetry; apply andb_false_iff; left; apply Nat.leb_gt; lia).
        replace ((b <=? b) && (b <? b + S m))%nat with true; [ring|]. symmetry. apply andb_true_iff. split; [apply Nat.leb_le|apply Nat.ltb_lt]; lia.
      + replace ((S b <=? j) && (j <? S b + m))%nat with ((b <=? j) && (j <? b + S m))%nat; [ring|].
        destruct (Nat.leb_spec b j), (Nat.leb_spec (S b) j), (Nat.ltb_spec j (b + S m)), (Nat.ltb_spec j (S b + m)); cbn; lia. }
  rewrite H. replace ((0 <=? j) && (j <? 0 + n))%nat with true; [reflexivity|].
  symmetry. apply andb_true_iff. split; [apply Nat.leb_le|apply Nat.ltb_lt]; lia.
Qed.
Lemma bilinear_scalar dim k K n d : scalarMatrix dim k K -> bilinear dim n K d == k * inner dim d n.
Proof.
  intros H. unfold bilinear.
  transitivity (inner dim d n * k); [|ring]. unfold inner at 2. rewrite <- sumOver_scale.
  apply sumOver_ext. intros r I. apply in_seq in I.
  assert (E : inner dim (K r) d == k * d r).
  { transitivity (sumOver (fun c => d c * (if (r =? c)%nat then 1 else 0)) (seq 0 dim) * k).
    - unfold inner. rewrite <- sumOver_scale. apply sumOver_ext. intros c Ic. apply in_seq in Ic. rewrite (H r c) by lia.
      destruct (r =? c)%nat; ring.
    - rewrite (sum_delta dim r d) by lia. ring. }
  rewrite E. ring.
Qed.
Lemma bilinear_opp dim n K d : bilinear dim (opposite n) K d == - bilinear dim n K d.
Proof.
  unfold bilinear. transitivity (sumOver (fun r => n r * inner dim (K r) d) (seq 0 dim) * (-1)); [|ring].
  rewrite <- sumOver_scale. apply sumOver_ext. intros r _. unfold opposite. ring.
Qed.
Lemma bilinear_opp_r dim n K d : bilinear dim n K (opposite d) == - bilinear dim n K d.
Proof.
  unfold bilinear. transitivity (sumOver (fun r => n r * inner dim (K r) d) (seq 0 dim) * (-1)); [|ring].
  rewrite <- sumOver_scale. apply sumOver_ext. intros r _. rewrite inner_opp_r. ring.
Qed.
Lemma bilinear_ext dim n K K' d d' : (forall r c, K r c == K' r c) -> (forall k, d k == d' k) -> bilinear dim n K d == bilinear dim n K' d'.
Proof.
  intros H D. unfold bilinear. apply sumOver_ext. intros r _. rewrite (inner_ext dim (K r) d (K' r) d'); [reflexivity|].
  intros k _. rewrite (H r k), (D k). reflexivity.
Qed.

Section Interior.
Variables (mean : Q -> Q -> Q) (gravity : bool) (dim : nat) (n x : vec) (s t : point) (a : nat).
Let d := fromTo (p_pos s) (p_pos t).
Let drive := restPressure gravity dim x t a - restPressure gravity dim x s a.
Let N := inner dim d d.

Lemma up_eq : darcyUpstream gravity dim n x s t a = negb (Qltb 0 (inner dim d n * (drive / N))).
Proof. unfold darcyUpstream. apply upstream_iff. intros k _. apply potentialGrad_eq. Qed.
Lemma darcy_eq :
  darcyFlux mean gravity dim n x s t a ==
  - (if darcyUpstream gravity dim n x s t a then p_mob s a else p_mob t a) *
  (bilinear dim n (facePerm mean s t) d * (drive / N)).
Proof. unfold darcyFlux. cbv zeta. apply flux_eq. intros k _. apply potentialGrad_eq. Qed.
End Interior.

Lemma rest_no_flux mean gravity dim n x s t a :
  restPressure gravity dim x s a == restPressure gravity dim x t a -> darcyFlux mean gravity dim n x s t a == 0.
Proof. intros H. rewrite darcy_eq, H. unfold Qdiv. ring. Qed.

Lemma qltb_eq x y x' y' : x == x' -> y == y' -> Qltb x y = Qltb x' y'.
Proof. intros A B. unfold Qltb. rewrite A, B. reflexivity. Qed.

Lemma opposite_flux mean gravity dim n x s t a : symmetricMean mean ->
  (~ inner dim (fromTo (p_pos s) (p_pos t)) n * (restPressure gravity dim x t a - restPressure gravity dim x s a) == 0
   \/ exists k, scalarMatrix dim k (facePerm mean s t)) ->
  ~ inner dim (fromTo (p_pos s) (p_pos t)) (fromTo (p_pos s) (p_pos t)) == 0 ->
  darcyFlux mean gravity dim (opposite n) x t s a == - darcyFlux mean gravity dim n x s t a.
Proof.
  intros M H N. rewrite !darcy_eq, !up_eq.
  set (P := restPressure gravity dim x t a) in *. set (R := restPressure gravity dim x s a) in *.
  set (d := fromTo (p_pos s) (p_pos t)) in *.
  assert (D : forall k, fromTo (p_pos t) (p_pos s) k == opposite d k) by (intros k; unfold d, fromTo, opposite; ring).
  assert (NE : inner dim (fromTo (p_pos t) (p_pos s)) (fromTo (p_pos t) (p_pos s)) == inner dim d d)
    by (apply inner_ext; intros k _; rewrite !D; unfold opposite; ring).
  assert (DN : inner dim (fromTo (p_pos t) (p_pos s)) (opposite n) == inner dim d n)
    by (apply inner_ext; intros k _; rewrite !D; unfold opposite; ring).
  assert (B : bilinear dim (opposite n) (facePerm mean t s) (fromTo (p_pos t) (p_pos s)) == bilinear dim n (facePerm mean s t) d).
  { rewrite (bilinear_ext dim (opposite n) _ (facePerm mean s t) _ (opposite d)); [|intros r c; apply M|exact D].
    rewrite bilinear_opp, bilinear_opp_r. ring. }
  rewrite B.
  rewrite (qltb_eq 0 (inner dim (fromTo (p_pos t) (p_pos s)) (opposite n) * ((R - P) / inner dim (fromTo (p_pos t) (p_pos s)) (fromTo (p_pos t) (p_pos s)))) 0 (- (inner dim d n * ((P - R) / inner dim d d))));
    [|reflexivity|rewrite DN, NE; field; exact N].
  rewrite NE.
  assert (V : inner dim d n * ((P - R) / inner dim d d) == inner dim d n * (P - R) / inner dim d d) by (unfold Qdiv; ring).
  assert (NP : 0 < inner dim d d).
  { pose proof (inner_nonneg dim d). apply Qle_lteq in H0. destruct H0; [assumption|]. exfalso. apply N. rewrite <- H0. reflexivity. }
  destruct (Qlt_le_dec 0 (inner dim d n * ((P - R) / inner dim d d))) as [L|L].
  - replace (Qltb 0 (inner dim d n * ((P - R) / inner dim d d))) with true by (symmetry; apply Qltb_lt; exact L).
    replace (Qltb 0 (- (inner dim d n * ((P - R) / inner dim d d)))) with false by (symmetry; apply Qltb_ge; lra).
    cbn [negb]. field. exact N.
  - replace (Qltb 0 (inner dim d n * ((P - R) / inner dim d d))) with false by (symmetry; apply Qltb_ge; exact L).
    apply Qle_lteq in L. destruct L as [L|L].
    + replace (Qltb 0 (- (inner dim d n * ((P - R) / inner dim d d)))) with true by (symmetry; apply Qltb_lt; lra).
      cbn [negb]. field. exact N.
    + assert (Z : inner dim d n * (P - R) == 0).
      { rewrite V in L. setoid_replace (inner dim d n * (P - R)) with (inner dim d n * (P - R) / inner dim d d * inner dim d d) by (field; exact N).
        rewrite L. ring. }
      destruct H as [H|[k H]]; [contradiction|].
      rewrite (bilinear_scalar dim k _ n d H).
      transitivity 0.
      * transitivity (- (if negb (Qltb 0 (- (inner dim d n * ((P - R) / inner dim d d)))) then p_mob t a else p_mob s a) * k * - (inner dim d n * (P - R)) / inner dim d d);
          [field; exact N|rewrite Z; field; exact N].
      * symmetry.
        transitivity (p_mob s a * k * (inner dim d n * (P - R)) / inner dim d d); [cbn [negb]; field; exact N|rewrite Z; field; exact N].
Qed.

Lemma boundary_up gravity dim n x s pB a :
  interiorIsUpstream dim n (boundaryPotentialGrad gravity dim x s pB a) =
  negb (Qltb 0 (inner dim (fromTo (p_pos s) x) n *
    ((pB - restPressure gravity dim x s a) / inner dim (fromTo (p_pos s) x) (fromTo (p_pos s) x)))).
Proof. apply upstream_iff. intros k _. apply boundaryPotentialGrad_eq. Qed.
Lemma boundary_eq gravity dim n x s pB mobB a :
  darcyBoundaryFlux gravity dim n x s pB mobB a ==
  - (if interiorIsUpstream dim n (boundaryPotentialGrad gravity dim x s pB a) then p_mob s a else mobB) *
  (bilinear dim n (p_perm s) (fromTo (p_pos s) x) *
   ((pB - restPressure gravity dim x s a) / inner dim (fromTo (p_pos s) x) (fromTo (p_pos s) x))).
Proof. unfold darcyBoundaryFlux. cbv zeta. apply flux_eq. intros k _. apply boundaryPotentialGrad_eq. Qed.

Lemma square_pos dim d n : ~ inner dim d n == 0 -> 0 < inner dim d d.
Proof.
  intros H. pose proof (inner_nonneg dim d) as G. apply Qle_lteq in G. destruct G as [G|G]; [exact G|].
  exfalso. apply H. clear H. unfold inner in *.
  assert (E : forall l, 0 == sumOver (fun k => d k * d k) l -> sumOver (fun k => d k * n k) l == 0).
  { intros l. induction l as [|k l IH]; intros Z; [reflexivity|]. rewrite sumOver_cons in *.
    assert (P : 0 <= sumOver (fun j => d j * d j) l).
    { clear. induction l as [|j l IH]; [discriminate|]. rewrite sumOver_cons. assert (0 <= d j * d j) by nra. lra. }
    assert (S : 0 <= d k * d k) by nra.
    assert (K0 : d k * d k == 0) by lra. assert (K : d k == 0).
    { apply Qmult_integral in K0. destruct K0; assumption. }
    rewrite K, IH by lra. ring. }
  apply E, G.
Qed.

(** ** Boundary rates *)
Lemma rate_eq u phases vf i b c :
  freeFlowRate u phases vf i b c ==
  sumOver (fun a => vf a * carried u (if Qltb (f_press i a) (f_press b a) then b else i) a c) (seq 0 phases).
Proof. unfold freeFlowRate. cbv zeta. rewrite (fold_sum (fun a => vf a * carried u (if Qltb (f_press i a) (f_press b a) then b else i) a c)). ring. Qed.
Lemma energy_eq phases vf i b :
  freeFlowEnergy phases vf i b ==
  sumOver (fun a => f_rho (if Qltb (f_press i a) (f_press b a) then b else i) a * vf a * f_h (if Qltb (f_press i a) (f_press b a) then b else i) a) (seq 0 phases).
Proof.
  unfold freeFlowEnergy. cbv zeta.
  rewrite (fold_sum (fun a => f_rho (if Qltb (f_press i a) (f_press b a) then b else i) a * vf a * f_h (if Qltb (f_press i a) (f_press b a) then b else i) a)). ring.
Qed.

(** Without gravity the sign of the flux is that of the pressure difference. *)
Lemma boundary_sign dim n x s k pB mobB a : scalarMatrix dim k (p_perm s) -> 0 <= k -> 0 <= p_mob s a -> 0 <= mobB ->
  0 < inner dim (fromTo (p_pos s) x) n ->
  let v := darcyBoundaryFlux false dim n x s pB mobB a in
  (p_press s a < pB -> v <= 0) /\ (pB <= p_press s a -> 0 <= v).
Proof.
  intros S K M MB D v.
  assert (N : 0 < inner dim (fromTo (p_pos s) x) (fromTo (p_pos s) x)) by (apply (square_pos dim _ n); lra).
  assert (E := boundary_eq false dim n x s pB mobB a). fold v in E. rewrite (bilinear_scalar dim k _ n _ S) in E.
  assert (R : restPressure false dim x s a == p_press s a) by (unfold restPressure; ring).
  rewrite R in E.
  assert (MM : 0 <= (if interiorIsUpstream dim n (boundaryPotentialGrad false dim x s pB a) then p_mob s a else mobB))
    by (destruct (interiorIsUpstream _ _ _); assumption).
  set (m := if interiorIsUpstream dim n (boundaryPotentialGrad false dim x s pB a) then p_mob s a else mobB) in *.
  clearbody m.
  set (dn := inner dim (fromTo (p_pos s) x) n) in *. set (q := inner dim (fromTo (p_pos s) x) (fromTo (p_pos s) x)) in *.
  assert (IQ : 0 < / q) by (apply Qinv_lt_0_compat; exact N).
  assert (A1 : 0 <= m * k) by nra. assert (A2 : 0 <= m * k * dn) by nra. assert (A3 : 0 <= m * k * dn * / q) by nra.
  assert (E' : v == - (m * k * dn * / q) * (pB - p_press s a)) by (rewrite E; unfold Qdiv; ring).
  set (w := m * k * dn * / q) in *. clearbody w v. split; intros L; nra.
Qed.
Lemma upstream_rate_eq (amount : fluid -> nat -> Q) phases vf i b :
  (forall a, (a < phases)%nat -> (f_press i a < f_press b a -> vf a <= 0) /\ (f_press b a <= f_press i a -> 0 <= vf a)) ->
  sumOver (fun a => vf a * amount (if Qltb (f_press i a) (f_press b a) then b else i) a) (seq 0 phases) ==
  upstreamRate amount phases vf i b.
Proof.
  intros H. apply sumOver_ext. intros a I. apply in_seq in I. destruct (H a) as [A B]; [lia|].
  destruct (Qltb (f_press i a) (f_press b a)) eqn:E.
  - apply Qltb_lt in E. specialize (A E). destruct (Qltb (vf a) 0) eqn:V; [reflexivity|].
    apply Qltb_ge in V. assert (Z : vf a == 0) by lra. rewrite Z. ring.
  - apply Qltb_ge in E. specialize (B E). replace (Qltb (vf a) 0) with false by (symmetry; apply Qltb_ge; exact B). reflexivity.
Qed.

(** ** Shape functions *)
Lemma sum_swap {A B} (f : A -> B -> Q) l m :
  sumOver (fun x => sumOver (fun y => f x y) m) l == sumOver (fun y => sumOver (fun x => f x y) l) m.
Proof.
  induction l as [|x l IH].
  - unfold sumOver at 1. cbn. symmetry. etransitivity; [|apply (sumOver_zero m)]. apply sumOver_ext. reflexivity.
  - rewrite sumOver_cons, IH, <- sumOver_plus. apply sumOver_ext. intros y _. rewrite sumOver_cons. reflexivity.
Qed.
Lemma p1_value dim vertices corner x shape c G : shapeValues dim vertices corner x shape ->
  p1Value vertices shape (fun v => affine dim c G (corner v)) == affine dim c G x.
Proof.
  intros [S1 SX]. unfold p1Value. rewrite (fold_sum (fun v => affine dim c G (corner v) * shape v)).
  unfold affine. rewrite (sumOver_ext _ (fun v => shape v * c + sumOver (fun k => G k * (shape v * corner v k)) (seq 0 dim))).
  - rewrite sumOver_plus, sumOver_scale, S1, sum_swap.
    assert (E : sumOver (fun k => sumOver (fun v => G k * (shape v * corner v k)) (seq 0 vertices)) (seq 0 dim) == inner dim G x).
    { unfold inner. apply sumOver_ext. intros k I. apply in_seq in I. rewrite <- (SX k) by lia.
      rewrite (sumOver_ext _ (fun v => shape v * corner v k * G k)); [|intros v _; ring]. rewrite sumOver_scale. ring. }
    rewrite E. ring.
  - intros v _. rewrite Qmult_plus_distr_l. unfold inner. rewrite <- sumOver_scale.
    rewrite (sumOver_ext (fun k => G k * corner v k * shape v) (fun k => G k * (shape v * corner v k))); [ring|intros; ring].
Qed.
Lemma p1_gradient dim vertices corner jacInvT local c G k : shapeGradients dim vertices corner jacInvT local -> (k < dim)%nat ->
  p1Gradient dim vertices jacInvT local (fun v => affine dim c G (corner v)) k == G k.
Proof.
  intros [S0 SX] L. cbv zeta in *. unfold p1Gradient.
  rewrite (fold_sum (fun v => affine dim c G (corner v) * mv dim jacInvT (local v) k)).
  unfold affine, mv.
  rewrite (sumOver_ext _ (fun v => inner dim (jacInvT k) (local v) * c + sumOver (fun l => G l * (inner dim (jacInvT k) (local v) * corner v l)) (seq 0 dim))).
  - rewrite sumOver_plus, sumOver_scale, (S0 k L), sum_swap.
    rewrite (sumOver_ext (fun l => sumOver (fun v => G l * (inner dim (jacInvT k) (local v) * corner v l)) (seq 0 vertices))
                         (fun l => G l * (if (k =? l)%nat then 1 else 0))).
    + rewrite (sum_delta dim k G L). ring.
    + intros l I. apply in_seq in I. rewrite <- (SX k l) by lia.
      rewrite (sumOver_ext _ (fun v => inner dim (jacInvT k) (local v) * corner v l * G l)); [|intros v _; ring].
      rewrite sumOver_scale. ring.
  - intros v _. rewrite dot_inner, Qmult_plus_distr_l.
    assert (E : inner dim G (corner v) * inner dim (jacInvT k) (local v) == sumOver (fun l => G l * (inner dim (jacInvT k) (local v) * corner v l)) (seq 0 dim)).
    { unfold inner at 1. rewrite <- sumOver_scale. apply sumOver_ext. intros; ring. }
    rewrite E. ring.
Qed.

(** ** Values at faces *)
Lemma equidistant root dim n x y z c G :
  let d := fst (distances root dim n x y z) in
  snd (distances root dim n x y z) == d -> ~ d == 0 ->
  (forall k, (k < dim)%nat -> y k + z k == 2 * x k) ->
  scalarValue root dim n x y z (affine dim c G y) (affine dim c G z) == affine dim c G x.
Proof.
  intros d E N H. unfold scalarValue. cbv zeta. fold d. rewrite E.
  transitivity ((affine dim c G y + affine dim c G z) / 2).
  - field. intros Z. apply N. lra.
  - unfold affine. assert (I : inner dim G y + inner dim G z == inner dim G x * 2).
    { unfold inner. rewrite <- sumOver_plus, <- sumOver_scale. apply sumOver_ext. intros k J. apply in_seq in J.
      rewrite <- Qmult_plus_distr_r, H by lia. ring. }
    setoid_replace (c + inner dim G y + (c + inner dim G z)) with (2 * c + (inner dim G y + inner dim G z)) by ring.
    rewrite I. field.
Qed.
