(** C91-C94: the fields of the VTK output. *)
From Verif Require Import VtkOutSpec VtkOutProofs VtkNames VtkFaces.
From Verif Require VcfvModel.
From Coq Require Import Lqa.
Local Open Scope nat_scope.

(** ** C91 *)

Lemma subs_scalar : forall m w cf f p c, In f (fieldsOf m w) -> In (p, c) (subs cf (fShape f)) ->
  (fQty f = Temperature -> p = 0 /\ c = 0) /\ (fQty f = Fugacity -> p = 0) /\ (fQty f = UreaConcentration -> p = 0 /\ c = 0).
Proof.
  intros m w cf f p c F PC.
  set (chk := fun f : field => match fQty f, fShape f with
     | Temperature, ScalarShape | UreaConcentration, ScalarShape | Fugacity, ComponentShape => true
     | Temperature, _ | UreaConcentration, _ | Fugacity, _ => false | _, _ => true end).
  assert (H : forallb chk (fieldsOf m w) = true) by (apply (forModels_ok (fun fs => forallb chk fs)); vm_compute; reflexivity).
  rewrite forallb_forall in H. specialize (H f F). unfold chk in H.
  destruct (fQty f); try (split; [|split]; intro; discriminate); destruct (fShape f); try discriminate H; cbn [subs] in PC.
  - destruct PC as [PC|[]]. injection PC as A B. split; [|split]; intro; try discriminate; lia.
  - apply in_map_iff in PC. destruct PC as [j [PC _]]. injection PC as A B. split; [|split]; intro; try discriminate; lia.
  - destruct PC as [PC|[]]. injection PC as A B. split; [|split]; intro; try discriminate; lia.
Qed.

Lemma written_means : forall m w cf v f p c e i I, In f (fieldsOf m w) -> In (p, c) (subs cf (fShape f)) ->
  means cf v (fQty f) p c e i I (written cf v (fQty f) p c e i I).
Proof.
  intros m w cf v f p c e i I F PC. destruct (subs_scalar m w cf f p c F PC) as [T [G U]].
  assert (FD : forall a b, (fdiv a b = None /\ (b == 0)%Q) \/ exists t, fdiv a b = Some t /\ ~ (b == 0)%Q /\ (t * b == a)%Q).
  { intros a b. unfold fdiv. destruct (Qeq_bool b 0) eqn:E.
    - left. split; [reflexivity|apply Qeq_bool_iff; exact E].
    - right. exists (a / b)%Q. assert (N : ~ (b == 0)%Q) by (intro K; apply Qeq_bool_iff in K; congruence).
      split; [reflexivity|]. split; [exact N|]. field. exact N. }
  destruct (fQty f); cbn [means written]; try reflexivity; try apply FD.
  - destruct (T eq_refl) as [A B]. subst. reflexivity.
  - rewrite (G eq_refl). reflexivity.
  - destruct (U eq_refl) as [A B]. subst. reflexivity.
Qed.

Lemma passes_applies : forall m w cf g f p I, In f (fieldsOf m w) -> passes cf g (fGuard f) p I = applies cf g (fQty f) p I.
Proof.
  intros m w cf g f p I F.
  set (guardOf := fun q => match q with
    | Pressure | Density | Saturation | Mobility | RelativePermeability | Viscosity | AverageMolarMass
    | FluidInternalEnergy | FluidEnthalpy => 1
    | FractureSaturation | FractureMobility | FractureRelativePermeability | FracturePorosity
    | FractureIntrinsicPermeability => 2
    | GasDissolutionFactor | OilVaporizationFactor | OilSaturationPressure | GasSaturationPressure | SaturatedRs
    | SaturatedRv | OilSaturationRatio | GasSaturationRatio => 3
    | _ => 0 end).
  set (chk := fun f : field => match fGuard f with Always => 0 | ActivePhase => 1 | OnFracture => 2 | OilAndGas => 3 end =? guardOf (fQty f)).
  assert (H : forallb chk (fieldsOf m w) = true) by (apply (forModels_ok (fun fs => forallb chk fs)); vm_compute; reflexivity).
  rewrite forallb_forall in H. specialize (H f F). unfold chk in H. apply Nat.eqb_eq in H.
  destruct (fGuard f); destruct (fQty f); try discriminate H; reflexivity.
Qed.

(** Whatever the buffers held before and in whatever order the threads visit the elements: a
    selected field is in the file under its name, the name tells the quantity, and it shows at
    each corner of each element of this process the value of the quantity at the degree of
    freedom of the element or corner, or zero where the quantity is not defined. *)
Theorem C91_field_values : forall m w cf d g v old ws,
  gridOk d g -> oneValuePerDof g v -> Permutation ws (allWrites cf g v (fieldsOf m w)) ->
  exists b, applyWrites (allocBuffers cf g (fieldsOf m w) old) ws = Some b /\
    forall f p c, In f (fieldsOf m w) -> selected cf f = true -> In (p, c) (subs cf (fShape f)) ->
      In (head (fPattern f), fQty f) expectedQty /\
      exists en, In en (commitAll cf d (fieldsOf m w)) /\ eName en = fieldName cf f p c /\
        forall e k, e < numElements g -> isInterior g e = true -> k < length (cornerVertices g e) ->
          exists x, evaluate g b en (fieldComp f p) e (nth k (cornerPositions g e) []) = Some x /\
            (if applies cf g (fQty f) p (dofSeen d g e k)
             then means cf v (fQty f) p c e (localSeen d k) (dofSeen d g e k) x
             else x = Some 0%Q).
Proof.
  intros m w cf d g v old ws G O P.
  destruct (final_buffers cf d g v (fieldsOf m w) old ws) as [b [E B]];
    [apply fields_nodup|apply fields_novertex|apply fields_rank|exact G|exact O|exact P|].
  exists b. split; [exact E|]. intros f p c F S PC. split; [apply (fields_expected m w); exact F|].
  exists (entryOf cf d f p c). split.
  { apply in_flat_map. exists f. split; [exact F|apply commit_in; assumption]. }
  split; [reflexivity|]. intros e k He Hi Hk.
  destruct (evaluate_place cf d g b f p c e k G (fields_novertex m w f F) PC He Hk) as [E1 E2].
  rewrite E1. destruct (B f p c F S PC) as [B1 _]. rewrite (B1 e _ _ He Hi E2). eexists. split; [reflexivity|].
  rewrite !(passes_applies m w cf g f) by exact F.
  pose proof (fields_rank m w f F) as R. destruct (fLoc f) eqn:L.
  - destruct (applies cf g (fQty f) p (dofSeen d g e k)); [apply (written_means m w); assumption|reflexivity].
  - exfalso. exact (fields_novertex m w f F L).
  - specialize (R eq_refl). 
    rewrite R. reflexivity.
Qed.

(** Nothing of earlier outputs is left: where no element of this process writes, the fields
    show zero. *)
Theorem C91_no_stale_data : forall m w cf d g v old ws,
  gridOk d g -> oneValuePerDof g v -> Permutation ws (allWrites cf g v (fieldsOf m w)) ->
  exists b, applyWrites (allocBuffers cf g (fieldsOf m w) old) ws = Some b /\
    forall en comp e k, In en (commitAll cf d (fieldsOf m w)) -> comp < length (eComps en) ->
      e < numElements g -> k < length (cornerVertices g e) ->
      isInterior g e = false ->
      (forall e', e' < numElements g -> isInterior g e' = true -> ~ In (dofSeen d g e k) (primaryDofs g e')) ->
      evaluate g b en comp e (nth k (cornerPositions g e) []) = Some (Some 0%Q).
Proof.
  intros m w cf d g v old ws G O P.
  destruct (final_buffers cf d g v (fieldsOf m w) old ws) as [b [E B]];
    [apply fields_nodup|apply fields_novertex|apply fields_rank|exact G|exact O|exact P|].
  exists b. split; [exact E|]. intros en comp e k EN CO He Hk Hi NI.
  apply in_flat_map in EN. destruct EN as [f [F EN]]. apply commit_out in EN. destruct EN as [S [p [c [PC EQ]]]].
  assert (X : exists p' c', In (p', c') (subs cf (fShape f)) /\ en = entryOf cf d f p' c' /\ comp = fieldComp f p').
  { subst en. unfold entryOf in CO |- *. cbn [eComps] in CO. destruct (fShape f) eqn:Sh; unfold fieldComp; rewrite Sh;
      try (exists p, c; split; [exact PC|]; split; [reflexivity|]; simpl in CO; lia).
    rewrite map_length, seq_length in CO. cbn [subs] in PC. apply in_pairs in PC.
    exists comp, c. split; [apply in_pairs; lia|]. split; [|reflexivity]. unfold fieldName. rewrite Sh. reflexivity. }
  clear p c PC EQ. destruct X as [p [c [PC [EQ EC]]]]. subst en comp.
  destruct (evaluate_place cf d g b f p c e k G (fields_novertex m w f F) PC He Hk) as [E1 E2]. rewrite E1.
  destruct (B f p c F S PC) as [_ B2]. apply B2.
  - apply (places_size d g f e _ _ G He (fields_novertex m w f F) E2).
  - intros e' i He' Hi' IN. unfold places in IN. destruct (fLoc f) eqn:L.
    + apply in_combine_seq in IN. apply nth_error_In in IN. exact (NI e' He' Hi' IN).
    + exact (fields_novertex m w f F L).
    + destruct IN as [IN|[]]. injection IN as A1 A2. subst e'. congruence.
Qed.

(** Nothing else is in the file. *)
Theorem C91_only_selected_fields : forall m w cf d en, In en (commitAll cf d (fieldsOf m w)) ->
  exists f p c, In f (fieldsOf m w) /\ selected cf f = true /\ In (p, c) (subs cf (fShape f)) /\ eName en = fieldName cf f p c.
Proof.
  intros m w cf d en EN. apply in_flat_map in EN. destruct EN as [f [F EN]]. apply commit_out in EN.
  destruct EN as [S [p [c [PC EQ]]]]. exists f, p, c. split; [exact F|]. split; [exact S|]. split; [exact PC|]. subst en. reflexivity.
Qed.

Lemma sumTo_ext : forall n f h, (forall i, (i < n)%nat -> f i == h i)%Q -> (sumTo n f == sumTo n h)%Q.
Proof. induction n as [|n IH]; intros f h H; simpl; [reflexivity|]. rewrite (IH f h), (H n); [reflexivity|lia|intros; apply H; lia]. Qed.

Lemma sumTo_scale : forall n f x, (sumTo n (fun i => x * f i) == x * sumTo n f)%Q.
Proof. induction n as [|n IH]; intros f x; simpl; [ring|]. rewrite IH. ring. Qed.

Lemma sumTo_add : forall n f h, (sumTo n (fun i => f i + h i) == sumTo n f + sumTo n h)%Q.
Proof. induction n as [|n IH]; intros f h; simpl; [ring|]. rewrite IH. ring. Qed.

Lemma sumTo_nonneg : forall n f, (forall i, (i < n)%nat -> 0 <= f i)%Q -> (0 <= sumTo n f)%Q.
Proof. induction n as [|n IH]; intros f H; simpl; [lra|]. assert (0 <= sumTo n f)%Q by (apply IH; intros; apply H; lia). specialize (H n). assert (0 <= f n)%Q by (apply H; lia). lra. Qed.

Lemma sumTo_swap : forall n k f, (sumTo n (fun i => sumTo k (fun j => f i j)) == sumTo k (fun j => sumTo n (fun i => f i j)))%Q.
Proof.
  induction n as [|n IH]; intros k f; simpl.
  - symmetry. induction k as [|k IK]; simpl; [reflexivity|]. rewrite IK. ring.
  - rewrite IH, <- sumTo_add. reflexivity.
Qed.

Lemma fractions : forall nP nC (s : nat -> Q) (x : nat -> nat -> Q) (t : nat -> Q),
  (forall a, (a < nP)%nat -> 0 <= s a)%Q -> (0 < sumTo nP s)%Q ->
  (forall a c, (a < nP)%nat -> (c < nC)%nat -> 0 <= x a c)%Q -> (forall a, (a < nP)%nat -> sumTo nC (x a) == 1)%Q ->
  (forall c, (c < nC)%nat -> t c * sumTo nP s == sumTo nP (fun a => s a * x a c))%Q ->
  (sumTo nC t == 1 /\ forall c, (c < nC)%nat -> 0 <= t c <= 1)%Q.
Proof.
  intros nP nC s x t S SP X X1 T.
  assert (N : forall c, (c < nC)%nat -> (0 <= t c)%Q).
  { intros c C. specialize (T c C). assert (0 <= sumTo nP (fun a => s a * x a c))%Q.
    { apply sumTo_nonneg. intros a A. apply Qmult_le_0_compat; [apply S; exact A|apply X; assumption]. }
    destruct (Qlt_le_dec (t c) 0) as [L|L]; [|exact L].
    assert (t c * sumTo nP s < 0 * sumTo nP s)%Q by (apply Qmult_lt_compat_r; assumption). lra. }
  assert (ONE : (sumTo nC t == 1)%Q).
  { assert (E : (sumTo nC t * sumTo nP s == 1 * sumTo nP s)%Q).
    { rewrite Qmult_comm, <- sumTo_scale.
      rewrite (sumTo_ext nC (fun c => sumTo nP s * t c)%Q (fun c => sumTo nP (fun a => s a * x a c))%Q).
      - rewrite <- sumTo_swap. rewrite (sumTo_ext nP _ s); [ring|]. intros a A. rewrite sumTo_scale, (X1 a A). ring.
      - intros c C. rewrite Qmult_comm. apply T. exact C. }
    apply Qmult_inj_r in E; [exact E|lra]. }
  split; [exact ONE|]. intros c C. split; [apply N; exact C|]. rewrite <- ONE.
  clear - N C. induction nC as [|n IH]; [lia|]. simpl.
  destruct (Nat.eq_dec c n) as [E|E].
  - subst c. assert (0 <= sumTo n t)%Q by (apply sumTo_nonneg; intros; apply N; lia). lra.
  - assert (t c <= sumTo n t)%Q by (apply IH; [intros; apply N; lia|lia]). specialize (N n). assert (0 <= t n)%Q by (apply N; lia). lra.
Qed.

(** The total fractions shown at a place are between zero and one and sum up to one if the
    fractions of each phase do. *)
Theorem C91_total_fractions : forall m w cf v fm fn e i I xm xn,
  In fm (fieldsOf m w) -> fQty fm = TotalMassFraction -> In fn (fieldsOf m w) -> fQty fn = TotalMoleFraction ->
  (forall a, (a < numPhases cf)%nat -> 0 <= val v Saturation a 0 e i /\ 0 <= val v Density a 0 e i /\ 0 <= molarDensity v a e i)%Q ->
  (exists a, a < numPhases cf /\ (0 < val v Saturation a 0 e i /\ 0 < val v Density a 0 e i /\ 0 < molarDensity v a e i)%Q) ->
  (forall a c, (a < numPhases cf)%nat -> (c < numComponents cf)%nat -> 0 <= val v MassFraction a c e i /\ 0 <= val v MoleFraction a c e i)%Q ->
  (forall a, (a < numPhases cf)%nat ->
     sumTo (numComponents cf) (fun c => val v MassFraction a c e i) == 1 /\ sumTo (numComponents cf) (fun c => val v MoleFraction a c e i) == 1)%Q ->
  (forall c, (c < numComponents cf)%nat -> means cf v (fQty fm) 0 c e i I (xm c) /\ means cf v (fQty fn) 0 c e i I (xn c)) ->
  exists tm tn, (forall c, (c < numComponents cf)%nat -> xm c = Some (tm c) /\ xn c = Some (tn c) /\ (0 <= tm c <= 1)%Q /\ (0 <= tn c <= 1)%Q) /\
    (sumTo (numComponents cf) tm == 1)%Q /\ (sumTo (numComponents cf) tn == 1)%Q.
Proof.
  intros m w cf v fm fn e i I xm xn _ Fm _ Fn NN [a0 [A0 [P1 [P2 P3]]]] X0 X1 M.
  assert (POS : forall s : nat -> Q, (forall a, (a < numPhases cf)%nat -> 0 <= s a)%Q -> (0 < s a0)%Q -> (0 < sumTo (numPhases cf) s)%Q).
  { intros s S H. clear - S H A0. induction (numPhases cf) as [|n IH]; [lia|]. simpl.
    assert (0 <= s n)%Q by (apply S; lia). destruct (Nat.eq_dec a0 n) as [K|K].
    - subst a0. assert (0 <= sumTo n s)%Q by (apply sumTo_nonneg; intros; apply S; lia). lra.
    - assert (0 < sumTo n s)%Q by (apply IH; [lia|intros; apply S; lia]). lra. }
  assert (PM : (0 < sumTo (numPhases cf) (fun a => val v Density a 0 e i * val v Saturation a 0 e i))%Q).
  { apply POS; [|apply Qmult_lt_0_compat; assumption]. intros a A. destruct (NN a A) as [K1 [K2 K3]]. apply Qmult_le_0_compat; assumption. }
  assert (PN : (0 < sumTo (numPhases cf) (fun a => molarDensity v a e i * val v Saturation a 0 e i))%Q).
  { apply POS; [|apply Qmult_lt_0_compat; assumption]. intros a A. destruct (NN a A) as [K1 [K2 K3]]. apply Qmult_le_0_compat; assumption. }
  set (get := fun o : option Q => match o with Some q => q | None => 0%Q end).
  assert (Gm : forall c, (c < numComponents cf)%nat -> xm c = Some (get (xm c)) /\
     (get (xm c) * sumTo (numPhases cf) (fun a => val v Density a 0 e i * val v Saturation a 0 e i) ==
      sumTo (numPhases cf) (fun a => val v Density a 0 e i * val v Saturation a 0 e i * val v MassFraction a c e i))%Q).
  { intros c C. destruct (M c C) as [Mm _]. rewrite Fm in Mm. cbn [means] in Mm. destruct Mm as [[_ Z]|[t [T1 [_ T2]]]]; [lra|].
    rewrite T1. cbn [get]. split; [reflexivity|exact T2]. }
  assert (Gn : forall c, (c < numComponents cf)%nat -> xn c = Some (get (xn c)) /\
     (get (xn c) * sumTo (numPhases cf) (fun a => molarDensity v a e i * val v Saturation a 0 e i) ==
      sumTo (numPhases cf) (fun a => molarDensity v a e i * val v Saturation a 0 e i * val v MoleFraction a c e i))%Q).
  { intros c C. destruct (M c C) as [_ Mn]. rewrite Fn in Mn. cbn [means] in Mn. destruct Mn as [[_ Z]|[t [T1 [_ T2]]]]; [lra|].
    rewrite T1. cbn [get]. split; [reflexivity|exact T2]. }
  destruct (fractions (numPhases cf) (numComponents cf) (fun a => val v Density a 0 e i * val v Saturation a 0 e i)%Q
              (fun a c => val v MassFraction a c e i) (fun c => get (xm c))) as [Sm Bm].
  { intros a A. destruct (NN a A) as [K1 [K2 K3]]. apply Qmult_le_0_compat; assumption. }
  { exact PM. } { intros a c A C. apply X0; assumption. } { intros a A. apply X1. exact A. } { intros c C. apply Gm. exact C. }
  destruct (fractions (numPhases cf) (numComponents cf) (fun a => molarDensity v a e i * val v Saturation a 0 e i)%Q
              (fun a c => val v MoleFraction a c e i) (fun c => get (xn c))) as [Sn Bn].
  { intros a A. destruct (NN a A) as [K1 [K2 K3]]. apply Qmult_le_0_compat; assumption. }
  { exact PN. } { intros a c A C. apply X0; assumption. } { intros a A. apply X1. exact A. } { intros c C. apply Gn. exact C. }
  exists (fun c => get (xm c)), (fun c => get (xn c)). split; [|split; assumption]. intros c C.
  split; [apply Gm; exact C|]. split; [apply Gn; exact C|]. split; [apply Bm; exact C|apply Bn; exact C].
Qed.

Print Assumptions C91_field_values.
Print Assumptions C91_no_stale_data.
Print Assumptions C91_only_selected_fields.
Print Assumptions C91_total_fractions.

(** Two quadrilaterals side by side, the second one belongs to another process. *)
Definition quadCorners : list (list Q) := [[0; 0]; [1; 0]; [0; 1]; [1; 1]]%Q.
Definition twoQuads (d : disc) : grid :=
  mkGrid (match d with Ecfv => 2 | Vcfv => 6 end) 2 6 (fun e => e =? 0)
         (fun e => match d with Ecfv => [e] | Vcfv => match e with 0 => [0; 1; 3; 4] | _ => [1; 2; 4; 5] end end)
         (fun e => match e with 0 => [0; 1; 3; 4] | _ => [1; 2; 4; 5] end) (fun _ => quadCorners) (fun _ => false).

Example twoQuads_ok : forall d, gridOk d (twoQuads d).
Proof.
  intro d. split.
  - destruct d; (split; [reflexivity|]); intros e _; reflexivity.
  - intros e v He H. simpl in He, H. destruct e as [|e]; simpl in H; simpl; intuition lia.
  - intros e He. split; [destruct e; reflexivity|]. simpl. unfold cornersOk. split; [|split].
    + intros a b A B. simpl in A, B. intuition (subst; reflexivity).
    + intros j k J K N. cbn [quadCorners length] in J, K.
      destruct j as [|[|[|[|j]]]]; destruct k as [|[|[|[|k]]]]; try lia;
        first [exists 0; split; [simpl; lia|intro H; vm_compute in H; discriminate H]
              |exists 1; split; [simpl; lia|intro H; vm_compute in H; discriminate H]].
    + intros a x A X. simpl in A. destruct A as [A|[A|[A|[A|[]]]]]; subst a; simpl in X; destruct X as [X|[X|[]]]; subst x; split; vm_compute; discriminate.
Qed.

Definition twoPhases : config :=
  mkConfig 2 2 2 2 (fun p => match p with 0 => "water" | _ => "oil" end%string) (fun c => match c with 0 => "H2O" | _ => "C8" end%string)
           (fun p => match p with 0 => "pressure" | _ => "saturation" end%string) (fun _ => true) true
           (fun s => String.eqb s "VtkWriteSaturations" || String.eqb s "VtkWriteIntrinsicPermeabilities")%string.
Definition someValues : values := mkValues (fun q p c e i => natQ (1 + p + 10 * c)) (fun _ _ _ => 1%Q) 3.

Example someValues_ok : forall g, oneValuePerDof g someValues.
Proof. intros g e1 i1 e2 i2 _ _. split; reflexivity. Qed.

Example names_written : map eName (commitAll twoPhases Vcfv (fieldsOf Immiscible (mkSwitches true true true true true))) =
  ["saturation_water"; "saturation_oil"; "intrinsicPerm[0]"; "intrinsicPerm[1]"]%string.
Proof. vm_compute. reflexivity. Qed.

(** ** C92 *)

Section Faces.
Variables (norm : list Q -> Q) (d p : nat) (fs : list face).
Hypothesis OK : facesOk d p fs.

Lemma vel_len : forall f, In f fs -> length (fVelocity f p) = d. Proof. intros f F. apply (OK f F). Qed.
Lemma grad_len : forall f, In f fs -> length (fGradient f p) = d. Proof. intros f F. apply (OK f F). Qed.
Lemma vel_pos : forall f, In f fs -> (0 < velocityWeight norm p f)%Q. Proof. intros f F. apply velocityWeight_pos. apply (OK f F). Qed.
Lemma ext_pos : forall f, In f fs -> (0 < fExtrusion f)%Q. Proof. intros f F. apply (OK f F). Qed.
End Faces.

Lemma pos_touches : forall f I, (0 < sides f I)%Q -> touches f I.
Proof.
  intros f I H. destruct (Nat.eq_dec (fI f) I) as [A|A]; [left; exact A|]. destruct (Nat.eq_dec (fJ f) I) as [B|B]; [right; exact B|].
  exfalso. rewrite sides_zero in H; [lra|]. intros [K|K]; contradiction.
Qed.

(** The filter velocity shown at a degree of freedom is a mean with positive weights of the
    velocities at the faces which touch it (and thus within their range, and exact for a
    uniform velocity); without such a face it is zero divided by zero. *)
Theorem C92_filter_velocity : forall norm d p fs I k, facesOk d p fs -> k < d ->
  ((exists f, In f fs /\ touches f I) ->
    exists q W, nth_error (average (sumVelocities norm d p fs) I) k = Some (Some q) /\
      (forall f, In f fs -> 0 < W f)%Q /\
      (forall f, In f fs -> 1 # 100000000000000000000 < norm (fVelocity f p) -> 1 # 10000000000000000 <= Qabs (fFlux f p) ->
         W f * norm (fVelocity f p) == Qabs (fFlux f p) * fExtrusion f)%Q /\
      (q * total (fun f => sides f I * W f) fs == total (fun f => sides f I * W f * nth k (fVelocity f p) 0) fs)%Q /\
      (forall lo hi, (forall f, In f fs -> touches f I -> lo <= nth k (fVelocity f p) 0 <= hi)%Q -> (lo <= q <= hi)%Q)) /\
  ((forall f, In f fs -> ~ touches f I) -> nth_error (average (sumVelocities norm d p fs) I) k = Some None).
Proof.
  intros norm d p fs I k OK K. split.
  - intros [f [F T]]. unfold sumVelocities.
    destruct (mean_defined d _ sides _ _ (adds_velocity norm d p) fs (vel_len d p fs OK) (vel_pos norm d p fs OK) sides_nonneg I k f K F (sides_pos f I T)) as [q [E1 E2]].
    exists q, (velocityWeight norm p). split; [exact E1|]. split; [apply (vel_pos norm d p fs OK)|]. split; [|split; [exact E2|]].
    + intros g Gi N FL. unfold velocityWeight.
      destruct (Qle_bool (norm (fVelocity g p)) (1 # 100000000000000000000)) eqn:E; [apply Qle_bool_iff in E; lra|].
      rewrite (Q.max_r _ _ FL). field. lra.
    + intros lo hi B.
      apply (mean_bounds d _ sides _ _ (adds_velocity norm d p) fs (vel_len d p fs OK) (vel_pos norm d p fs OK) sides_nonneg I k f lo hi q K F (sides_pos f I T)); [|exact E1].
      intros g Gi P. apply B; [exact Gi|]. apply pos_touches. exact P.
  - intro H. apply (mean_undefined d _ sides _ _ (adds_velocity norm d p) fs (vel_len d p fs OK) I k K).
    intros f F. apply sides_zero. apply H. exact F.
Qed.

(** The potential gradient is the mean over the faces whose interior side is the degree of
    freedom. *)
Theorem C92_potential_gradient : forall d p fs I k, facesOk d p fs -> k < d ->
  ((exists f, In f fs /\ fI f = I) ->
    exists q, nth_error (average (sumGradients d p fs) I) k = Some (Some q) /\
      (q * total (fun f => (if fI f =? I then 1 else 0) * fExtrusion f) fs ==
       total (fun f => (if fI f =? I then 1 else 0) * fExtrusion f * nth k (fGradient f p) 0) fs)%Q /\
      (forall lo hi, (forall f, In f fs -> fI f = I -> lo <= nth k (fGradient f p) 0 <= hi)%Q -> (lo <= q <= hi)%Q)) /\
  ((forall f, In f fs -> fI f <> I) -> nth_error (average (sumGradients d p fs) I) k = Some None).
Proof.
  intros d p fs I k OK K.
  assert (NN : forall f I, (0 <= insideCount f I)%Q) by (intros f J; unfold insideCount; destruct (fI f =? J); lra).
  assert (PP : forall f I, fI f = I -> (0 < insideCount f I)%Q) by (intros f J H; unfold insideCount; subst J; rewrite Nat.eqb_refl; lra).
  assert (QQ : forall f I, (0 < insideCount f I)%Q -> fI f = I).
  { intros f J H. unfold insideCount in H. destruct (fI f =? J) eqn:E; [apply Nat.eqb_eq; exact E|lra]. }
  split.
  - intros [f [F T]]. unfold sumGradients.
    destruct (mean_defined d _ insideCount _ _ (adds_gradient d p) fs (grad_len d p fs OK) (ext_pos d p fs OK) NN I k f K F (PP f I T)) as [q [E1 E2]].
    exists q. split; [exact E1|]. split; [exact E2|]. intros lo hi B.
    apply (mean_bounds d _ insideCount _ _ (adds_gradient d p) fs (grad_len d p fs OK) (ext_pos d p fs OK) NN I k f lo hi q K F (PP f I T)); [|exact E1].
    intros g Gi P. apply B; [exact Gi|]. apply QQ. exact P.
  - intro H. apply (mean_undefined d _ insideCount _ _ (adds_gradient d p) fs (grad_len d p fs OK) I k K).
    intros f F. unfold insideCount. destruct (fI f =? I) eqn:E; [|reflexivity]. apply Nat.eqb_eq in E. exfalso. exact (H f F E).
Qed.

(** Both do not depend on the order in which the faces are visited. *)
Theorem C92_order_independent : forall norm d p fs fs' I, facesOk d p fs -> Permutation fs fs' ->
  Forall2 sameValue (average (sumVelocities norm d p fs) I) (average (sumVelocities norm d p fs') I) /\
  Forall2 sameValue (average (sumGradients d p fs) I) (average (sumGradients d p fs') I).
Proof.
  intros norm d p fs fs' I OK P.
  assert (OK' : facesOk d p fs') by (intros f F; apply OK; apply (Permutation_in _ (Permutation_sym P) F)).
  assert (G : forall add cnt w vec, adds d add cnt w vec -> (forall f, In f fs -> length (vec f) = d) -> (forall f, In f fs' -> length (vec f) = d) ->
     Forall2 sameValue (average (fold_left add fs (zeroAverages d)) I) (average (fold_left add fs' (zeroAverages d)) I)).
  { intros add cnt w vec A V V'.
    set (a := fold_left add fs (zeroAverages d)). set (a' := fold_left add fs' (zeroAverages d)).
    assert (EW : (aWeight a I == aWeight a' I)%Q).
    { unfold a, a'. rewrite (mean_weight d add cnt w vec A fs V), (mean_weight d add cnt w vec A fs' V'). apply total_perm. exact P. }
    assert (EV : forall k, (nth k (aVec a I) 0 == nth k (aVec a' I) 0)%Q).
    { intro k. unfold a, a'. rewrite (mean_vec d add cnt w vec A fs V), (mean_vec d add cnt w vec A fs' V'). apply total_perm. exact P. }
    assert (EL : length (aVec a I) = length (aVec a' I)).
    { unfold a, a'. rewrite (mean_len d add cnt w vec A fs V), (mean_len d add cnt w vec A fs' V'). reflexivity. }
    unfold average. remember (aVec a I) as x. remember (aVec a' I) as y. clear Heqx Heqy.
    revert y EV EL. induction x as [|x0 x IH]; intros [|y0 y] EV EL; try discriminate EL; simpl; [constructor|]. constructor.
    - specialize (EV 0). simpl in EV. unfold fdiv.
      destruct (Qeq_bool (aWeight a I) 0) eqn:E1; destruct (Qeq_bool (aWeight a' I) 0) eqn:E2; simpl.
      + trivial.
      + apply Qeq_bool_iff in E1. rewrite EW in E1. apply Qeq_bool_iff in E1. congruence.
      + apply Qeq_bool_iff in E2. rewrite <- EW in E2. apply Qeq_bool_iff in E2. congruence.
      + rewrite EV, EW. reflexivity.
    - apply IH; [intro k; apply (EV (S k))|]. simpl in EL. lia. }
  split.
  - apply (G _ _ _ _ (adds_velocity norm d p)); [apply (vel_len d p fs OK)|apply (vel_len d p fs' OK')].
  - apply (G _ _ _ _ (adds_gradient d p)); [apply (grad_len d p fs OK)|apply (grad_len d p fs' OK')].
Qed.

(** Vertex centred finite volumes: every element except a quadrilateral has a corner which
    is the interior side of none of its faces, so a mesh of one element shows no gradient
    there. *)
Theorem C92_gradient_everywhere_refuted : forall s norm P d p fs k, s <> VcfvModel.Quadrilateral -> facesOk d p fs -> k < d ->
  map fI fs = map (fun j => VcfvModel.f_i (VcfvModel.interiorFace norm s P j)) (seq 0 (length (VcfvModel.refEdges s))) ->
  exists v, v < length (VcfvModel.refCorners s) /\ nth_error (average (sumGradients d p fs) v) k = Some None.
Proof.
  intros s norm P d p fs k NQ OK K M. exists (length (VcfvModel.refCorners s) - 1). split; [destruct s; simpl; lia|].
  apply C92_potential_gradient; [exact OK|exact K|]. intros f F E.
  assert (IN : In (fI f) (map fI fs)) by (apply in_map; exact F). rewrite M, E in IN. clear - IN NQ.
  destruct s; [| |contradiction| | | |]; cbn in IN;
    repeat (destruct IN as [IN|IN]; [cbn in IN; discriminate IN|]); destruct IN.
Qed.

(** For a quadrilateral each corner has one. *)
Theorem C92_gradient_quadrilateral : forall norm P d p fs k v, facesOk d p fs -> k < d ->
  map fI fs = map (fun j => VcfvModel.f_i (VcfvModel.interiorFace norm VcfvModel.Quadrilateral P j)) (seq 0 4) -> v < 4 ->
  exists q, nth_error (average (sumGradients d p fs) v) k = Some (Some q).
Proof.
  intros norm P d p fs k v OK K M V. destruct (C92_potential_gradient d p fs v k OK K) as [H _].
  destruct H as [q [E _]]; [|exists q; exact E].
  assert (IN : In v (map fI fs)).
  { rewrite M. cbn. destruct v as [|[|[|[|v]]]]; [tauto|tauto|tauto|tauto|lia]. }
  apply in_map_iff in IN. destruct IN as [f [E F]]. exists f. split; assumption.
Qed.

(** Threads: with no degree of freedom in common, every interleaving gives the sums of the
    sequential loop. *)
Theorem C92_disjoint_threads : forall norm p comp fs1 fs2 c I,
  (forall f1 f2 J, In f1 fs1 -> In f2 fs2 -> touches f1 J -> touches f2 J -> False) ->
  thread_run (startThreads norm p comp fs1 fs2) c -> todo1 c = [] -> todo2 c = [] ->
  (memory c (SumOf I) == total (fun f => sides f I * (velocityWeight norm p f * nth comp (fVelocity f p) 0)) (fs1 ++ fs2))%Q /\
  (memory c (WeightOf I) == total (fun f => sides f I * velocityWeight norm p f) (fs1 ++ fs2))%Q.
Proof.
  intros norm p comp fs1 fs2 c I D R T1 T2.
  assert (TA : forall h a b, (total h (a ++ b) == total h a + total h b)%Q).
  { intros h a b. induction a as [|x a IH]; simpl; [ring|]. rewrite IH. ring. }
  assert (DJ : forall l, locsOf (todo1 (startThreads norm p comp fs1 fs2)) l -> ~ locsOf (todo2 (startThreads norm p comp fs1 fs2)) l).
  { cbn [startThreads todo1 todo2]. intros l L1 L2. apply locs_faces in L1. apply locs_faces in L2.
    destruct L1 as [f1 [I1 [F1 [U1 E1]]]]. destruct L2 as [f2 [I2 [F2 [U2 E2]]]].
    assert (I1 = I2) by (destruct E1; destruct E2; congruence). subst I2. exact (D f1 f2 I1 F1 F2 U1 U2). }
  destruct (exec_faces norm p comp fs1 (fun _ => 0%Q) 0%Q I) as [A1 A2].
  destruct (exec_faces norm p comp fs2 (fun _ => 0%Q) 0%Q I) as [B1 B2].
  assert (Z : forall fs, (forall f, In f fs -> ~ touches f I) -> forall h, (total (fun f => sides f I * h f) fs == 0)%Q).
  { intros fs H h. apply total_zero. intros f F. rewrite (sides_zero f I (H f F)). ring. }
  assert (TD : (exists f, In f fs1 /\ touches f I) \/ (forall f, In f fs1 -> ~ touches f I)).
  { clear. induction fs1 as [|f t IH]; [right; intros f []|].
    assert (X : touches f I \/ ~ touches f I).
    { unfold touches. destruct (Nat.eq_dec (fI f) I); destruct (Nat.eq_dec (fJ f) I); tauto. }
    destruct X as [X|X]; [left; exists f; split; [left; reflexivity|exact X]|].
    destruct IH as [[g [Gi Gt]]|N]; [left; exists g; split; [right; exact Gi|exact Gt]|].
    right. intros g [Gi|Gi]; [subst g; exact X|exact (N g Gi)]. }
  pose proof (run_disjoint _ _ R T1 T2 DJ) as RD. cbn [startThreads todo1 todo2 memory reg1 reg2] in RD.
  rewrite !TA. destruct TD as [[f [F T]]|N].
  - assert (N2 : forall g, In g fs2 -> ~ touches g I) by (intros g Gi Gt; exact (D f g I F Gi T Gt)).
    rewrite (Z fs2 N2 (velocityWeight norm p)), (Z fs2 N2 (fun f => velocityWeight norm p f * nth comp (fVelocity f p) 0)%Q).
    assert (NL : forall l, l = SumOf I \/ l = WeightOf I -> ~ locsOf (flat_map (faceSteps norm p comp) fs2) l).
    { intros l L X. apply locs_faces in X. destruct X as [g [J [Gi [Gt E]]]].
      assert (J = I) by (destruct L; destruct E; congruence). subst J. exact (N2 g Gi Gt). }
    destruct (RD (SumOf I)) as [R1 _]. destruct (RD (WeightOf I)) as [R2 _].
    rewrite (R1 (NL _ (or_introl eq_refl))), (R2 (NL _ (or_intror eq_refl))), A1, A2. split; ring.
  - rewrite (Z fs1 N (velocityWeight norm p)), (Z fs1 N (fun f => velocityWeight norm p f * nth comp (fVelocity f p) 0)%Q).
    assert (NL : forall l, l = SumOf I \/ l = WeightOf I -> ~ locsOf (flat_map (faceSteps norm p comp) fs1) l).
    { intros l L X. apply locs_faces in X. destruct X as [g [J [Gi [Gt E]]]].
      assert (J = I) by (destruct L; destruct E; congruence). subst J. exact (N g Gi Gt). }
    destruct (RD (SumOf I)) as [_ R1]. destruct (RD (WeightOf I)) as [_ R2].
    rewrite (R1 (NL _ (or_introl eq_refl))), (R2 (NL _ (or_intror eq_refl))), B1, B2. split; ring.
Qed.

Definition oneVelocity (i j : nat) : face := mkFace i j 1%Q (fun _ => 1%Q) (fun _ => [1%Q]) (fun _ => [1%Q]).
Definition absNorm (v : list Q) : Q := match v with [x] => Qabs x | _ => 0%Q end.

(** With a shared degree of freedom an update of the weight can get lost: the faces all have
    velocity one and the output shows two. *)
Theorem C92_shared_threads_refuted : exists c,
  thread_run (startThreads absNorm 0 0 [oneVelocity 0 1] [oneVelocity 0 2]) c /\ todo1 c = [] /\ todo2 c = [] /\
  (memory c (SumOf 0) == 2 * memory c (WeightOf 0))%Q /\ (0 < memory c (WeightOf 0))%Q.
Proof.
  set (bs := [true; true; true; true; true; false; false; false; false; false; true; true; true; false; false; false]).
  assert (H : match schedule bs (startThreads absNorm 0 0 [oneVelocity 0 1] [oneVelocity 0 2]) with
              | Some c => todo1 c = [] /\ todo2 c = [] /\ (memory c (SumOf 0) == 2 * memory c (WeightOf 0))%Q /\ (0 < memory c (WeightOf 0))%Q
              | None => False
              end) by (vm_compute; repeat split).
  destruct (schedule bs (startThreads absNorm 0 0 [oneVelocity 0 1] [oneVelocity 0 2])) as [c|] eqn:E; [|destruct H].
  exists c. split; [apply (schedule_run _ _ _ E)|exact H].
Qed.

Print Assumptions C92_filter_velocity.
Print Assumptions C92_potential_gradient.
Print Assumptions C92_order_independent.
Print Assumptions C92_gradient_everywhere_refuted.
Print Assumptions C92_gradient_quadrilateral.
Print Assumptions C92_disjoint_threads.
Print Assumptions C92_shared_threads_refuted.

Example faces_ok : facesOk 1 0 [oneVelocity 0 1; oneVelocity 1 2].
Proof. intros f [F|[F|[]]]; subst f; (split; [reflexivity|]; split; reflexivity). Qed.

(** ** C93 *)

(** The volume fraction of the fractures is too large by the number of phases. *)
Theorem C93_volume_fraction : forall cf g vol whole I, isFractureVertex g I = true -> ~ (whole I == 0)%Q ->
  exists q, fractureVolumeFraction cf g vol whole I = Some q /\
    (q * whole I == natQ (numPhases cf) * volumesAt vol I (interiorDofs g))%Q.
Proof.
  intros cf g vol whole I H N. unfold fractureVolumeFraction, fdiv.
  destruct (Qeq_bool (whole I) 0) eqn:E; [apply Qeq_bool_iff in E; contradiction|]. eexists. split; [reflexivity|].
  rewrite fracture_volumes by exact H. field. exact N.
Qed.

Theorem C93_volume_fraction_refuted : forall cf g vol whole I, 2 <= numPhases cf -> isFractureVertex g I = true ->
  (0 < whole I)%Q -> (0 < volumesAt vol I (interiorDofs g))%Q ->
  exists q, fractureVolumeFraction cf g vol whole I = Some q /\ (q * whole I >= 2 * volumesAt vol I (interiorDofs g))%Q.
Proof.
  intros cf g vol whole I P H W V. destruct (C93_volume_fraction cf g vol whole I H) as [q [E Q1]]; [lra|].
  exists q. split; [exact E|]. rewrite Q1. apply Qmult_le_compat_r; [|lra].
  unfold natQ. change 2%Q with (inject_Z 2). rewrite <- Zle_Qle. lia.
Qed.

Theorem C93_volume_fraction_off_fractures : forall cf g vol whole I, isFractureVertex g I = false -> ~ (whole I == 0)%Q ->
  exists q, fractureVolumeFraction cf g vol whole I = Some q /\ (q == 0)%Q.
Proof.
  intros cf g vol whole I H N. unfold fractureVolumeFraction, fdiv.
  destruct (Qeq_bool (whole I) 0) eqn:E; [apply Qeq_bool_iff in E; contradiction|]. eexists. split; [reflexivity|].
  rewrite fracture_none by exact H. field. exact N.
Qed.

(** The fracture velocity, if the fluxes were computed: within the range of those at the
    fracture edges up to the lower bound of the weight, and zero off the fractures. *)
Theorem C93_fracture_velocity : forall cf edge d p fs I k, facesOk d p fs -> k < d -> needExtensiveQuantities cf = true ->
  exists vs q W, fractureVelocityOutput cf edge d p fs I = Some vs /\ nth_error vs k = Some q /\
    (forall f, In f fs -> 1 # 10000000000000000 <= Qabs (fFlux f p) -> W f == Qabs (fFlux f p) * fExtrusion f)%Q /\
    (q * Qmax (1 # 100000000000000000000) (total (fun f => (if edge (fI f) (fJ f) then sides f I else 0) * W f) fs) ==
     total (fun f => (if edge (fI f) (fJ f) then sides f I else 0) * (W f * nth k (fVelocity f p) 0)) fs)%Q /\
    ((forall f, In f fs -> touches f I -> edge (fI f) (fJ f) = false) -> (q == 0)%Q) /\
    (forall lo hi, (exists f, In f fs /\ touches f I /\ edge (fI f) (fJ f) = true /\ (1 # 10000 <= fExtrusion f)%Q) ->
       (forall f, In f fs -> touches f I -> edge (fI f) (fJ f) = true -> lo <= nth k (fVelocity f p) 0 <= hi)%Q -> (lo <= q <= hi)%Q).
Proof.
  intros cf edge d p fs I k OK K NE. unfold fractureVelocityOutput, facesSeen. rewrite NE.
  set (a := sumFractureVelocities edge d p fs).
  pose proof (adds_fracture edge d p) as A.
  assert (LEN : length (aVec a I) = d) by (apply (mean_len d _ _ _ _ A fs (vel_len d p fs OK))).
  exists (fractureAverage a I), (nth k (aVec a I) 0 / Qmax (1 # 100000000000000000000) (aWeight a I))%Q, (fractureWeight p).
  assert (MP : (0 < Qmax (1 # 100000000000000000000) (aWeight a I))%Q).
  { apply Qlt_le_trans with (1 # 100000000000000000000); [reflexivity|apply Q.le_max_l]. }
  split; [reflexivity|]. split.
  { unfold fractureAverage. rewrite (map_nth_error _ k (aVec a I) (d := nth k (aVec a I) 0%Q)); [reflexivity|]. apply nth_error_nth'. lia. }
  split.
  { intros f F L. unfold fractureWeight. rewrite (Q.max_r _ _ L). reflexivity. }
  split.
  { pose proof (mean_weight d _ _ _ _ A fs (vel_len d p fs OK) I) as MW. pose proof (mean_vec d _ _ _ _ A fs (vel_len d p fs OK) I k) as MV.
    unfold edgeSides in MW, MV. fold (sumFractureVelocities edge d p fs) in MW, MV. fold a in MW, MV. rewrite <- MW, <- MV. field. lra. }
  assert (CN : forall f J, (0 <= edgeSides edge f J)%Q) by (intros f J; unfold edgeSides; destruct (edge (fI f) (fJ f)); [apply sides_nonneg|lra]).
  assert (WP : forall f, In f fs -> (0 < fractureWeight p f)%Q).
  { intros f F. unfold fractureWeight. apply Qmult_lt_0_compat; [apply tiny_pos|apply (OK f F)]. }
  split.
  - intro Z. assert (V0 : (nth k (aVec a I) 0 == 0)%Q); [|rewrite V0; field; lra].
    unfold a, sumFractureVelocities. rewrite (mean_vec d _ _ _ _ A fs (vel_len d p fs OK)). apply total_zero. intros f F. unfold edgeSides. destruct (edge (fI f) (fJ f)) eqn:E; [|ring].
    rewrite sides_zero; [ring|]. intro T. rewrite (Z f F T) in E. discriminate E.
  - intros lo hi [f [F [T [E X]]]] B.
    assert (CP : (0 < edgeSides edge f I)%Q) by (unfold edgeSides; rewrite E; apply sides_pos; exact T).
    assert (WB : (1 # 100000000000000000000 <= aWeight a I)%Q).
    { unfold a, sumFractureVelocities. rewrite (mean_weight d _ _ _ _ A fs (vel_len d p fs OK)).
      apply Qle_trans with (edgeSides edge f I * fractureWeight p f)%Q.
      - assert (S1 : (1 <= edgeSides edge f I)%Q).
        { unfold edgeSides, sides. rewrite E. destruct T as [T|T]; subst I; rewrite Nat.eqb_refl;
            [destruct (fJ f =? fI f)|destruct (fI f =? fJ f)]; lra. }
        assert (F1 : (1 # 100000000000000000000 <= fractureWeight p f)%Q).
        { unfold fractureWeight. apply Qle_trans with ((1 # 10000000000000000) * (1 # 10000))%Q; [vm_compute; discriminate|].
          apply Qle_trans with (Qmax (1 # 10000000000000000) (Qabs (fFlux f p)) * (1 # 10000))%Q.
          - apply Qmult_le_compat_r; [apply Q.le_max_l|lra].
          - rewrite !(Qmult_comm (Qmax _ _)). apply Qmult_le_compat_r; [exact X|]. apply Qlt_le_weak. apply tiny_pos. }
        apply Qle_trans with (1 * fractureWeight p f)%Q; [lra|]. apply Qmult_le_compat_r; [exact S1|lra].
      - clear - F CN WP. induction fs as [|g t IH]; [destruct F|]. simpl.
        assert (NG : (0 <= edgeSides edge g I * fractureWeight p g)%Q).
        { apply Qmult_le_0_compat; [apply CN|]. apply Qlt_le_weak. apply WP. left. reflexivity. }
        assert (NT : (0 <= total (fun f0 => edgeSides edge f0 I * fractureWeight p f0) t)%Q).
        { apply total_nonneg. intros h Hh. apply Qmult_le_0_compat; [apply CN|]. apply Qlt_le_weak. apply WP. right. exact Hh. }
        destruct F as [F|F]; [subst g; lra|]. assert (IH' : (edgeSides edge f I * fractureWeight p f <= total (fun f0 => edgeSides edge f0 I * fractureWeight p f0) t)%Q).
        { apply IH; [|exact F]. intros h Hh. apply WP. right. exact Hh. } lra. }
    assert (EQ : nth_error (average a I) k = Some (Some (nth k (aVec a I) 0 / aWeight a I)%Q)).
    { unfold average. rewrite (map_nth_error _ k (aVec a I) (d := nth k (aVec a I) 0%Q)); [|apply nth_error_nth'; lia].
      rewrite fdiv_pos; [reflexivity|]. apply Qlt_le_trans with (1 # 100000000000000000000); [reflexivity|exact WB]. }
    assert (BD : (lo <= nth k (aVec a I) 0 / aWeight a I <= hi)%Q).
    { apply (mean_bounds d _ _ _ _ A fs (vel_len d p fs OK) WP CN I k f lo hi _ K F CP); [|exact EQ].
      intros g Gi P. apply B; [exact Gi| |].
      - apply pos_touches. unfold edgeSides in P. destruct (edge (fI g) (fJ g)); [exact P|lra].
      - unfold edgeSides in P. destruct (edge (fI g) (fJ g)); [reflexivity|lra]. }
    rewrite (Q.max_r _ _ WB). exact BD.
Qed.

(** Asking for fracture velocities alone, the module reads extensive quantities nobody has
    computed for the element. *)
Theorem C93_fracture_velocity_refuted : forall cf edge d p fs I,
  parameter cf "VtkWriteFractureFilterVelocities"%string = true ->
  parameter cf "VtkWriteFilterVelocities"%string = false -> parameter cf "VtkWritePotentialGradients"%string = false ->
  fractureVelocityOutput cf edge d p fs I = None.
Proof. intros cf edge d p fs I _ A B. unfold fractureVelocityOutput, facesSeen, needExtensiveQuantities. rewrite A, B. reflexivity. Qed.

Print Assumptions C93_volume_fraction.
Print Assumptions C93_volume_fraction_refuted.
Print Assumptions C93_volume_fraction_off_fractures.
Print Assumptions C93_fracture_velocity.
Print Assumptions C93_fracture_velocity_refuted.

Definition fractureQuad : grid :=
  mkGrid 4 1 4 (fun _ => true) (fun _ => [0; 1; 2; 3]) (fun _ => [0; 1; 2; 3]) (fun _ => quadCorners) (fun v => v <? 2).
Example fracture_volume_seen : isFractureVertex fractureQuad 1 = true /\
  (volumesAt (fun _ _ => 1 # 10) 1 (interiorDofs fractureQuad) == 1 # 10)%Q.
Proof. split; vm_compute; reflexivity. Qed.

(** ** C94 *)

(** Without the diffusion fields, the names in the file are pairwise different. *)
Theorem C94_names_distinct : forall m w cf d, namesOk cf ->
  (forall f, In f diffusionFields -> In f (fieldsOf m w) -> selected cf f = false) ->
  NoDup (map eName (commitAll cf d (fieldsOf m w))).
Proof.
  intros m w cf d N D. apply names_nodup; [exact N|apply fields_formed| |apply fields_apart].
  intros f F S. destruct (isDiffusion f) eqn:E; [|reflexivity]. exfalso.
  assert (IN : In f diffusionFields).
  { assert (G : forall f, In f (fieldsOf m w) -> isDiffusion f = true -> In f diffusionFields).
    { clear.
      set (P := fun f => isDiffusion f = true -> In f diffusionFields).
      assert (O : forall c l, Forall P l -> Forall P (opt c l)) by (intros c l H; destruct c; [exact H|constructor]).
      assert (Dn : Forall P diffusionFields) by (rewrite Forall_forall; intros f F _; exact F).
      assert (K : forall l, forallb (fun f => negb (isDiffusion f)) l = true -> Forall P l).
      { intros l H. rewrite Forall_forall. rewrite forallb_forall in H. intros f F E. specialize (H f F). rewrite E in H. discriminate H. }
      enough (A : Forall P (fieldsOf m w)) by (intros f F; exact (proj1 (Forall_forall P _) A f F)). unfold fieldsOf.
      destruct m; repeat (apply Forall_app; split); try apply O; try exact Dn; apply K; vm_compute; reflexivity. }
    apply G; assumption. }
  rewrite (D f IN F) in S. discriminate S.
Qed.

(** With them they are not: all phases share one name. *)
Theorem C94_diffusion_names_refuted : forall m w cf d f, In f diffusionFields -> In f (fieldsOf m w) -> selected cf f = true ->
  1 <= numComponents cf -> 2 <= numPhases cf ->
  exists i j, i <> j /\ i < length (commitAll cf d (fieldsOf m w)) /\ j < length (commitAll cf d (fieldsOf m w)) /\
    forall dflt, eName (nth i (commitAll cf d (fieldsOf m w)) dflt) = fPattern f /\ eName (nth j (commitAll cf d (fieldsOf m w)) dflt) = fPattern f.
Proof.
  intros m w cf d f DF F SE C P.
  assert (H : exists e1 e2 r, commitField cf d f = e1 :: r /\ In e2 r /\ eName e1 = fPattern f /\ eName e2 = fPattern f).
  { unfold commitField. rewrite SE.
    assert (P2 : exists n, numPhases cf = S (S n)) by (exists (numPhases cf - 2); lia). destruct P2 as [n P2].
    assert (C1 : exists n, numComponents cf = S n) by (exists (numComponents cf - 1); lia). destruct C1 as [n' C1].
    simpl in DF. destruct DF as [DF|[DF|[DF|[]]]]; subst f; cbn [fShape subs fPattern fQty fLoc].
    - rewrite P2. cbn [seq map]. eexists. eexists. eexists. split; [reflexivity|]. split; [left; reflexivity|]. split; reflexivity.
    - rewrite P2, C1. unfold pairs. cbn [seq flat_map map app]. eexists.
      exists (mkEntry (snprintf "diffusionCoefficient" [phaseName cf 1; componentName cf 0]) (placeOf d DofBuffer) [(DiffusionCoefficient, 1, 0)]).
      eexists. split; [reflexivity|]. split; [|split; reflexivity].
      rewrite map_app. apply in_or_app. right. cbn [map]. left. reflexivity.
    - rewrite P2, C1. unfold pairs. cbn [seq flat_map map app]. eexists.
      exists (mkEntry (snprintf "effectiveDiffusionCoefficient" [phaseName cf 1; componentName cf 0]) (placeOf d DofBuffer) [(EffectiveDiffusionCoefficient, 1, 0)]).
      eexists. split; [reflexivity|]. split; [|split; reflexivity].
      rewrite map_app. apply in_or_app. right. cbn [map]. left. reflexivity. }
  destruct H as [e1 [e2 [r [E [E2 [N1 N2]]]]]]. apply in_split in F. destruct F as [pre [post F]].
  apply in_split in E2. destruct E2 as [r1 [r2 E2]].
  assert (X : exists a b, commitAll cf d (fieldsOf m w) = a ++ e1 :: r1 ++ e2 :: b).
  { rewrite F. unfold commitAll. rewrite flat_map_app. cbn [flat_map]. rewrite E, E2.
    exists (flat_map (commitField cf d) pre), (r2 ++ flat_map (commitField cf d) post). simpl. rewrite <- app_assoc. reflexivity. }
  destruct X as [a [b X]]. rewrite X. exists (length a), (length a + S (length r1)).
  split; [lia|]. split; [rewrite app_length; simpl; lia|]. split; [rewrite app_length; simpl; rewrite app_length; simpl; lia|].
  intro dflt. split.
  - rewrite app_nth2 by lia. rewrite Nat.sub_diag. exact N1.
  - rewrite app_nth2 by lia. replace (length a + S (length r1) - length a) with (S (length r1)) by lia. cbn [nth].
    rewrite app_nth2 by lia. rewrite Nat.sub_diag. exact N2.
Qed.

(** The parameter for the water viscosity correction is offered but changes nothing: the
    field follows the one for the polymer viscosity correction. *)
Theorem C94_parameter_ignored_refuted :
  In "VtkWriteWaterViscosityCorrection"%string polymerParameters /\
  forall m w cf cf' d, (forall s, s <> "VtkWriteWaterViscosityCorrection"%string -> parameter cf s = parameter cf' s) ->
    numPhases cf = numPhases cf' -> numComponents cf = numComponents cf' -> numEq cf = numEq cf' -> dimWorld cf = dimWorld cf' ->
    (forall i, phaseName cf i = phaseName cf' i) -> (forall i, componentName cf i = componentName cf' i) ->
    (forall i, primaryVarName cf i = primaryVarName cf' i) ->
    commitAll cf d (fieldsOf m w) = commitAll cf' d (fieldsOf m w).
Proof.
  split; [simpl; tauto|]. intros m w cf cf' d PA E1 E2 E3 E4 N1 N2 N3. unfold commitAll.
  assert (G : forall f, In f (fieldsOf m w) -> commitField cf d f = commitField cf' d f).
  { intros f F. unfold commitField.
    assert (SE : selected cf f = selected cf' f).
    { unfold selected. apply PA. intro K.
      assert (H : forallb (fun f => negb (String.eqb (fParam f) "VtkWriteWaterViscosityCorrection")) (fieldsOf m w) = true).
      { apply (forModels_ok (fun fs => forallb (fun f => negb (String.eqb (fParam f) "VtkWriteWaterViscosityCorrection")) fs)). vm_compute. reflexivity. }
      rewrite forallb_forall in H. specialize (H f F). rewrite K, String.eqb_refl in H. discriminate H. }
    rewrite SE. destruct (selected cf' f); [|reflexivity]. unfold subs. rewrite E1, E2, E3, E4.
    destruct (fShape f); try reflexivity; apply map_ext; intros s; rewrite ?N1, ?N2, ?N3; reflexivity. }
  revert G. generalize (fieldsOf m w). intros fs G. induction fs as [|f t IH]; [reflexivity|]. simpl.
  rewrite (G f (or_introl eq_refl)), IH; [reflexivity|]. intros f' F'. apply G. right. exact F'.
Qed.

(** Every other field is in the file exactly if its parameter is set. *)
Theorem C94_parameters_select : forall m w cf d f, In f (fieldsOf m w) -> namesOk cf -> isDiffusion f = false ->
  subs cf (fShape f) <> [] ->
  (forall g, In g (fieldsOf m w) -> isDiffusion g = true -> selected cf g = false) ->
  ((exists p c en, In (p, c) (subs cf (fShape f)) /\ In en (commitAll cf d (fieldsOf m w)) /\ eName en = fieldName cf f p c) <->
   parameter cf (fParam f) = true).
Proof.
  intros m w cf d f F N ND NE SD. split.
  - intros [p [c [en [PC [EN NM]]]]]. apply in_flat_map in EN. destruct EN as [g [Gi EN]]. apply commit_out in EN.
    destruct EN as [S [p' [c' [PC' EQ]]]]. subst en. unfold entryOf in NM. cbn [eName] in NM.
    assert (NDg : isDiffusion g = false) by (destruct (isDiffusion g) eqn:E; [rewrite (SD g Gi E) in S; discriminate S|reflexivity]).
    rewrite !name_stem in NM by (try assumption; apply (fields_formed m w); assumption).
    assert (PW := fields_apart m w).
    assert (fg : g = f \/ apart g f = true \/ apart f g = true).
    { clear - F Gi PW ND NDg. revert F Gi PW. generalize (fieldsOf m w). induction l as [|h t IH]; intros F Gi PW; [destruct F|].
      simpl in PW. apply andb_true_iff in PW. destruct PW as [P1 P2]. rewrite forallb_forall in P1.
      destruct F as [F|F]; destruct Gi as [Gi|Gi].
      - left. congruence.
      - subst h. right. right. specialize (P1 g Gi). rewrite ND, NDg in P1. exact P1.
      - subst h. right. left. specialize (P1 f F). rewrite ND, NDg in P1. exact P1.
      - apply IH; assumption. }
    destruct fg as [E|[E|E]].
    + subst g. exact S.
    + exfalso. exact (apart_ok cf g f p' c' p c N PC' PC E NM).
    + exfalso. exact (apart_ok cf f g p c p' c' N PC PC' E (eq_sym NM)).
  - intro S. destruct (subs cf (fShape f)) as [|[p c] r] eqn:E; [contradiction|].
    exists p, c, (entryOf cf d f p c). split; [left; reflexivity|]. split; [|reflexivity].
    apply in_flat_map. exists f. split; [exact F|]. apply commit_in; [exact S|]. rewrite E. left. reflexivity.
Qed.

Print Assumptions C94_names_distinct.
Print Assumptions C94_diffusion_names_refuted.
Print Assumptions C94_parameter_ignored_refuted.
Print Assumptions C94_parameters_select.

Example twoPhases_names : namesOk twoPhases.
Proof.
  split; try (intros i j A B H; simpl in A, B; destruct i as [|[|i]]; destruct j as [|[|j]]; try lia; try reflexivity; vm_compute in H; discriminate H);
    try (intros i A; simpl in A; destruct i as [|[|i]]; try lia; vm_compute; intuition lia).
  - intros i A. destruct i as [|[|i]]; simpl; repeat split; discriminate.
  - intros i A. destruct i as [|[|i]]; discriminate.
  - simpl. lia.
Qed.
