(** * Properties of the fracture quantities *)
From Coq Require Import QArith List Bool Arith Lia Lqa.
From Verif Require Import FractureModel FractureProofs FractureProps FracIqModel FracIqSpec FracIqProofs.
Import ListNotations.

(** The volume an intensive quantities object has after its update, for any primary variables
    and whatever the object held before. *)
Definition volumeAfter (pb : problem) (s p : elementCtx -> nat -> Q) (q : elementCtx -> nat -> quantities) (x : elementCtx) (v : nat) : Q :=
  q_fractureVolume (update pb x v (s x v) (p x v) (q x v)).

Lemma globalIdx_in : forall x v, (v < length (x_vertices x))%nat -> isIn (globalIdx x v) (x_vertices x) = true.
Proof. intros x v H. unfold isIn. apply existsb_exists. exists (globalIdx x v). split; [now apply nth_In|apply Nat.eqb_refl]. Qed.
Lemma globalIdx_inj : forall x v w, NoDup (x_vertices x) -> (v < length (x_vertices x))%nat -> (w < length (x_vertices x))%nat ->
  Nat.eqb (globalIdx x v) (globalIdx x w) = Nat.eqb v w.
Proof.
  intros x v w ND V W. apply eq_iff_eq_true. rewrite !Nat.eqb_eq. split; [|now intros ->]. intros H.
  exact (proj1 (NoDup_nth (x_vertices x) 0%nat) ND v w V W H).
Qed.
Section Common.
Variable pb : problem.
Variable edges : list (nat * nat).
Variable es : list (nat * nat).
Variable len : nat -> nat -> Q.
Hypothesis MP : p_mapper pb = add_all edges.
Hypothesis ES : edgesOf es (p_mapper pb).
Hypothesis WS : symmetric (p_width pb).
Hypothesis LS : symmetric len.
Variable s p : elementCtx -> nat -> Q.
Variable q : elementCtx -> nat -> quantities.
Definition quarter (a b : nat) : Q := p_width pb a b * len a b / 4.
Lemma quarter_sym : symmetric quarter.
Proof. intros a b. unfold quarter. rewrite (WS a b), (LS a b). reflexivity. Qed.

Lemma volumeOf_sum : forall x v, fits len x -> (v < length (x_vertices x))%nat ->
  fractureVolumeOf pb x v == sumOver es (fun e => if hasEdge x e && endOf e (globalIdx x v) then quarter (fst e) (snd e) else 0).
Proof.
  intros x v [ND FL] V. unfold fractureVolumeOf.
  rewrite (fold_sum _ (fun v2 => Nat.eqb v v2 || negb (isFractureEdge (globalIdx x v) (globalIdx x v2) (p_mapper pb)))).
  rewrite Qplus_0_l.
  transitivity (sumOver (seq 0 (length (x_vertices x))) (fun i => (fun b => if Nat.eqb (globalIdx x v) b || negb (isFractureEdge (globalIdx x v) b (p_mapper pb)) then 0
      else quarter (globalIdx x v) b) (nth i (x_vertices x) 0%nat))).
  - apply sum_ext. intros i I. apply in_seq in I. cbv beta. change (nth i (x_vertices x) 0%nat) with (globalIdx x i).
    rewrite (globalIdx_inj x v i ND V) by lia. destruct (Nat.eqb v i || _); [reflexivity|]. unfold quarter. rewrite (FL v i V) by lia. field.
  - rewrite (sum_nth (x_vertices x) 0%nat (fun b => if Nat.eqb (globalIdx x v) b || negb (isFractureEdge (globalIdx x v) b (p_mapper pb)) then 0
      else quarter (globalIdx x v) b)). exact (vertex_sum (p_mapper pb) es ES quarter quarter_sym (x_vertices x) (globalIdx x v) ND (globalIdx_in x v V)).
Qed.
Lemma volume_sum : forall x v, fits len x -> (v < length (x_vertices x))%nat ->
  volumeAfter pb s p q x v == sumOver es (fun e => if hasEdge x e && endOf e (globalIdx x v) then quarter (fst e) (snd e) else 0).
Proof.
  intros x v F V. rewrite <- (volumeOf_sum x v F V). unfold volumeAfter, update.
  destruct (isFractureVertex (globalIdx x v) (p_mapper pb)) eqn:FV; cbn [negb q_fractureVolume]; [reflexivity|].
  rewrite (volumeOf_sum x v F V). symmetry. apply sum_zero. intros [a b] I. destruct (endOf (a, b) (globalIdx x v)) eqn:EN; [|now rewrite andb_false_r].
  exfalso. destruct ES as (_ & OR & IFF). pose proof (proj1 (IFF a b (OR a b I)) I) as FE. rewrite MP in FE, FV. apply C57_fracture_edges in FE.
  assert (T : isFractureVertex (globalIdx x v) (add_all edges) = true).
  { apply C57_fracture_vertices. unfold endOf in EN. cbn [fst snd] in EN. apply orb_true_iff in EN. rewrite !Nat.eqb_eq in EN.
    destruct EN as [<-|<-]; [exists b|exists a]; tauto. }
  congruence.
Qed.
Lemma one_vertex : forall x a c, NoDup (x_vertices x) ->
  sumOver (seq 0 (length (x_vertices x))) (fun v => if Nat.eqb (globalIdx x v) a then c else 0) == if isIn a (x_vertices x) then c else 0.
Proof.
  intros x a c ND. rewrite <- (sum_delta Nat.eqb Nat.eqb_eq (x_vertices x) a c ND).
  rewrite <- (sum_nth (x_vertices x) 0%nat (fun y => if Nat.eqb a y then c else 0)). apply sum_ext. intros v _. rewrite Nat.eqb_sym. reflexivity.
Qed.
Lemma vertex_total : forall grid a, (forall x, In x grid -> fits len x) ->
  vertexFractureVolume (volumeAfter pb s p q) grid a ==
  sumOver es (fun e => if endOf e a then inject_Z (Z.of_nat (elementsAt grid e)) * (p_width pb (fst e) (snd e) * len (fst e) (snd e) / 4) else 0).
Proof.
  intros grid a FG. unfold vertexFractureVolume.
  transitivity (sumOver grid (fun x => sumOver es (fun e => if hasEdge x e then if endOf e a then quarter (fst e) (snd e) else 0 else 0))).
  - apply sum_ext. intros x X. specialize (FG x X).
    transitivity (sumOver (seq 0 (length (x_vertices x))) (fun v => sumOver es (fun e => if Nat.eqb (globalIdx x v) a then if hasEdge x e && endOf e a then quarter (fst e) (snd e) else 0 else 0))).
    + apply sum_ext. intros v V. apply in_seq in V. destruct (Nat.eqb_spec (globalIdx x v) a) as [E|_]; [|symmetry; now apply sum_zero].
      rewrite (volume_sum x v FG) by lia. rewrite E. reflexivity.
    + rewrite sum_swap. apply sum_ext. intros e _. rewrite (one_vertex x a _ (proj1 FG)). destruct (hasEdge x e) eqn:HE; cbn [andb]; [|destruct (isIn a _); reflexivity].
      destruct (endOf e a) eqn:EN; [|destruct (isIn a _); reflexivity].
      assert (IA : isIn a (x_vertices x) = true).
      { unfold hasEdge in HE. apply andb_true_iff in HE. destruct HE as [H1 H2]. unfold endOf in EN. apply orb_true_iff in EN. rewrite !Nat.eqb_eq in EN. destruct EN as [<-|<-]; assumption. }
      rewrite IA. reflexivity.
  - rewrite sum_swap. apply sum_ext. intros e _. rewrite count_sum. destruct (endOf e a); [reflexivity|ring].
Qed.
Lemma grid_total : forall grid, (forall x, In x grid -> fits len x) ->
  gridFractureVolume (volumeAfter pb s p q) grid ==
  sumOver es (fun e => inject_Z (Z.of_nat (elementsAt grid e)) * (p_width pb (fst e) (snd e) * len (fst e) (snd e) / 2)).
Proof.
  intros grid FG. unfold gridFractureVolume.
  transitivity (sumOver grid (fun x => sumOver es (fun e => if hasEdge x e then 2 * quarter (fst e) (snd e) else 0))).
  - apply sum_ext. intros x X. specialize (FG x X).
    transitivity (sumOver (seq 0 (length (x_vertices x))) (fun v => sumOver es (fun e =>
       (if Nat.eqb (globalIdx x v) (fst e) then if hasEdge x e then quarter (fst e) (snd e) else 0 else 0) +
       (if Nat.eqb (globalIdx x v) (snd e) then if hasEdge x e then quarter (fst e) (snd e) else 0 else 0)))).
    + apply sum_ext. intros v V. apply in_seq in V. rewrite (volume_sum x v FG) by lia. apply sum_ext. intros [a b] I.
      unfold endOf. cbn [fst snd]. rewrite (Nat.eqb_sym a), (Nat.eqb_sym b). destruct ES as (_ & OR & _). specialize (OR a b I).
      destruct (hasEdge x (a, b)), (Nat.eqb_spec (globalIdx x v) a), (Nat.eqb_spec (globalIdx x v) b); cbn [andb orb]; try lia; ring.
    + rewrite sum_swap. apply sum_ext. intros e _. rewrite sum_plus, !(one_vertex x _ _ (proj1 FG)).
      destruct (hasEdge x e) eqn:HE; [|destruct (isIn (fst e) _), (isIn (snd e) _); ring]. unfold hasEdge in HE. apply andb_true_iff in HE.
      destruct HE as [H1 H2]. unfold isIn. rewrite H1, H2. ring.
  - rewrite sum_swap. apply sum_ext. intros e _. rewrite count_sum. unfold quarter. field.
Qed.
End Common.

(** A sub-control volume gets a quarter of each fracture edge of its element which ends there. *)
Theorem C102_subvolume : forall pb edges es len s p q x v, p_mapper pb = add_all edges -> edgesOf es (p_mapper pb) ->
  symmetric (p_width pb) -> symmetric len -> fits len x -> (v < length (x_vertices x))%nat ->
  volumeAfter pb s p q x v ==
  sumOver es (fun e => if hasEdge x e && endOf e (globalIdx x v) then p_width pb (fst e) (snd e) * len (fst e) (snd e) / 4 else 0).
Proof. intros. now apply (volume_sum pb edges). Qed.
(** The control volume of a vertex gets a quarter per element next to the edge, so both ends of an edge get the same. *)
Theorem C102_vertex : forall pb edges es len s p q grid a, p_mapper pb = add_all edges -> edgesOf es (p_mapper pb) ->
  symmetric (p_width pb) -> symmetric len -> (forall x, In x grid -> fits len x) ->
  vertexFractureVolume (volumeAfter pb s p q) grid a ==
  sumOver es (fun e => if endOf e a then inject_Z (Z.of_nat (elementsAt grid e)) * (p_width pb (fst e) (snd e) * len (fst e) (snd e) / 4) else 0).
Proof. intros. now apply (vertex_total pb edges). Qed.
(** The volume of all fractures: half of width times length for each element next to an edge. *)
Theorem C102_total : forall pb edges es len s p q grid, p_mapper pb = add_all edges -> edgesOf es (p_mapper pb) ->
  symmetric (p_width pb) -> symmetric len -> (forall x, In x grid -> fits len x) ->
  gridFractureVolume (volumeAfter pb s p q) grid ==
  sumOver es (fun e => inject_Z (Z.of_nat (elementsAt grid e)) * (p_width pb (fst e) (snd e) * len (fst e) (snd e) / 2)).
Proof. intros. now apply (grid_total pb edges). Qed.
(** So the fractures have the volume they have if all of them have an element on both sides. *)
Theorem C102_interior_partial : forall pb edges es len s p q grid, p_mapper pb = add_all edges -> edgesOf es (p_mapper pb) ->
  symmetric (p_width pb) -> symmetric len -> (forall x, In x grid -> fits len x) -> (forall e, In e es -> elementsAt grid e = 2%nat) ->
  gridFractureVolume (volumeAfter pb s p q) grid == sumOver es (fun e => p_width pb (fst e) (snd e) * len (fst e) (snd e)).
Proof.
  intros pb edges es len s p q grid M E W L F H. rewrite (C102_total pb edges es len s p q grid M E W L F). apply sum_ext. intros e I. rewrite (H e I).
  change (inject_Z (Z.of_nat 2)) with 2. field.
Qed.

(** ** The state in the fracture *)
Definition onFracture (pb : problem) (x : elementCtx) (v : nat) : Prop := isFractureVertex (globalIdx x v) (p_mapper pb) = true.
Definition twoPhases (pb : problem) : Prop :=
  (p_wetting pb = 0%nat /\ p_nonWetting pb = 1%nat) \/ (p_wetting pb = 1%nat /\ p_nonWetting pb = 0%nat).
(** The wetting saturation of the primary variables. *)
Definition givenSw (pb : problem) (s0 : Q) : Q := if Nat.eqb (p_wetting pb) 0 then s0 else 1 - s0.
Lemma stdMin_spec : forall a b, stdMin a b <= a /\ stdMin a b <= b /\ (stdMin a b = a \/ stdMin a b = b).
Proof.
  intros a b. unfold stdMin. destruct (Qle_bool a b) eqn:E; [apply Qle_bool_iff in E; repeat split; [lra|lra|now left]|].
  assert (~ a <= b) by (rewrite <- Qle_bool_iff; congruence). repeat split; [lra|lra|now right].
Qed.
Lemma stdMax_spec : forall a b, a <= stdMax a b /\ b <= stdMax a b /\ (stdMax a b = a \/ stdMax a b = b).
Proof.
  intros a b. unfold stdMax. destruct (Qle_bool b a) eqn:E; [apply Qle_bool_iff in E; repeat split; [lra|lra|now left]|].
  assert (~ b <= a) by (rewrite <- Qle_bool_iff; congruence). repeat split; [lra|lra|now right].
Qed.

(** In matrix and fracture of a vertex with fractures the saturations sum up to one; the
    wetting one is at most one in the matrix and at least zero in the fracture, and it is what was
    asked for whenever that is so already. *)
Theorem C103_saturations : forall pb x v s0 p0 q, twoPhases pb -> onFracture pb x v ->
  let r := update pb x v s0 p0 q in
  let w := p_wetting pb in let n := p_nonWetting pb in
  let sm := f_sat (q_fluid r) in let sf := f_sat (q_fractureFluid r) in
  sm w + sm n == 1 /\ sm w <= 1 /\ 0 <= sm n /\ sm w <= givenSw pb s0 /\ (givenSw pb s0 <= 1 -> sm w == givenSw pb s0) /\
  sf w + sf n == 1 /\ 0 <= sf w /\ sf n <= 1 /\
  (0 <= p_satFracture pb (q_fluid r) w -> sf w == p_satFracture pb (q_fluid r) w) /\
  f_pressure (q_fractureFluid r) = f_pressure (q_fluid r) /\ f_visc (q_fractureFluid r) = f_visc (q_fluid r).
Proof.
  intros pb x v s0 p0 q TP OF. unfold update. rewrite OF. cbn [negb q_fluid q_fractureFluid f_pressure f_visc setSaturation].
  set (fs := setSaturation (p_nonWetting pb) _ _). unfold givenSw.
  destruct TP as [[Ew En]|[Ew En]]; subst fs; rewrite Ew, En; cbn [parentUpdate q_fluid f_sat f_pressure f_visc setSaturation setAt Nat.eqb].
  - unfold setAt. cbn [Nat.eqb]. destruct (stdMin_spec 1 s0) as (A1 & A2 & A3).
    match goal with |- context [stdMax 0 ?t] => destruct (stdMax_spec 0 t) as (B1 & B2 & B3); set (sf := t) in * end.
    repeat split; try lra; try reflexivity; intros; destruct A3 as [A3|A3], B3 as [B3|B3]; rewrite ?A3, ?B3 in *; lra.
  - unfold setAt. cbn [Nat.eqb]. destruct (stdMin_spec 1 (1 - s0)) as (A1 & A2 & A3).
    match goal with |- context [stdMax 0 ?t] => destruct (stdMax_spec 0 t) as (B1 & B2 & B3); set (sf := t) in * end.
    repeat split; try lra; try reflexivity; intros; destruct A3 as [A3|A3], B3 as [B3|B3]; rewrite ?A3, ?B3 in *; lra.
Qed.
(** Nothing of a vertex with fractures depends on what the object held before; the mobility in
    the fracture belongs to the saturations there. *)
Theorem C103_fresh : forall pb x v s0 p0 q q', onFracture pb x v ->
  update pb x v s0 p0 q = update pb x v s0 p0 q' /\
  (forall i, fractureMobility (update pb x v s0 p0 q) i =
     p_krFracture pb (f_sat (q_fractureFluid (update pb x v s0 p0 q))) i / f_visc (q_fluid (update pb x v s0 p0 q)) i) /\
  q_fracturePoro (update pb x v s0 p0 q) = p_poro pb (globalIdx x v) /\ q_fracturePerm (update pb x v s0 p0 q) = p_perm pb (globalIdx x v).
Proof.
  intros pb x v s0 p0 q q' OF. unfold onFracture in OF.
  split; [|split; [|split]]; [|intros i; unfold fractureMobility| |]; unfold update; rewrite OF; reflexivity.
Qed.
(** Fluxes ask for the fracture quantities of both ends of fracture edges only, and there they
    are fresh. *)
Theorem C103_fresh_where_used : forall pb edges x y v w s0 p0 q q', p_mapper pb = add_all edges ->
  isFractureEdge (globalIdx x v) (globalIdx y w) (p_mapper pb) = true ->
  update pb x v s0 p0 q = update pb x v s0 p0 q' /\ update pb y w s0 p0 q = update pb y w s0 p0 q'.
Proof.
  intros pb edges x y v w s0 p0 q q' M F. rewrite M in F. apply C57_fracture_edges in F.
  split; apply C103_fresh; unfold onFracture; rewrite M; apply C57_fracture_vertices; [exists (globalIdx y w)|exists (globalIdx x v)]; tauto.
Qed.
(** Away from fractures the volume is zero, the matrix is as in the immiscible model, and the
    other quantities of the fracture are left over from before. *)
Theorem C103_elsewhere : forall pb x v s0 p0 q, ~ onFracture pb x v ->
  let r := update pb x v s0 p0 q in
  q_fractureVolume r = 0 /\ (forall i, f_sat (q_fluid r) i = match i with O => s0 | _ => 1 - s0 end) /\
  q_fractureFluid r = q_fractureFluid q /\ q_fractureKr r = q_fractureKr q.
Proof.
  intros pb x v s0 p0 q N. unfold update. destruct (isFractureVertex (globalIdx x v) (p_mapper pb)) eqn:E; [contradiction|].
  cbn [negb]. repeat split; reflexivity.
Qed.

(** ** Examples and refuted statements *)
Definition tri (a b c : nat) : elementCtx := mkCtx [a; b; c] (fun _ _ => 3).
Definition identity2 (f : phaseVec) : phaseVec := f.
Definition pb0 : problem :=
  mkProblem (add_all [(1, 0)]%nat) (fun _ _ => 1 # 10) (fun _ => 1 # 2) (fun _ => 1) (fun _ _ => 0) identity2
    (fun f => f_sat f) identity2 (fun _ _ => 1 # 1000) 0 1.
Definition q0 : quantities :=
  mkQuantities (mkFluid (fun _ => 7) (fun _ => 7) (fun _ => 7)) (fun _ => 7) (fun _ => 7) (mkFluid (fun _ => 7) (fun _ => 7) (fun _ => 7)) 7 7 7 (fun _ => 7).

Example edges0 : edgesOf [(0, 1)]%nat (p_mapper pb0).
Proof.
  split; [repeat constructor; intros []|]. split; [intros a b [H|[]]; injection H as <- <-; lia|]. intros a b L. cbn [p_mapper pb0].
  rewrite C57_fracture_edges. cbn. split; [intros [H|[]]; injection H as <- <-; right; left; reflexivity|].
  intros [[H|[]]|[H|[]]]; injection H as <- <-; [lia|left; reflexivity].
Qed.
Example fits0 : forall x, In x [tri 0 1 2; tri 1 0 3] -> fits (fun _ _ => 3) x.
Proof. intros x [<-|[<-|[]]]; (split; [repeat constructor; cbn; lia|reflexivity]). Qed.
Example two_sides : gridFractureVolume (volumeAfter pb0 (fun _ _ => 1 # 2) (fun _ _ => 1) (fun _ _ => q0)) [tri 0 1 2; tri 1 0 3] == 3 # 10.
Proof. vm_compute. reflexivity. Qed.
Example twoPhases0 : twoPhases pb0 /\ onFracture pb0 (tri 0 1 2) 0 /\ ~ onFracture pb0 (tri 0 1 2) 2.
Proof. split; [left; split; reflexivity|]. split; [reflexivity|]. intros H. discriminate H. Qed.

(** A fracture on the boundary of the domain has only half of its volume. *)
Theorem C102_boundary_refuted :
  exists pb edges es len grid, p_mapper pb = add_all edges /\ edgesOf es (p_mapper pb) /\ (forall x, In x grid -> fits len x) /\
  (forall e, In e es -> elementsAt grid e = 1%nat) /\
  gridFractureVolume (volumeAfter pb (fun _ _ => 1 # 2) (fun _ _ => 1) (fun _ _ => q0)) grid == (1 # 2) * sumOver es (fun e => p_width pb (fst e) (snd e) * len (fst e) (snd e)) /\
  0 < sumOver es (fun e => p_width pb (fst e) (snd e) * len (fst e) (snd e)).
Proof.
  exists pb0, [(1, 0)]%nat, [(0, 1)]%nat, (fun _ _ => 3), [tri 0 1 2]. split; [reflexivity|]. split; [exact edges0|].
  split; [intros x [<-|[]]; apply fits0; left; reflexivity|]. split; [intros e [<-|[]]; reflexivity|]. split; [vm_compute; reflexivity|vm_compute; reflexivity].
Qed.
(** Saturations are not kept between zero and one on both sides: a negative one stays in the
    matrix, and one above one in the fracture. *)
Theorem C103_range_refuted : exists pb x v s0 p0 q, twoPhases pb /\ onFracture pb x v /\ f_sat (q_fluid (update pb x v s0 p0 q)) (p_wetting pb) < 0.
Proof. exists pb0, (tri 0 1 2), 0%nat, (- (1 # 10)), 1, q0. split; [left; split; reflexivity|]. split; [reflexivity|]. vm_compute. reflexivity. Qed.
(** The mobility in the matrix is that of the saturation before it was limited. *)
Theorem C103_matrix_mobility_refuted : exists pb x v s0 p0 q, twoPhases pb /\ onFracture pb x v /\
  ~ (q_kr (update pb x v s0 p0 q) (p_wetting pb) == p_krMatrix pb (f_sat (q_fluid (update pb x v s0 p0 q))) (p_wetting pb)).
Proof.
  exists pb0, (tri 0 1 2), 0%nat, (3 # 2), 1, q0. split; [left; split; reflexivity|]. split; [reflexivity|]. vm_compute. discriminate.
Qed.

Print Assumptions C102_subvolume.
Print Assumptions C102_vertex.
Print Assumptions C102_total.
Print Assumptions C102_interior_partial.
Print Assumptions C102_boundary_refuted.
Print Assumptions C103_saturations.
Print Assumptions C103_fresh.
Print Assumptions C103_fresh_where_used.
Print Assumptions C103_elsewhere.
Print Assumptions C103_range_refuted.
Print Assumptions C103_matrix_mobility_refuted.
