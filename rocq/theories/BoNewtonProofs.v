From Verif Require Import BoNewtonModel BoNewtonSpec BoVarsProofs BoStableProofs BoContProofs.

Local Arguments Qplus : simpl never.
Local Arguments Qminus : simpl never.
Local Arguments Qmult : simpl never.
Local Arguments Qdiv : simpl never.
Local Arguments Qopp : simpl never.

Lemma qabs_spec a : (a < 0 /\ qabs a = - a) \/ (0 <= a /\ qabs a = a).
Proof.
  unfold qabs. destruct (Qltb a 0) eqn:E; [left; apply Qltb_lt in E | right; apply Qltb_ge in E]; auto.
Qed.
Lemma clamp_spec a lo hi :
  (a < lo /\ clamp a lo hi = lo) \/ (lo <= a /\ hi < a /\ clamp a lo hi = hi) \/
  (lo <= a /\ a <= hi /\ clamp a lo hi = a).
Proof.
  unfold clamp. destruct (Qltb a lo) eqn:E1; [left; apply Qltb_lt in E1; auto|].
  apply Qltb_ge in E1. right.
  destruct (Qltb hi a) eqn:E2; [left; apply Qltb_lt in E2 | right; apply Qltb_ge in E2]; auto.
Qed.
Lemma sign1_spec a : (a < 0 /\ sign1 a = -(1)) \/ (0 <= a /\ sign1 a = 1).
Proof.
  unfold sign1. destruct (Qltb a 0) eqn:E; [left; apply Qltb_lt in E | right; apply Qltb_ge in E]; auto.
Qed.
Lemma signum_spec a : (a < 0 /\ signum a = -(1)) \/ (a == 0 /\ signum a = 0) \/ (0 < a /\ signum a = 1).
Proof.
  unfold signum. destruct (Qltb 0 a) eqn:E; [right; right; apply Qltb_lt in E; auto|].
  apply Qltb_ge in E.
  destruct (Qltb a 0) eqn:E2; [left; apply Qltb_lt in E2; auto | apply Qltb_ge in E2].
  right; left. split; [lra|reflexivity].
Qed.

(** The change with a limited amount. *)
Lemma limited_amount d m : 0 <= m -> within m (sign1 d * qmin (qabs d) m) 0.
Proof.
  intros M. unfold within. destruct (qabs_spec d) as [[A E]|[A E]]; rewrite E;
  destruct (qmin_spec (- d) m) as [[B F]|[B F]]; destruct (qmin_spec d m) as [[B' F']|[B' F']];
  rewrite ?F, ?F'; destruct (sign1_spec d) as [[D G]|[D G]]; rewrite G; try lra.
Qed.

Section Update.
Variable c : config.
Variable l : limits.
Variable cur : vars.
Variable upd : Z -> Q.
Local Notation x := (idx c).
Local Notation nv := (new_value c l cur upd).

(** * The loop over the variables *)
Lemma loop_prefix : forall n next,
  let v := fold_left (fun nx pv => set pv (nv pv nx) nx) (map Z.of_nat (seq 0 n)) next in
  same_meanings v next /\
  (forall i, ~ (0 <= i < Z.of_nat n)%Z -> val v i = val next i) /\
  (forall i, (0 <= i < Z.of_nat n)%Z ->
     exists nx, val v i = nv i nx /\ forall j, (0 <= j < i)%Z -> val nx j = val v j).
Proof.
  induction n as [|n IH]; intros next; cbv zeta.
  - cbn. split; [repeat split|]. split; [reflexivity|]. intros i H. lia.
  - rewrite seq_S, map_app, fold_left_app. cbn [map fold_left plus].
    destruct (IH next) as [M [O V]]. cbv zeta in M, O, V.
    set (w := fold_left _ (map Z.of_nat (seq 0 n)) next) in *. clearbody w.
    split; [destruct M as [M1 [M2 [M3 [M4 M5]]]]; repeat split; assumption|].
    split.
    + intros i H. rewrite set_other by lia. apply O. lia.
    + intros i H. destruct (Z.eq_dec i (Z.of_nat n)) as [->|N].
      * exists w. split; [apply set_same|]. intros j J. rewrite set_other by lia. reflexivity.
      * destruct (V i) as [nx [E F]]; [lia|]. exists nx. rewrite set_other by exact N.
        split; [exact E|]. intros j J. rewrite set_other by lia. apply F, J.
Qed.

Lemma updated_spec : forall next, let v := updated c l cur upd next in
  same_meanings v next /\
  (forall i, ~ (0 <= i < numEq x)%Z -> val v i = val next i) /\
  (forall i, (0 <= i < numEq x)%Z ->
     exists nx, val v i = nv i nx /\ forall j, (0 <= j < i)%Z -> val nx j = val v j).
Proof.
  intros next v. destruct (loop_prefix (Z.to_nat (numEq x)) next) as [M [O V]].
  unfold v, updated, all_variables. split; [exact M|].
  split; intros i H.
  - destruct (Z_lt_le_dec (numEq x) 0).
    + apply O. lia.
    + apply O. rewrite Z2Nat.id by lia. exact H.
  - apply V. rewrite Z2Nat.id by lia. exact H.
Qed.

(** * One variable at a time *)
Hypothesis L : layout x.

Lemma other : forall i j, (i < 15)%nat -> (j < 15)%nat -> i <> j -> (0 <= name x i)%Z ->
  (name x i =? name x j)%Z = false.
Proof. intros i j Hi Hj N P. apply Z.eqb_neq. exact (proj1 L i j Hi Hj N P). Qed.

Ltac resolve k :=
  let P := fresh "P" in
  match goal with H : (0 <= _)%Z |- _ => pose proof H as P end;
  let go j := (try (let E := fresh "E" in
     assert (E : (name x k =? name x j)%Z = false) by (apply other; [lia|lia|lia|exact P]);
     unfold name in E; cbn [nth names] in E; rewrite E; clear E)) in
  go 0%nat; go 1%nat; go 2%nat; go 3%nat; go 4%nat; go 5%nat; go 6%nat; go 7%nat; go 8%nat;
  go 9%nat; go 10%nat; go 11%nat; go 12%nat; go 13%nat; go 14%nat;
  rewrite ?andb_false_r; rewrite ?Z.eqb_refl, ?andb_true_r;
  rewrite ?(proj2 (Z.leb_le _ _) P); cbn [when andb].

Ltac start k := intros; try (match goal with j := _ : Z |- _ => subst j end); unfold new_value, limited, on; cbv zeta; resolve k.

Lemma nv_pressure : forall nx, (0 <= pressureSwitchIdx x)%Z ->
  let i := pressureSwitchIdx x in
  nv i nx = clamp (val cur i - (if Qltb (dpMaxRel l * val cur i) (qabs (upd i))
                                then signum (upd i) * dpMaxRel l * val cur i else upd i))
                  (pressMin l) (pressMax l).
Proof. start 0%nat. reflexivity. Qed.

Lemma nv_water : forall nx, (0 <= waterSwitchIdx x)%Z ->
  let i := waterSwitchIdx x in
  nv i nx = val cur i - match m_water cur with Sw => upd i * satAlpha c l cur upd
                                            | _ => keep_factor (upd i) (val cur i) end.
Proof. start 1%nat. reflexivity. Qed.

Lemma nv_gas : forall nx, (0 <= compositionSwitchIdx x)%Z ->
  let i := compositionSwitchIdx x in
  nv i nx = val cur i - match m_gas cur with Sg => upd i * satAlpha c l cur upd
                                            | _ => keep_factor (upd i) (val cur i) end.
Proof. start 2%nat. reflexivity. Qed.

Lemma nv_solvent : forall nx, (0 <= solventSaturationIdx x)%Z ->
  let i := solventSaturationIdx x in
  nv i nx = match m_solvent cur with
            | Ss => qmin (qmax (val cur i - upd i * satAlpha c l cur upd) 0) 1
            | _ => val cur i - keep_factor (upd i) (val cur i) end.
Proof. start 3%nat. destruct (m_solvent cur); reflexivity. Qed.

Lemma nv_z : forall nx, (0 <= zFractionIdx x)%Z ->
  let i := zFractionIdx x in
  nv i nx = qmin (qmax (val cur i - clamp (upd i) (val cur i - 1) (val cur i)) 0) 1.
Proof. start 4%nat. reflexivity. Qed.

Lemma nv_polymer : forall nx, (0 <= polymerConcentrationIdx x)%Z ->
  let i := polymerConcentrationIdx x in nv i nx = qmax (val cur i - upd i) 0.
Proof. start 5%nat. reflexivity. Qed.

Lemma nv_weight : forall nx, (0 <= polymerMoleWeightIdx x)%Z ->
  let i := polymerMoleWeightIdx x in
  nv i nx = if Qltb (val nx (polymerConcentrationIdx x)) (1#10000000000) then 0
            else qmax (val cur i - sign1 (upd i) * qmin (qabs (upd i)) 100 * satAlpha c l cur upd) 0.
Proof. start 6%nat. reflexivity. Qed.

Lemma nv_microbial : forall nx, (0 <= microbialConcentrationIdx x)%Z ->
  let i := microbialConcentrationIdx x in nv i nx = clamp (val cur i - upd i) 0 (densityBiofilm l).
Proof. start 7%nat. reflexivity. Qed.

Lemma nv_foam : forall nx, (0 <= foamConcentrationIdx x)%Z ->
  let i := foamConcentrationIdx x in nv i nx = qmax (val cur i - upd i) 0.
Proof. start 12%nat. reflexivity. Qed.

Lemma nv_temperature : forall nx, (0 <= temperatureIdx x)%Z ->
  let i := temperatureIdx x in
  nv i nx = clamp (val cur i - sign1 (upd i) * qmin (qabs (upd i)) (maxTempChange l)) (tempMin l) (tempMax l).
Proof. start 14%nat. reflexivity. Qed.

Lemma nv_salt : forall nx, (0 <= saltConcentrationIdx x)%Z ->
  let i := saltConcentrationIdx x in
  nv i nx = if enableSaltPrecipitation c then
              match m_brine cur with
              | Sp => qmin (val cur i - sign1 (upd i) * qmin (qabs (upd i)) (1#10)) (1 - (1#100000000))
              | Cs => qmax (val cur i - upd i) 0
              | BDisabled => val cur i - upd i
              end
            else qmax (val cur i - upd i) 0.
Proof.
  start 13%nat. destruct (enableSaltPrecipitation c), (m_brine cur); cbn [negb orb andb]; reflexivity.
Qed.

Lemma nv_micp : forall nx, (0 <= microbialConcentrationIdx x)%Z ->
  ((0 <= oxygenConcentrationIdx x)%Z ->
     nv (oxygenConcentrationIdx x) nx =
     clamp (val cur (oxygenConcentrationIdx x) - upd (oxygenConcentrationIdx x)) 0 (maximumOxygen l)) /\
  ((0 <= ureaConcentrationIdx x)%Z ->
     nv (ureaConcentrationIdx x) nx =
     clamp (val cur (ureaConcentrationIdx x) - upd (ureaConcentrationIdx x)) 0 (maximumUrea l)) /\
  ((0 <= biofilmConcentrationIdx x)%Z ->
     nv (biofilmConcentrationIdx x) nx =
     clamp (val cur (biofilmConcentrationIdx x) - upd (biofilmConcentrationIdx x)) 0 (maximumSolid l)) /\
  ((0 <= calciteConcentrationIdx x)%Z ->
     nv (calciteConcentrationIdx x) nx =
     clamp (val cur (calciteConcentrationIdx x) - upd (calciteConcentrationIdx x)) 0 (maximumSolid l)).
Proof.
  intros nx M. apply Z.leb_le in M.
  repeat split; intros H; unfold new_value, limited, on; cbv zeta;
    [resolve 8%nat|resolve 9%nat|resolve 10%nat|resolve 11%nat]; rewrite M; reflexivity.
Qed.
End Update.
