From Verif Require Import VcfvModel VcfvSpec VcfvPoints VcfvProofs VcfvVolumes.
From Coq Require Import Setoid Morphisms Lqa.

Lemma abs_scaled c T : 0 <= c -> Qabs (c * T) == c * Qabs T.
Proof. intros H. rewrite Qabs_Qmult. now rewrite (Qabs_pos c H). Qed.

(** ** Extruded hexahedra *)
Definition share (v : nat) (x y : Q) : Q * Q :=
  let c := 1 # 32 in
  match v with
  | 0%nat | 4%nat => (c + c * y, c + c * x)
  | 1%nat | 5%nat => (c * x + c * y + c * y - c, c + c * y)
  | 2%nat | 6%nat => (c + c * x, c * x + c * x + c * y - c)
  | _ => (c * x + c * x + c * y - c, c * x + c * y + c * y - c)
  end.
Lemma prism_scaled p0 p1 p2 p3 p4 p5 c T : 0 <= c -> prismSigned p0 p1 p2 p3 p4 p5 == c * T ->
  prismVolume p0 p1 p2 p3 p4 p5 == c * Qabs T.
Proof. intros C E. unfold prismVolume. rewrite E. now apply abs_scaled. Qed.
Ltac flat := unfold prismSigned, mean, mid, extruded, triple; explode; cbn [Nat.ltb Nat.leb Nat.sub]; explode; unfold dot3; explode.
Lemma hex_share o a b w x y V v : 0 < x -> 0 < y -> 1 < x + y -> (v < 8)%nat ->
  scvVolume Hexahedron (extruded o a b w x y) V v == (fst (share v x y) + snd (share v x y)) * Qabs (triple a b w).
Proof.
  intros X Y XY L.
  do 8 (destruct v as [|v]; [cbn [scvVolume share fst snd]; unfold hexahedronVolume;
    rewrite ?corner_at, ?edge_at, ?face_at, ?center_at by (cbn; lia); unfold faceVerts; explode;
    rewrite Qmult_plus_distr_l; apply Qplus_comp; apply prism_scaled; [lra|flat; field|lra|flat; field]|]); lia.
Qed.
Lemma hex_enclosed_share o a b w x y v : (v < 8)%nat ->
  spaceEnclosed Hexahedron (extruded o a b w x y) v == (fst (share v x y) + snd (share v x y)) * triple a b w.
Proof.
  intros L. do 8 (destruct v as [|v]; [cbn [share fst snd]; geo; unfold extruded; explode; cbn [Nat.ltb Nat.leb Nat.sub]; explode; field|]); lia.
Qed.

(** ** Hexahedra with parallel pillars *)
Definition tall (d : nat -> Q) (v n : nat) : Q :=
  (1 # 3) * (d v + (1 # 2) * (d v + d n) + (1 # 4) * (d 0%nat + d 1%nat + d 2%nat + d 3%nat)).
Definition pillarShare (d : nat -> Q) (v : nat) (x y : Q) : Q * Q :=
  match v with
  | 0%nat | 4%nat => (fst (share v x y) * tall d 0 1, snd (share v x y) * tall d 0 2)
  | 1%nat | 5%nat => (fst (share v x y) * tall d 1 3, snd (share v x y) * tall d 1 0)
  | 2%nat | 6%nat => (fst (share v x y) * tall d 2 0, snd (share v x y) * tall d 2 3)
  | _ => (fst (share v x y) * tall d 3 2, snd (share v x y) * tall d 3 1)
  end.
Lemma pillar_pos d v x y : (forall u, (u < 4)%nat -> 0 < d u) -> 0 < x -> 0 < y -> 1 < x + y -> (v < 8)%nat ->
  0 <= fst (pillarShare d v x y) /\ 0 <= snd (pillarShare d v x y).
Proof.
  intros D X Y XY L.
  pose proof (D 0%nat ltac:(lia)). pose proof (D 1%nat ltac:(lia)). pose proof (D 2%nat ltac:(lia)). pose proof (D 3%nat ltac:(lia)).
  assert (forall v n, (v < 4)%nat -> (n < 4)%nat -> 0 <= tall d v n) as T.
  { intros u n U N. pose proof (D u U). pose proof (D n N). unfold tall. lra. }
  do 8 (destruct v as [|v]; [cbn [pillarShare share fst snd]; split; (apply Qmult_le_0_compat; [lra|apply T; lia])|]); lia.
Qed.
Ltac flatp := unfold prismSigned, mean, mid, pillars, triple, tall; explode; cbn [Nat.ltb Nat.leb Nat.sub]; explode; unfold dot3; explode.
Lemma pillar_volume o a b w x y lo up V v : 0 < x -> 0 < y -> 1 < x + y -> (forall u, (u < 4)%nat -> lo u < up u) -> (v < 8)%nat ->
  scvVolume Hexahedron (pillars o a b w x y lo up) V v ==
  (fst (pillarShare (fun u => up u - lo u) v x y) + snd (pillarShare (fun u => up u - lo u) v x y)) * Qabs (triple a b w).
Proof.
  intros X Y XY D L.
  assert (forall u, (u < 4)%nat -> 0 < up u - lo u) as DD by (intros u U; pose proof (D u U); lra).
  pose proof (pillar_pos (fun u => up u - lo u) v x y DD X Y XY L) as (A & B).
  do 8 (destruct v as [|v]; [cbn [scvVolume pillarShare share fst snd] in *; unfold hexahedronVolume;
    rewrite ?corner_at, ?edge_at, ?face_at, ?center_at by (cbn; lia); unfold faceVerts; explode;
    rewrite Qmult_plus_distr_l; apply Qplus_comp; apply prism_scaled; [assumption|flatp; field|assumption|flatp; field]|]); lia.
Qed.
Lemma pillar_total o a b w x y lo up :
  hexVolume (pillars o a b w x y lo up) ==
  sumQ (map (fun v => fst (pillarShare (fun u => up u - lo u) v x y) + snd (pillarShare (fun u => up u - lo u) v x y)) (seq 0 8)) * triple a b w.
Proof.
  unfold sumQ. cbn [seq map fold_right pillarShare share fst snd]. geo. unfold tall. geo. unfold pillars; explode; cbn [Nat.ltb Nat.leb Nat.sub]; explode. field.
Qed.
