From Verif Require Import VcfvModel VcfvSpec.
From Coq Require Import Setoid Morphisms Lqa.

(** ** Vectors up to equality of rationals *)
#[export] Instance eq3_equiv : Equivalence eq3.
Proof.
  split.
  - intros a. repeat split; reflexivity.
  - intros a b (A & B & C). repeat split; now symmetry.
  - intros a b c (A & B & C) (A' & B' & C'). repeat split; [now rewrite A|now rewrite B|now rewrite C].
Qed.
#[export] Instance px_proper : Proper (eq3 ==> Qeq) px. Proof. intros a b H; apply H. Qed.
#[export] Instance py_proper : Proper (eq3 ==> Qeq) py. Proof. intros a b H; apply H. Qed.
#[export] Instance pz_proper : Proper (eq3 ==> Qeq) pz. Proof. intros a b H; apply H. Qed.
#[export] Instance add3_proper : Proper (eq3 ==> eq3 ==> eq3) add3.
Proof. intros a b (A & B & C) c d (D & E & F). repeat split; cbn; [now rewrite A, D|now rewrite B, E|now rewrite C, F]. Qed.
#[export] Instance sub3_proper : Proper (eq3 ==> eq3 ==> eq3) sub3.
Proof. intros a b (A & B & C) c d (D & E & F). repeat split; cbn; [now rewrite A, D|now rewrite B, E|now rewrite C, F]. Qed.
#[export] Instance scale3_proper : Proper (eq3 ==> Qeq ==> eq3) scale3.
Proof. intros a b (A & B & C) c d E. repeat split; cbn; [now rewrite A, E|now rewrite B, E|now rewrite C, E]. Qed.
#[export] Instance dot3_proper : Proper (eq3 ==> eq3 ==> Qeq) dot3.
Proof. intros a b (A & B & C) c d (D & E & F). unfold dot3. now rewrite A, B, C, D, E, F. Qed.
#[export] Instance cross3_proper : Proper (eq3 ==> eq3 ==> eq3) cross3.
Proof. intros a b (A & B & C) c d (D & E & F). repeat split; cbn; now rewrite ?A, ?B, ?C, ?D, ?E, ?F. Qed.
#[export] Instance prismSigned_proper : Proper (eq3 ==> eq3 ==> eq3 ==> eq3 ==> eq3 ==> eq3 ==> Qeq) prismSigned.
Proof. intros a a' A b b' B c c' C d d' D e e' E f f' F. unfold prismSigned. now rewrite A, B, C, D, E, F. Qed.
#[export] Instance prismVolume_proper : Proper (eq3 ==> eq3 ==> eq3 ==> eq3 ==> eq3 ==> eq3 ==> Qeq) prismVolume.
Proof. intros a a' A b b' B c c' C d d' D e e' E f f' F. unfold prismVolume. now rewrite A, B, C, D, E, F. Qed.
#[export] Instance quadArea_proper : Proper (eq3 ==> eq3 ==> eq3 ==> eq3 ==> Qeq) quadrilateralArea.
Proof. intros a a' A b b' B c c' C d d' D. unfold quadrilateralArea. now rewrite A, B, C, D. Qed.
#[export] Instance normal_proper : Proper (eq3 ==> eq3 ==> eq3 ==> eq3 ==> eq3) normalOfQuadrilateral3D.
Proof. intros a a' A b b' B c c' C d d' D. unfold normalOfQuadrilateral3D. now rewrite A, B, C, D. Qed.

(** ** Points *)
Definition combo (ws : list Q) (P : nat -> v3) : v3 :=
  fold_left (fun a v => add3 a (scale3 (P v) (nth v ws 0))) (seq 0 (length ws)) zero3.
Lemma fold_ext3 (f g : nat -> v3) l : (forall v, In v l -> eq3 (f v) (g v)) -> forall a b, eq3 a b ->
  eq3 (fold_left (fun a v => add3 a (f v)) l a) (fold_left (fun a v => add3 a (g v)) l b).
Proof.
  induction l as [|x l IH]; intros H a b E; [exact E|]. cbn [fold_left]. apply IH; [intros; apply H; now right|].
  rewrite E, (H x) by now left. reflexivity.
Qed.
Lemma global_at s P l ws : length ws = numVertices s -> (forall v, In v (seq 0 (numVertices s)) -> weight s v l == nth v ws 0) ->
  eq3 (global s P l) (combo ws P).
Proof.
  intros L H. unfold global, combo. rewrite L.
  apply (fold_ext3 (fun v => scale3 (P v) (weight s v l)) (fun v => scale3 (P v) (nth v ws 0))); [|reflexivity].
  intros v I. now rewrite (H v I).
Qed.
Ltac weights := intros v I; cbn in I; repeat (destruct I as [<-|I]; [vm_compute; reflexivity|]); destruct I.
Ltac at_point ws := rewrite (global_at _ _ _ ws); [|reflexivity|weights].
Lemma global_red s P l : eq3 (global s P l) (combo (map (fun v => Qred (weight s v l)) (seq 0 (numVertices s))) P).
Proof.
  apply global_at.
  - now rewrite map_length, seq_length.
  - intros v I. apply in_seq in I.
    rewrite (nth_indep _ 0 (Qred (weight s 0 l))) by (rewrite map_length, seq_length; lia).
    rewrite (map_nth (fun v => Qred (weight s v l))), seq_nth by lia. now rewrite Qred_correct.
Qed.
Ltac comp3 := repeat split; cbn [px py pz add3 sub3 scale3 zero3 cross3 mid mean mean4 fold_right]; try ring.
(** The means of the corners of edges, faces and elements. *)
Ltac eval_point := 
  rewrite global_red;
  match goal with |- eq3 (combo ?ws _) _ => let w := eval vm_compute in ws in change ws with w end;
  unfold combo, mean, mid; cbn [fold_left seq length nth fold_right Z.of_nat Pos.of_succ_nat Pos.succ inject_Z];
  repeat split; cbn [px py pz add3 scale3 zero3]; field.

Lemma corner_at s P v : (v < numVertices s)%nat -> eq3 (corner s P v) (P v).
Proof.
  unfold corner. intros H.
  destruct s; cbn in H; do 8 (destruct v as [|v]; [first [lia | eval_point]|]); lia.
Qed.
Lemma edge_at s P k : (k < length (refEdges s))%nat ->
  eq3 (edgeCoord s P k) (mid (P (fst (nth k (refEdges s) (0, 0)%nat))) (P (snd (nth k (refEdges s) (0, 0)%nat)))).
Proof.
  unfold edgeCoord. intros H.
  destruct s; cbn in H; do 12 (destruct k as [|k]; [first [lia | cbn [nth refEdges fst snd]; eval_point]|]); lia.
Qed.
Lemma face_at s P f : (f < length (refFaces s))%nat -> eq3 (faceCoord s P f) (mean P (faceVerts s f)).
Proof.
  unfold faceCoord. intros H.
  destruct s; cbn in H; do 6 (destruct f as [|f]; [first [lia | unfold faceVerts; cbn [nth refFaces]; eval_point]|]); lia.
Qed.
Lemma center_at s P : eq3 (elementGlobal s P) (mean P (seq 0 (numVertices s))).
Proof. unfold elementGlobal, elementLocal. destruct s; cbn [numVertices refCorners length seq]; eval_point. Qed.
