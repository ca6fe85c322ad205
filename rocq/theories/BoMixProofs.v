(** Proofs about the mixing rules. *)
From Coq Require Import Reals List Lra Lia Bool Psatz.
From Verif Require Import BoMixModel BoMixSpec.
Import ListNotations.
Local Open Scope R_scope.

Lemma ltb_true x y : x < y -> ltb x y = true.
Proof. unfold ltb. destruct (Rlt_dec x y); [reflexivity | contradiction]. Qed.
Lemma ltb_false x y : y <= x -> ltb x y = false.
Proof. unfold ltb. destruct (Rlt_dec x y); [lra | reflexivity]. Qed.
Lemma ltb_case x y : (x < y /\ ltb x y = true) \/ (y <= x /\ ltb x y = false).
Proof. unfold ltb. destruct (Rlt_dec x y); [left | right]; split; auto; lra. Qed.
Lemma cutOff_pos : 0 < cutOff.
Proof. unfold cutOff. apply Rinv_0_lt_compat. apply pow_lt. lra. Qed.

(* ----- hulls ----- *)
Lemma inHull_in l x : In x l -> inHull l x.
Proof. intros H. exists x, x. repeat split; auto; lra. Qed.
Lemma inHull_combo l u v t : inHull l u -> inHull l v -> 0 <= t <= 1 -> inHull l (t * u + (1 - t) * v).
Proof.
  intros (a & b & Ha & Hb & H1) (c & d & Hc & Hd & H2) Ht.
  assert (L : exists x, In x l /\ x <= a /\ x <= c).
  { destruct (Rle_dec a c); [exists a | exists c]; repeat split; auto; lra. }
  assert (U : exists x, In x l /\ b <= x /\ d <= x).
  { destruct (Rle_dec b d); [exists d | exists b]; repeat split; auto; lra. }
  destruct L as (x & Hx & X1 & X2), U as (y & Hy & Y1 & Y2).
  exists x, y. repeat split; auto; nra.
Qed.
Lemma inHull_combo3 l u v z r s t : inHull l u -> inHull l v -> inHull l z ->
  0 <= r -> 0 <= s -> 0 <= t -> r + s + t = 1 -> inHull l (r * u + s * v + t * z).
Proof.
  intros Hu Hv Hz Hr Hs Ht E.
  destruct (Req_dec (s + t) 0) as [Z | Z].
  - assert (s = 0) by lra. assert (t = 0) by lra. assert (r = 1) by lra. subst.
    replace (1 * u + 0 * v + 0 * z) with u by ring. exact Hu.
  - replace (r * u + s * v + t * z) with (r * u + (1 - r) * (s / (s + t) * v + (1 - s / (s + t)) * z)).
    + apply inHull_combo; [exact Hu | | lra]. apply inHull_combo; auto.
      split; [apply Rmult_le_pos; [lra | left; apply Rinv_0_lt_compat; lra] | ].
      apply Rmult_le_reg_r with (s + t); [lra|]. unfold Rdiv. rewrite Rmult_assoc, Rinv_l by exact Z. lra.
    + replace (1 - r) with (s + t) by lra. field. exact Z.
Qed.
Lemma inHull_incl l m x : (forall y, In y l -> In y m) -> inHull l x -> inHull m x.
Proof. intros I (a & b & A & B & H). exists a, b. auto. Qed.
Lemma inHull_sub l m x : (forall y, In y l -> inHull m y) -> inHull l x -> inHull m x.
Proof.
  intros I (a & b & A & B & H). destruct (I a A) as (a1 & u1 & A1 & U1 & P). destruct (I b B) as (u2 & b2 & U2 & B2 & Q).
  exists a1, b2. repeat split; auto; lra.
Qed.
Lemma inHull_pos l x : (forall y, In y l -> 0 < y) -> inHull l x -> 0 < x.
Proof. intros P (a & b & A & B & H). specialize (P a A). lra. Qed.
Lemma inHull_one a x : inHull [a] x -> x = a.
Proof. intros (u & v & [U|[]] & [V|[]] & H). subst. lra. Qed.
(** From the reciprocals to the values. *)
Lemma inHull_inv l x : 0 < x -> (forall y, In y l -> 0 < y) -> inHull (map Rinv l) (/ x) -> inHull l x.
Proof.
  intros X P (a & b & A & B & H). apply in_map_iff in A, B.
  destruct A as (a' & <- & A), B as (b' & <- & B). exists b', a'. repeat split; auto.
  - pose proof (P _ B). destruct H as [_ H].
    apply Rnot_lt_le. intros C. apply Rinv_lt_contravar in C; [lra|]. apply Rmult_lt_0_compat; lra.
  - pose proof (P _ A). destruct H as [H _].
    apply Rnot_lt_le. intros C. apply Rinv_lt_contravar in C; [lra|]. apply Rmult_lt_0_compat; lra.
Qed.

Lemma inHull_inv_of l x : (forall y, In y l -> 0 < y) -> inHull l x -> inHull (map Rinv l) (/ x).
Proof.
  intros P (a & b & A & B & H). pose proof (P a A). pose proof (P b B).
  exists (/ b), (/ a). split; [apply in_map; exact B|]. split; [apply in_map; exact A|].
  split; apply Rinv_le_contravar; lra.
Qed.

(* ----- powers ----- *)
Lemma Rpower_pos x y : 0 < Rpower x y.
Proof. unfold Rpower. apply exp_pos. Qed.
Lemma root4_pos x : 0 < root4 x.
Proof. apply Rpower_pos. Qed.
Lemma Rpower4 x : 0 < x -> Rpower x 4 = x ^ 4.
Proof. intros H. replace 4 with (INR 4) by (simpl; lra). rewrite Rpower_pow by exact H. reflexivity. Qed.
Lemma root4_pow x : 0 < x -> root4 x ^ 4 = x.
Proof.
  intros H. rewrite <- Rpower4 by apply root4_pos. unfold root4. rewrite Rpower_mult.
  replace (/ 4 * 4) with 1 by field. apply Rpower_1; exact H.
Qed.
Lemma root4_of_pow q : 0 < q -> root4 (q ^ 4) = q.
Proof.
  intros H. rewrite <- Rpower4 by exact H. unfold root4. rewrite Rpower_mult.
  replace (4 * / 4) with 1 by field. apply Rpower_1; exact H.
Qed.
Lemma pow4_le a b : 0 < a -> a <= b -> a ^ 4 <= b ^ 4.
Proof. intros A B. apply pow_incr. lra. Qed.
Lemma root4_le a b : 0 < a -> a <= b -> root4 a <= root4 b.
Proof. intros A B. apply Rle_Rpower_l; lra. Qed.
Lemma root4_inv_inj x y : 0 < x -> 0 < y -> / root4 x = / root4 y -> x = y.
Proof.
  intros X Y H. rewrite <- (root4_pow x X), <- (root4_pow y Y), <- (Rinv_inv (root4 x)), H, Rinv_inv. reflexivity.
Qed.
Lemma inHull_root l x : 0 < x -> (forall y, In y l -> 0 < y) -> inHull (map root4 l) (root4 x) -> inHull l x.
Proof.
  intros X P (a & b & A & B & H). apply in_map_iff in A, B.
  destruct A as (a' & <- & A), B as (b' & <- & B). exists a', b'. repeat split; auto.
  - rewrite <- (root4_pow a'), <- (root4_pow x) by auto. apply pow4_le; [apply root4_pos | lra].
  - rewrite <- (root4_pow b'), <- (root4_pow x) by auto. apply pow4_le; [apply root4_pos | lra].
Qed.
Lemma inHull_root_of l x : 0 < x -> (forall y, In y l -> 0 < y) -> inHull l x -> inHull (map root4 l) (root4 x).
Proof.
  intros X P (a & b & A & B & H). exists (root4 a), (root4 b). 
  repeat split; try (apply in_map; assumption); apply root4_le; auto; lra.
Qed.

(** Between the pure value and the mixture. *)
Lemma towards_pos a b w : 0 < towards a b w.
Proof. unfold towards. apply Rmult_lt_0_compat; apply Rpower_pos. Qed.
Lemma towards_0 a b : 0 < a -> 0 < b -> towards a b 0 = a.
Proof. intros A B. unfold towards. rewrite Rminus_0_r, Rpower_1, Rpower_O; auto. ring. Qed.
Lemma towards_1 a b : 0 < a -> 0 < b -> towards a b 1 = b.
Proof. intros A B. unfold towards. replace (1 - 1) with 0 by ring. rewrite Rpower_1, Rpower_O; auto. ring. Qed.
Lemma towards_same a w : 0 < a -> towards a a w = a.
Proof. intros A. unfold towards. rewrite <- Rpower_plus. replace (1 - w + w) with 1 by ring. apply Rpower_1; auto. Qed.
Lemma towards_mono a b c d w : 0 < a -> 0 < b -> a <= c -> b <= d -> 0 <= w <= 1 -> towards a b w <= towards c d w.
Proof.
  intros A B C D W. unfold towards. apply Rmult_le_compat; try (left; apply Rpower_pos); apply Rle_Rpower_l; lra.
Qed.
Lemma towards_hull a b w : 0 < a -> 0 < b -> 0 <= w <= 1 -> inHull [a; b] (towards a b w).
Proof.
  intros A B W. destruct (Rle_dec a b) as [L | L].
  - exists a, b. split; [left; auto|]. split; [right; left; auto|]. split.
    + rewrite <- (towards_same a w) at 1 by auto. apply towards_mono; lra.
    + rewrite <- (towards_same b w) at 2 by auto. apply towards_mono; lra.
  - exists b, a. split; [right; left; auto|]. split; [left; auto|]. split.
    + rewrite <- (towards_same b w) at 1 by auto. apply towards_mono; lra.
    + rewrite <- (towards_same a w) at 2 by auto. apply towards_mono; lra.
Qed.
Lemma towards_in l a b w : 0 < a -> 0 < b -> 0 <= w <= 1 -> inHull l a -> inHull l b -> inHull l (towards a b w).
Proof.
  intros A B W Ha Hb. eapply inHull_sub; [|apply towards_hull; eauto].
  intros y [<-|[<-|[]]]; auto.
Qed.

(* ----- mixtures ----- *)
Lemma mixTwo_pos a s x y : 0 < a -> 0 < s -> 0 < mixTwo a s x y.
Proof.
  intros A S. unfold mixTwo. destruct (ltb_case cutOff (y + x)) as [(_ & ->) | (_ & ->)]; [|exact A].
  apply Rmult_lt_0_compat; [exact A|]. apply Rmult_lt_0_compat; [exact S|]. apply Rinv_0_lt_compat, Rpower_pos.
Qed.
Lemma mixThree_pos a b c x y z : 0 < a -> 0 < b -> 0 < c -> 0 < mixThree a b c x y z.
Proof.
  intros A B C. unfold mixThree. destruct (ltb_case cutOff (x + z + y)) as [(_ & ->) | (_ & ->)]; [|exact A].
  apply Rmult_lt_0_compat; [exact A|]. apply Rmult_lt_0_compat; [apply Rmult_lt_0_compat; assumption|].
  apply Rinv_0_lt_compat, Rpower_pos.
Qed.

Lemma weights_pos u v a b : 0 <= u -> 0 <= v -> u + v = 1 -> 0 < a -> 0 < b -> 0 < u * a + v * b.
Proof.
  intros U V E A B. pose proof (Rmult_le_pos u a U (Rlt_le _ _ A)). pose proof (Rmult_le_pos v b V (Rlt_le _ _ B)).
  destruct (Rle_lt_or_eq_dec 0 u U) as [P | <-].
  - pose proof (Rmult_lt_0_compat u a P A). lra.
  - assert (v = 1) by lra. subst v. lra.
Qed.
Lemma weights_pos3 u v w a b c : 0 <= u -> 0 <= v -> 0 <= w -> u + v + w = 1 -> 0 < a -> 0 < b -> 0 < c ->
  0 < u * a + v * b + w * c.
Proof.
  intros U V W E A B C. pose proof (Rmult_le_pos u a U (Rlt_le _ _ A)). pose proof (Rmult_le_pos v b V (Rlt_le _ _ B)).
  pose proof (Rmult_le_pos w c W (Rlt_le _ _ C)).
  destruct (Rle_lt_or_eq_dec 0 u U) as [P | <-].
  - pose proof (Rmult_lt_0_compat u a P A). lra.
  - pose proof (weights_pos v w b c V W ltac:(lra) B C). lra.
Qed.
Lemma mixTwo_root a s x y : 0 < a -> 0 < s -> 0 <= x -> 0 <= y -> cutOff < y + x ->
  / root4 (mixTwo a s x y) = x / (y + x) * / root4 a + y / (y + x) * / root4 s.
Proof.
  intros A S X Y C. pose proof cutOff_pos as CP. unfold mixTwo. rewrite ltb_true by exact C.
  pose proof (root4_pos a) as QA. pose proof (root4_pos s) as QS.
  set (qa := root4 a) in *. set (qs := root4 s) in *.
  assert (EA : a = qa ^ 4) by (symmetry; apply root4_pow; exact A).
  assert (ES : s = qs ^ 4) by (symmetry; apply root4_pow; exact S).
  assert (W1 : 0 <= x / (y + x)) by (apply Rmult_le_pos; [lra | left; apply Rinv_0_lt_compat; lra]).
  assert (W2 : 0 <= y / (y + x)) by (apply Rmult_le_pos; [lra | left; apply Rinv_0_lt_compat; lra]).
  assert (W3 : x / (y + x) + y / (y + x) = 1) by (field; lra).
  set (u := x / (y + x)) in *. set (v := y / (y + x)) in *.
  assert (D : 0 < u * qs + v * qa) by (apply weights_pos; auto).
  rewrite Rpower4 by exact D.
  replace (a * (s / (u * qs + v * qa) ^ 4)) with ((qa * qs / (u * qs + v * qa)) ^ 4).
  - rewrite root4_of_pow. { field. repeat split; lra. }
    apply Rmult_lt_0_compat; [apply Rmult_lt_0_compat; assumption | apply Rinv_0_lt_compat; exact D].
  - rewrite EA, ES. unfold Rdiv. rewrite !Rpow_mult_distr, pow_inv. ring.
Qed.
Lemma mixThree_root o s g x y z : 0 < o -> 0 < s -> 0 < g -> 0 <= x -> 0 <= y -> 0 <= z -> cutOff < x + z + y ->
  / root4 (mixThree o s g x y z) =
  x / (x + z + y) * / root4 o + y / (x + z + y) * / root4 s + z / (x + z + y) * / root4 g.
Proof.
  intros O S G X Y Z C. pose proof cutOff_pos as CP. unfold mixThree. rewrite ltb_true by exact C.
  pose proof (root4_pos o) as QO. pose proof (root4_pos s) as QS. pose proof (root4_pos g) as QG.
  set (qo := root4 o) in *. set (qs := root4 s) in *. set (qg := root4 g) in *.
  assert (EO : o = qo ^ 4) by (symmetry; apply root4_pow; exact O).
  assert (ES : s = qs ^ 4) by (symmetry; apply root4_pow; exact S).
  assert (EG : g = qg ^ 4) by (symmetry; apply root4_pow; exact G).
  set (t := x + z + y) in *.
  assert (T : 0 < t) by lra.
  assert (W1 : 0 <= x / t) by (apply Rmult_le_pos; [lra | left; apply Rinv_0_lt_compat; lra]).
  assert (W2 : 0 <= y / t) by (apply Rmult_le_pos; [lra | left; apply Rinv_0_lt_compat; lra]).
  assert (W4 : 0 <= z / t) by (apply Rmult_le_pos; [lra | left; apply Rinv_0_lt_compat; lra]).
  assert (W3 : x / t + y / t + z / t = 1) by (unfold t; field; unfold t in T; lra).
  set (u := x / t) in *. set (v := y / t) in *. set (w := z / t) in *.
  assert (P1 : 0 < qs * qg) by (apply Rmult_lt_0_compat; assumption).
  assert (P2 : 0 < qo * qg) by (apply Rmult_lt_0_compat; assumption).
  assert (P3 : 0 < qs * qo) by (apply Rmult_lt_0_compat; assumption).
  assert (D : 0 < u * qs * qg + v * qo * qg + w * qs * qo).
  { rewrite !Rmult_assoc. apply weights_pos3; auto. }
  rewrite Rpower4 by exact D.
  set (d := u * qs * qg + v * qo * qg + w * qs * qo) in *.
  replace (o * (s * g / d ^ 4)) with ((qo * qs * qg / d) ^ 4).
  - rewrite root4_of_pow. { unfold d. field. fold d. repeat split; lra. }
    repeat apply Rmult_lt_0_compat; auto. apply Rinv_0_lt_compat; exact D.
  - rewrite EO, ES, EG. unfold Rdiv. rewrite !Rpow_mult_distr, pow_inv. ring.
Qed.

Lemma frac_le1 x y : 0 <= x -> 0 <= y -> 0 < y + x -> 0 <= x / (y + x) <= 1.
Proof.
  intros X Y P. split. { apply Rmult_le_pos; [lra | left; apply Rinv_0_lt_compat; lra]. }
  apply Rmult_le_reg_r with (y + x); [lra|]. unfold Rdiv. rewrite Rmult_assoc, Rinv_l by lra. lra.
Qed.
Lemma mixTwo_hull a s x y : 0 < a -> 0 < s -> 0 <= x -> 0 <= y -> inHull [a; s] (mixTwo a s x y).
Proof.
  intros A S X Y. pose proof cutOff_pos as CP. destruct (Rlt_dec cutOff (y + x)) as [C | C].
  - assert (PL : forall z, In z [a; s] -> 0 < z) by (intros z [<-|[<-|[]]]; assumption).
    apply inHull_root; [apply mixTwo_pos; assumption | exact PL |].
    apply inHull_inv; [apply root4_pos | |].
    { intros z Hz. apply in_map_iff in Hz. destruct Hz as (? & <- & _). apply root4_pos. }
    rewrite mixTwo_root by assumption.
    replace (y / (y + x)) with (1 - x / (y + x)) by (field; lra).
    apply inHull_combo; [apply inHull_in; left; reflexivity | apply inHull_in; right; left; reflexivity |].
    apply frac_le1; lra.
  - unfold mixTwo. rewrite ltb_false by lra. apply inHull_in. left. reflexivity.
Qed.
Lemma mixThree_hull o s g x y z l : 0 < o -> 0 < s -> 0 < g -> 0 <= x -> 0 <= y -> 0 <= z -> cutOff < x + z + y ->
  (forall m, In m l -> 0 < m) -> In s l -> In g l -> (In o l \/ x = 0) -> inHull l (mixThree o s g x y z).
Proof.
  intros O S G X Y Z C PL IS IG IO. pose proof cutOff_pos as CP.
  apply inHull_root; [apply mixThree_pos; assumption | exact PL |].
  apply inHull_inv; [apply root4_pos | |].
  { intros w Hw. apply in_map_iff in Hw. destruct Hw as (? & <- & _). apply root4_pos. }
  rewrite mixThree_root by assumption.
  assert (HI : forall m, In m l -> inHull (map Rinv (map root4 l)) (/ root4 m))
    by (intros m Hm; apply inHull_in, in_map, in_map, Hm).
  assert (F : forall u v, 0 <= u -> 0 <= v -> 0 < v -> 0 <= u / v)
    by (intros u v U _ V; apply Rmult_le_pos; [lra | left; apply Rinv_0_lt_compat; lra]).
  destruct IO as [IO | ->].
  - apply inHull_combo3; auto; try (apply F; lra). field. lra.
  - replace (0 / (0 + z + y) * / root4 o) with (0 / (0 + z + y) * / root4 s) by (field; repeat split; try lra; apply Rgt_not_eq, root4_pos).
    apply inHull_combo3; auto; try (apply F; lra). field. lra.
Qed.

(** How far the way from [a] to [s] is not yet gone at [e]. *)
Lemma fraction a s e : 0 < a -> 0 < s -> 0 < e -> s <> a -> inHull [a; s] e ->
  0 <= (a * (s - e)) / (e * (s - a)) <= 1.
Proof.
  intros A S E N (u & v & U & V & B).
  assert (P : (a <= e <= s) \/ (s <= e <= a)).
  { destruct U as [<-|[<-|[]]]; destruct V as [<-|[<-|[]]]; lra. }
  destruct P as [P | P].
  - assert (K : 0 < e * (s - a)) by (apply Rmult_lt_0_compat; lra). split.
    + apply Rmult_le_pos; [apply Rmult_le_pos; lra | left; apply Rinv_0_lt_compat; exact K].
    + apply Rmult_le_reg_r with (e * (s - a)); [exact K|].
      unfold Rdiv. rewrite Rmult_assoc, Rinv_l by lra. nra.
  - assert (K : 0 < e * (a - s)) by (apply Rmult_lt_0_compat; lra).
    replace ((a * (s - e)) / (e * (s - a))) with ((a * (e - s)) / (e * (a - s))) by (field; repeat split; lra).
    split.
    + apply Rmult_le_pos; [apply Rmult_le_pos; lra | left; apply Rinv_0_lt_compat; exact K].
    + apply Rmult_le_reg_r with (e * (a - s)); [exact K|].
      unfold Rdiv. rewrite Rmult_assoc, Rinv_l by lra. nra.
Qed.

Lemma fraction_to y a e t : y <> a -> 0 <= t <= 1 -> inHull [a; (1 - t) * y + t * a] e -> 0 <= (y - e) / (y - a) <= 1.
Proof.
  intros N T (u & v & U & V & B).
  assert (P : (a <= e <= (1 - t) * y + t * a) \/ ((1 - t) * y + t * a <= e <= a)).
  { destruct U as [<-|[<-|[]]]; destruct V as [<-|[<-|[]]]; lra. }
  destruct (Rtotal_order y a) as [L | [L | L]]; [| contradiction |].
  - assert (Q : y <= e <= a) by (destruct P; split; nra).
    replace ((y - e) / (y - a)) with ((e - y) / (a - y)) by (field; lra).
    split; [apply Rmult_le_pos; [lra | left; apply Rinv_0_lt_compat; lra] |].
    apply Rmult_le_reg_r with (a - y); [lra|]. unfold Rdiv. rewrite Rmult_assoc, Rinv_l by lra. lra.
  - assert (Q : a <= e <= y) by (destruct P; split; nra).
    split; [apply Rmult_le_pos; [lra | left; apply Rinv_0_lt_compat; lra] |].
    apply Rmult_le_reg_r with (y - a); [lra|]. unfold Rdiv. rewrite Rmult_assoc, Rinv_l by lra. lra.
Qed.

(* ----- the blending ----- *)
Lemma blendMu_hull p be b m n : 0 <= p <= 1 -> 0 < be -> 0 < b -> 0 < m -> 0 < n ->
  0 < blendMu p be b m n /\ inHull [m; n] (blendMu p be b m n).
Proof.
  intros P BE B M N. unfold blendMu, blendB.
  set (u := p * be). set (v := (1 - p) * b).
  assert (U : 0 <= u) by (apply Rmult_le_pos; lra). assert (V : 0 <= v) by (apply Rmult_le_pos; lra).
  assert (T : 0 < u + v).
  { unfold u, v. replace (p * be + (1 - p) * b) with (p * be + (1 - p) * b) by ring. apply weights_pos; lra. }
  assert (D : 0 < u / m + v / n).
  { replace (u / m + v / n) with ((u + v) * (u / (u + v) * / m + v / (u + v) * / n)) by (field; repeat split; lra).
    apply Rmult_lt_0_compat; [exact T|]. 
    apply weights_pos; try (apply Rinv_0_lt_compat; assumption); try (field; lra);
      apply Rmult_le_pos; try lra; left; apply Rinv_0_lt_compat; exact T. }
  assert (X : 0 < (u + v) / (u / m + v / n)) by (apply Rmult_lt_0_compat; [exact T | apply Rinv_0_lt_compat; exact D]).
  split; [exact X|]. apply inHull_inv; [exact X | intros y [<-|[<-|[]]]; assumption |].
  replace (/ ((u + v) / (u / m + v / n))) with (u / (v + u) * / m + (1 - u / (v + u)) * / n).
  - apply inHull_combo; [apply inHull_in; left; reflexivity | apply inHull_in; right; left; reflexivity|].
    apply frac_le1; lra.
  - replace (u / m + v / n) with ((u * n + v * m) / (m * n)) in D |- * by (field; lra). 
    assert (D' : u * n + v * m <> 0) by (intros H; rewrite H in D; unfold Rdiv in D; rewrite Rmult_0_l in D; lra).
    field. repeat split; try lra; exact D'.
Qed.
Lemma blendMu_same p b m : 0 < b -> 0 < m -> blendMu p b b m m = m.
Proof. intros B M. unfold blendMu, blendB. replace (p * b / m + (1 - p) * b / m) with (b / m) by (field; lra). field. lra. Qed.
Lemma blendMu_1 be b m n : 0 < be -> 0 < m -> 0 < n -> blendMu 1 be b m n = m.
Proof. intros B M N. unfold blendMu, blendB. replace (1 * be / m + (1 - 1) * b / n) with (be / m) by (field; lra). field. lra. Qed.

(* ----- the fluids ----- *)
Lemma saturations f : effectiveSaturations f = (mobileOil f, mobileGas f, mobileSolvent f).
Proof.
  unfold effectiveSaturations, mobileOil, mobileGas, mobileSolvent.
  destruct (f_oil f), (f_water f); reflexivity.
Qed.
Lemma mobile_nonneg f : physical f -> 0 <= mobileOil f /\ 0 <= mobileGas f /\ 0 <= mobileSolvent f.
Proof.
  intros P. unfold mobileOil, mobileGas, mobileSolvent. pose proof (ph_sg f P). pose proof (ph_ss f P).
  destruct (f_oil f) eqn:O, (f_water f); repeat split; try apply Rmax_r; try lra; 
    destruct (ph_oil f P O) as (K & _); exact K.
Qed.
Lemma mobileOil_none f : f_oil f = false -> mobileOil f = 0.
Proof. intros O. unfold mobileOil. rewrite O. reflexivity. Qed.

Section Fluids.
Variable f : fluids.
Hypothesis PH : physical f.

Notation sO := (mobileOil f).
Notation sG := (mobileGas f).
Notation sS := (mobileSolvent f).

Lemma muOilOr1_pos : 0 < muOilOr1 f.
Proof. unfold muOilOr1. destruct (f_oil f) eqn:O; [|lra]. apply (ph_oil f PH O). Qed.
Lemma refOfGas_pos : 0 < refOfGas f.
Proof.
  unfold refOfGas. pose proof (ph_refGas f PH). destruct (f_oil f) eqn:O; [|lra].
  destruct (ph_oil f PH O) as (_ & _ & _ & R1 & _ & R2 & _). pose proof (Rmult_le_pos (f_refOil f) (f_Rv f)). lra.
Qed.
Lemma refOfOil_pos : f_oil f = true -> 0 < refOfOil f.
Proof.
  intros O. unfold refOfOil. destruct (ph_oil f PH O) as (_ & _ & _ & R1 & R2 & _).
  pose proof (ph_refGas f PH). pose proof (Rmult_le_pos (f_refGas f) (f_Rs f)). lra.
Qed.
Lemma rhoGas_ref : f_rhoGas f = f_bg f * refOfGas f.
Proof. rewrite (ph_rhoGas f PH). unfold refOfGas. destruct (f_oil f); ring. Qed.
Lemma rhoOil_ref : f_oil f = true -> f_rhoOil f = f_bo f * refOfOil f.
Proof. intros O. destruct (ph_oil f PH O) as (_ & _ & _ & _ & _ & _ & E). exact E. Qed.
Lemma densities_pos : forall y, In y (densities f) -> 0 < y.
Proof.
  intros y. unfold densities. intros H. apply in_app_or in H. destruct H as [H | [<- | [<- | []]]].
  - destruct (f_oil f) eqn:O; [|destruct H]. destruct H as [<- | []]. rewrite rhoOil_ref by exact O.
    apply Rmult_lt_0_compat; [apply (ph_oil f PH O) | apply refOfOil_pos; exact O].
  - rewrite rhoGas_ref. apply Rmult_lt_0_compat; [apply (ph_bg f PH) | apply refOfGas_pos].
  - rewrite (ph_rhoSolvent f PH). apply Rmult_lt_0_compat; apply PH.
Qed.
Lemma viscosities_pos : forall y, In y (viscosities f) -> 0 < y.
Proof.
  intros y. unfold viscosities. intros H. apply in_app_or in H. destruct H as [H | [<- | [<- | []]]]; try apply PH.
  destruct (f_oil f) eqn:O; [|destruct H]. destruct H as [<- | []]. apply (ph_oil f PH O).
Qed.
Lemma in_rhoGas : In (f_rhoGas f) (densities f). Proof. apply in_or_app. right. left. reflexivity. Qed.
Lemma in_rhoSolvent : In (f_rhoSolvent f) (densities f). Proof. apply in_or_app. right. right. left. reflexivity. Qed.
Lemma in_rhoOil : f_oil f = true -> In (f_rhoOil f) (densities f).
Proof. intros O. unfold densities. rewrite O. left. reflexivity. Qed.
Lemma in_muGas : In (f_muGas f) (viscosities f). Proof. apply in_or_app. right. left. reflexivity. Qed.
Lemma in_muSolvent : In (f_muSolvent f) (viscosities f). Proof. apply in_or_app. right. right. left. reflexivity. Qed.
Lemma in_muOil : f_oil f = true -> In (f_muOil f) (viscosities f).
Proof. intros O. unfold viscosities. rewrite O. left. reflexivity. Qed.

Lemma muGasTo_eq w : muGasTo f w = towards (f_muGas f) (mixTwo (f_muGas f) (f_muSolvent f) sG sS) w.
Proof. unfold muGasTo. rewrite saturations. reflexivity. Qed.
Lemma muOilTo_eq w : f_oil f = true -> muOilTo f w = towards (f_muOil f) (mixTwo (f_muOil f) (f_muSolvent f) sO sS) w.
Proof. intros O. unfold muOilTo. rewrite saturations, O. reflexivity. Qed.
Lemma muSolventTo_eq w : muSolventTo f w =
  towards (f_muSolvent f) (mixThree (muOilOr1 f) (f_muSolvent f) (f_muGas f) sO sS sG) w.
Proof. unfold muSolventTo. rewrite saturations. reflexivity. Qed.

Lemma muGasTo_hull w : weight w -> 0 < muGasTo f w /\ inHull [f_muGas f; f_muSolvent f] (muGasTo f w).
Proof.
  intros W. destruct (mobile_nonneg f PH) as (A & B & C). pose proof (ph_muGas f PH). pose proof (ph_muSolvent f PH).
  rewrite muGasTo_eq. split; [apply towards_pos|].
  apply towards_in; auto using mixTwo_pos, mixTwo_hull. apply inHull_in. left. reflexivity.
Qed.
Lemma muOilTo_hull w : f_oil f = true -> weight w -> 0 < muOilTo f w /\ inHull [f_muOil f; f_muSolvent f] (muOilTo f w).
Proof.
  intros O W. destruct (mobile_nonneg f PH) as (A & B & C). destruct (ph_oil f PH O) as (_ & M & _). pose proof (ph_muSolvent f PH).
  rewrite muOilTo_eq by exact O. split; [apply towards_pos|].
  apply towards_in; auto using mixTwo_pos, mixTwo_hull. apply inHull_in. left. reflexivity.
Qed.
Hypothesis MX : mixes f.
Lemma muSolventTo_hull w : weight w -> 0 < muSolventTo f w /\ inHull (viscosities f) (muSolventTo f w).
Proof.
  intros W. destruct (mobile_nonneg f PH) as (A & B & C). rewrite muSolventTo_eq. split; [apply towards_pos|].
  pose proof muOilOr1_pos as MO. pose proof (ph_muGas f PH) as MG. pose proof (ph_muSolvent f PH) as MS.
  apply towards_in; auto using mixThree_pos. { apply inHull_in, in_muSolvent. }
  apply mixThree_hull; auto using viscosities_pos, in_muGas, in_muSolvent. { apply MX. }
  destruct (f_oil f) eqn:O; [left | right; apply mobileOil_none; exact O].
  unfold muOilOr1. rewrite O. apply in_muOil. exact O.
Qed.

(** The values of a mean of the active densities. *)
Lemma rhoOil_times l s : (f_oil f = false -> s = 0) -> In (f_rhoGas f) l -> (f_oil f = true -> In (f_rhoOil f) l) ->
  exists r, In r l /\ rhoOilOr0 f * s = r * s.
Proof.
  intros Z G O. unfold rhoOilOr0. destruct (f_oil f).
  - exists (f_rhoOil f). auto.
  - exists (f_rhoGas f). rewrite Z by reflexivity. split; [exact G | ring].
Qed.
Lemma rhoMix_eq : rhoMix f = mean3 sO (rhoOilOr0 f) sG (f_rhoGas f) sS (f_rhoSolvent f).
Proof.
  unfold rhoMix. rewrite saturations. rewrite ltb_true by apply MX. unfold mean3.
  pose proof cutOff_pos. destruct MX as (M & _). field. lra.
Qed.
Lemma rhoMix_hull : inHull (densities f) (rhoMix f).
Proof.
  rewrite rhoMix_eq. unfold mean3. destruct (mobile_nonneg f PH) as (A & B & C). pose proof cutOff_pos. destruct MX as (M & _).
  destruct (rhoOil_times (densities f) sO) as (r & Hr & E); [apply mobileOil_none | apply in_rhoGas | apply in_rhoOil |].
  replace (sO * rhoOilOr0 f) with (rhoOilOr0 f * sO) by ring. rewrite E.
  replace ((r * sO + sG * f_rhoGas f + sS * f_rhoSolvent f) / (sO + sG + sS)) with
    (sO / (sO + sG + sS) * r + sG / (sO + sG + sS) * f_rhoGas f + sS / (sO + sG + sS) * f_rhoSolvent f) by (field; lra).
  apply inHull_combo3; try (apply inHull_in; auto using in_rhoGas, in_rhoSolvent);
    try (apply Rmult_le_pos; [lra | left; apply Rinv_0_lt_compat; lra]). field. lra.
Qed.

Lemma roots_apart a b : ltb (Rabs (a - b)) cutOff = false -> a <> b.
Proof.
  intros H E. subst b. rewrite ltb_true in H; [discriminate|]. replace (a - a) with 0 by ring. rewrite Rabs_R0. apply cutOff_pos.
Qed.
Lemma pair_pos a b : 0 < a -> 0 < b -> forall y, In y [a; b] -> 0 < y.
Proof. intros A B y [<-|[<-|[]]]; assumption. Qed.

Lemma rhoGasEff_hull : inHull (densities f) (rhoGasEff f).
Proof.
  pose proof (ph_wRho f PH) as W. unfold rhoGasEff. change (mixRho f) with (densityMixing f).
  destruct (ltb _ cutOff) eqn:E.
  - replace ((1 - densityMixing f) * f_rhoGas f + densityMixing f * rhoMix f)
      with (densityMixing f * rhoMix f + (1 - densityMixing f) * f_rhoGas f) by ring.
    apply inHull_combo; [apply rhoMix_hull | apply inHull_in, in_rhoGas | exact W].
  - destruct (muGasTo_hull (densityMixing f) W) as (P & H).
    pose proof (fraction (root4 (f_muGas f)) (root4 (f_muSolvent f)) (root4 (muGasTo f (densityMixing f)))
      (root4_pos _) (root4_pos _) (root4_pos _) (roots_apart _ _ E)
      (inHull_root_of [f_muGas f; f_muSolvent f] _ P (pair_pos _ _ (ph_muGas f PH) (ph_muSolvent f PH)) H)) as X.
    set (x := _ / _) in X |- *. 
    replace (f_rhoGas f * x + f_rhoSolvent f * (1 - x)) with (x * f_rhoGas f + (1 - x) * f_rhoSolvent f) by ring.
    apply inHull_combo; [apply inHull_in, in_rhoGas | apply inHull_in, in_rhoSolvent | exact X].
Qed.
Lemma rhoOilEff_hull r : f_oil f = true -> inHull (densities f) r -> inHull (densities f) (rhoOilEff f r).
Proof.
  intros O HR. pose proof (ph_wRho f PH) as W. unfold rhoOilEff. change (mixRho f) with (densityMixing f).
  unfold muOilOr1. rewrite O.
  destruct (ltb _ cutOff) eqn:E.
  - replace ((1 - densityMixing f) * f_rhoOil f + densityMixing f * rhoMix f)
      with (densityMixing f * rhoMix f + (1 - densityMixing f) * f_rhoOil f) by ring.
    apply inHull_combo; [apply rhoMix_hull | apply inHull_in, in_rhoOil, O | exact W].
  - destruct (muOilTo_hull (densityMixing f) O W) as (P & H). destruct (ph_oil f PH O) as (_ & M & _).
    pose proof (fraction (root4 (f_muOil f)) (root4 (f_muSolvent f)) (root4 (muOilTo f (densityMixing f)))
      (root4_pos _) (root4_pos _) (root4_pos _) (fun K => roots_apart _ _ E (eq_sym K))
      (inHull_root_of [f_muOil f; f_muSolvent f] _ P (pair_pos _ _ M (ph_muSolvent f PH)) H)) as X.
    assert (XE : root4 (f_muOil f) * (root4 (muOilTo f (densityMixing f)) - root4 (f_muSolvent f)) /
      (root4 (muOilTo f (densityMixing f)) * (root4 (f_muOil f) - root4 (f_muSolvent f))) =
      root4 (f_muOil f) * (root4 (f_muSolvent f) - root4 (muOilTo f (densityMixing f))) /
      (root4 (muOilTo f (densityMixing f)) * (root4 (f_muSolvent f) - root4 (f_muOil f)))).
    { pose proof (roots_apart _ _ E). pose proof (root4_pos (muOilTo f (densityMixing f))). field. repeat split; lra. }
    rewrite XE. set (x := _ / _) in X |- *. 
    replace (f_rhoOil f * x + r * (1 - x)) with (x * f_rhoOil f + (1 - x) * r) by ring.
    apply inHull_combo; [apply inHull_in, in_rhoOil, O | exact HR | exact X].
Qed.

(** The solvent: with [y] the mean of the reciprocal roots of the hydrocarbons the fraction is
    the one of the way from [/ root4 muSolvent] to [y]. *)
Lemma solvent_fraction qO qG qS qE sof sgf : 0 < qO -> 0 < qG -> 0 < qS -> 0 < qE ->
  qS * (sgf * qO + sof * qG) - qO * qG <> 0 ->
  sgf / qG + sof / qO <> / qS /\
  (qS * (sgf * qO + sof * qG) - qO * qG * qS / qE) / (qS * (sgf * qO + sof * qG) - qO * qG) =
  (sgf / qG + sof / qO - / qE) / (sgf / qG + sof / qO - / qS).
Proof.
  intros A B C D N. split.
  - intros E. apply N. replace (qS * (sgf * qO + sof * qG)) with (qS * (qO * qG) * (sgf / qG + sof / qO)) by (field; lra).
    rewrite E. field. lra.
  - field. repeat split; lra.
Qed.

Lemma solvent_alone : sO + sG = 0 -> forall w, muSolventTo f w = f_muSolvent f.
Proof.
  intros Z w. destruct (mobile_nonneg f PH) as (A & B & C). pose proof cutOff_pos. destruct MX as (M & _).
  assert (EO : sO = 0) by lra. assert (EG : sG = 0) by lra.
  pose proof muOilOr1_pos as MO. pose proof (ph_muGas f PH) as MG. pose proof (ph_muSolvent f PH) as MS.
  rewrite muSolventTo_eq.
  assert (E : mixThree (muOilOr1 f) (f_muSolvent f) (f_muGas f) sO sS sG = f_muSolvent f).
  { apply root4_inv_inj; [apply mixThree_pos; assumption | exact MS |].
    rewrite mixThree_root by assumption. rewrite EO, EG in M |- *.
    pose proof (root4_pos (muOilOr1 f)). pose proof (root4_pos (f_muSolvent f)). pose proof (root4_pos (f_muGas f)).
    field. repeat split; lra. }
  rewrite E. apply towards_same. exact MS.
Qed.
Lemma solvent_way w : cutOff < sO + sG -> weight w ->
  exists t, 0 <= t <= 1 /\ t = sS / (sO + sG + sS) /\
  / root4 (mixThree (muOilOr1 f) (f_muSolvent f) (f_muGas f) sO sS sG) =
    (1 - t) * (sG / (sO + sG) / root4 (f_muGas f) + sO / (sO + sG) / root4 (muOilOr1 f)) + t * / root4 (f_muSolvent f) /\
  inHull [/ root4 (f_muSolvent f);
          (1 - t) * (sG / (sO + sG) / root4 (f_muGas f) + sO / (sO + sG) / root4 (muOilOr1 f)) + t * / root4 (f_muSolvent f)]
         (/ root4 (muSolventTo f w)).
Proof.
  intros HC W. destruct (mobile_nonneg f PH) as (A & B & C). pose proof cutOff_pos. destruct MX as (M & _).
  pose proof muOilOr1_pos as MO. pose proof (ph_muGas f PH) as MG. pose proof (ph_muSolvent f PH) as MS.
  exists (sS / (sO + sG + sS)).
  assert (T : 0 <= sS / (sO + sG + sS) <= 1) by (apply frac_le1; lra).
  assert (E : / root4 (mixThree (muOilOr1 f) (f_muSolvent f) (f_muGas f) sO sS sG) =
    (1 - sS / (sO + sG + sS)) * (sG / (sO + sG) / root4 (f_muGas f) + sO / (sO + sG) / root4 (muOilOr1 f))
    + sS / (sO + sG + sS) * / root4 (f_muSolvent f)).
  { rewrite mixThree_root by assumption.
    pose proof (root4_pos (muOilOr1 f)). pose proof (root4_pos (f_muSolvent f)). pose proof (root4_pos (f_muGas f)).
    field. repeat split; lra. }
  split; [exact T|]. split; [reflexivity|]. split; [exact E|].
  rewrite <- E. change [/ root4 (f_muSolvent f); / root4 (mixThree (muOilOr1 f) (f_muSolvent f) (f_muGas f) sO sS sG)]
    with (map Rinv (map root4 [f_muSolvent f; mixThree (muOilOr1 f) (f_muSolvent f) (f_muGas f) sO sS sG])).
  assert (PM : 0 < mixThree (muOilOr1 f) (f_muSolvent f) (f_muGas f) sO sS sG) by (apply mixThree_pos; assumption).
  apply inHull_inv_of. { intros y Hy. apply in_map_iff in Hy. destruct Hy as (? & <- & _). apply root4_pos. }
  rewrite muSolventTo_eq. apply inHull_root_of; [apply towards_pos | apply pair_pos; assumption |].
  apply towards_hull; assumption.
Qed.

Lemma rhoSolventEff_hull : inHull (densities f) (rhoSolventEff f).
Proof.
  pose proof (ph_wRho f PH) as W. unfold rhoSolventEff. rewrite saturations. change (mixRho f) with (densityMixing f).
  destruct (mobile_nonneg f PH) as (A & B & C). pose proof cutOff_pos as CP.
  pose proof muOilOr1_pos as MO. pose proof (ph_muGas f PH) as MG. pose proof (ph_muSolvent f PH) as MS.
  destruct (ltb (Rabs _) cutOff) eqn:E.
  { replace ((1 - densityMixing f) * f_rhoSolvent f + densityMixing f * rhoMix f)
      with (densityMixing f * rhoMix f + (1 - densityMixing f) * f_rhoSolvent f) by ring.
    apply inHull_combo; [apply rhoMix_hull | apply inHull_in, in_rhoSolvent | exact W]. }
  destruct (proj2 MX) as [Z | Z].
  - rewrite (solvent_alone Z). rewrite !(ltb_false cutOff (sO + sG)) by lra.
    pose proof (root4_pos (muOilOr1 f)). pose proof (root4_pos (f_muSolvent f)). pose proof (root4_pos (f_muGas f)).
    replace (_ / _) with 1.
    + replace (f_rhoSolvent f * 1 + f_rhoGas f * 0 * (1 - 1) + rhoOilOr0 f * 0 * (1 - 1)) with (f_rhoSolvent f) by ring.
      apply inHull_in, in_rhoSolvent.
    + field. pose proof (Rmult_lt_0_compat (root4 (muOilOr1 f)) (root4 (f_muGas f))). lra.
  - rewrite !(ltb_true cutOff (sO + sG)) in E |- * by lra.
    destruct (solvent_way (densityMixing f) Z W) as (t & T & _ & _ & HW).
    assert (N : root4 (f_muSolvent f) * (sG / (sO + sG) * root4 (muOilOr1 f) + sO / (sO + sG) * root4 (f_muGas f))
                - root4 (muOilOr1 f) * root4 (f_muGas f) <> 0).
    { intros K. rewrite K in E. rewrite Rabs_R0, ltb_true in E by exact CP. discriminate. }
    destruct (solvent_fraction _ _ _ (root4 (muSolventTo f (densityMixing f))) _ _ (root4_pos _) (root4_pos _) (root4_pos _) (root4_pos _) N) as (NE & ->).
    pose proof (fraction_to _ _ _ t NE T HW) as X. set (x := _ / _) in X |- *.
    destruct (rhoOil_times (densities f) sO) as (r & Hr & ER); [apply mobileOil_none | apply in_rhoGas | apply in_rhoOil |].
    replace (rhoOilOr0 f * (sO / (sO + sG)) * (1 - x)) with (rhoOilOr0 f * sO / (sO + sG) * (1 - x)) by (field; lra).
    rewrite ER.
    replace (f_rhoSolvent f * x + f_rhoGas f * (sG / (sO + sG)) * (1 - x) + r * sO / (sO + sG) * (1 - x))
      with (x * f_rhoSolvent f + (1 - x) * (sG / (sO + sG) * f_rhoGas f + (1 - sG / (sO + sG)) * r)) by (field; lra).
    apply inHull_combo; [apply inHull_in, in_rhoSolvent | | exact X].
    apply inHull_combo; [apply inHull_in, in_rhoGas | apply inHull_in, Hr | apply frac_le1; lra].
Qed.

(** The blended densities. *)
Lemma blend_density l p r ref b rho : 0 < ref -> rho = b * ref -> weight p -> inHull l r -> inHull l rho ->
  inHull l (blendB p (r / ref) b * ref).
Proof.
  intros RP E W HR HRho. unfold blendB.
  replace ((p * (r / ref) + (1 - p) * b) * ref) with (p * r + (1 - p) * rho) by (rewrite E; field; lra).
  apply inHull_combo; assumption.
Qed.
Lemma div_pos a b : 0 < a -> 0 < b -> 0 < a / b.
Proof. intros A B. apply Rmult_lt_0_compat; [exact A | apply Rinv_0_lt_compat; exact B]. Qed.

Theorem densities_in_hull : f_miscible f = true -> cutOff <= f_ss f ->
  inHull (densities f) (m_rhoGas (effectiveProperties f)) /\
  inHull (densities f) (m_rhoSolvent (effectiveProperties f)) /\
  (f_oil f = true -> inHull (densities f) (m_rhoOil (effectiveProperties f))).
Proof.
  intros MI CS. unfold effectiveProperties. rewrite MI, ltb_false by exact CS. cbn [negb m_rhoGas m_rhoSolvent m_rhoOil].
  change (mixPmisc f) with (misciblePart f). pose proof (ph_pmisc f PH) as W.
  assert (HS : inHull (densities f) (blendB (misciblePart f) (rhoSolventEff f / f_refSolvent f) (f_bs f) * f_refSolvent f)).
  { eapply blend_density; [apply PH | apply (ph_rhoSolvent f PH) | exact W | apply rhoSolventEff_hull | apply inHull_in, in_rhoSolvent]. }
  split; [|split; [exact HS|]].
  - eapply blend_density; [apply refOfGas_pos | apply rhoGas_ref | exact W | apply rhoGasEff_hull | apply inHull_in, in_rhoGas].
  - intros O. rewrite O. eapply blend_density; [apply refOfOil_pos, O | apply rhoOil_ref, O | exact W | apply rhoOilEff_hull; [exact O | exact HS] | apply inHull_in, in_rhoOil, O].
Qed.

Lemma pairHull l a b x : inHull l a -> In b l -> inHull [a; b] x -> inHull l x.
Proof. intros A B H. eapply inHull_sub; [|exact H]. intros y [<-|[<-|[]]]; [exact A | apply inHull_in; exact B]. Qed.

Theorem viscosities_in_hull : f_miscible f = true -> cutOff <= f_ss f ->
  mobilityFor [f_muGas f; f_muSolvent f] (f_mobGas f) (f_muGas f) (m_mobGas (effectiveProperties f)) /\
  (0 < m_muSolvent (effectiveProperties f) /\ inHull (viscosities f) (m_muSolvent (effectiveProperties f))) /\
  (f_oil f = true -> mobilityFor [f_muOil f; f_muSolvent f] (f_mobOil f) (f_muOil f) (m_mobOil (effectiveProperties f))).
Proof.
  intros MI CS. pose proof (densities_in_hull MI CS) as (DG & DS & DO).
  unfold effectiveProperties in *. rewrite MI, ltb_false in * by exact CS. cbn [negb m_rhoGas m_rhoSolvent m_rhoOil m_mobGas m_muSolvent m_mobOil] in *.
  change (mixPmisc f) with (misciblePart f) in *. change (mixMu f) with (viscosityMixing f). pose proof (ph_pmisc f PH) as W. pose proof (ph_wMu f PH) as WM.
  destruct (muGasTo_hull _ WM) as (GP & GH). destruct (muSolventTo_hull _ WM) as (SP & SH).
  pose proof (ph_muGas f PH) as MG. pose proof (ph_muSolvent f PH) as MS.
  pose proof (inHull_pos _ _ densities_pos rhoGasEff_hull) as RG. pose proof (inHull_pos _ _ densities_pos rhoSolventEff_hull) as RS.
  split; [|split].
  - destruct (blendMu_hull (misciblePart f) (rhoGasEff f / refOfGas f) (f_bg f) _ _ W (div_pos _ _ RG refOfGas_pos) (ph_bg f PH) GP MG) as (P & H).
    eexists. split; [exact P|]. split.
    + eapply pairHull; [exact GH | left; reflexivity | exact H].
    + field. lra.
  - destruct (blendMu_hull (misciblePart f) (rhoSolventEff f / f_refSolvent f) (f_bs f) _ _ W (div_pos _ _ RS (ph_refSolvent f PH)) (ph_bs f PH) SP MS) as (P & H).
    split; [exact P|]. eapply pairHull; [exact SH | apply in_muSolvent | exact H].
  - intros O. rewrite O. destruct (muOilTo_hull _ O WM) as (OP & OH).
    destruct (ph_oil f PH O) as (_ & MO & BO & _).
    pose proof (inHull_pos _ _ densities_pos (rhoOilEff_hull _ O DS)) as RO.
    destruct (blendMu_hull (misciblePart f) (rhoOilEff f (blendB (misciblePart f) (rhoSolventEff f / f_refSolvent f) (f_bs f) * f_refSolvent f) / refOfOil f) (f_bo f) _ _ W (div_pos _ _ RO (refOfOil_pos O)) BO OP MO) as (P & H).
    eexists. split; [exact P|]. split.
    + eapply pairHull; [exact OH | left; reflexivity | exact H].
    + field. lra.
Qed.
End Fluids.

(* ----- no mixing and full mixing ----- *)
Lemma blend_same p b ref : 0 < ref -> blendB p (b * ref / ref) b * ref = b * ref.
Proof. intros H. unfold blendB. field. lra. Qed.
Lemma cancel_ref b ref : 0 < ref -> b * ref / ref = b.
Proof. intros H. field. lra. Qed.

Theorem no_mixing f : physical f -> viscosityMixing f = 0 -> densityMixing f = 0 ->
  effectiveProperties f = mkMixed (f_rhoOil f) (f_rhoGas f) (f_rhoSolvent f) (f_muSolvent f) (f_mobOil f) (f_mobGas f).
Proof.
  intros PH WM WR. unfold effectiveProperties. destruct (negb (f_miscible f)); [reflexivity|].
  destruct (ltb (f_ss f) cutOff); [reflexivity|].
  pose proof (muOilOr1_pos f PH) as MO. pose proof (ph_muGas f PH) as MG. pose proof (ph_muSolvent f PH) as MS.
  assert (G0 : muGasTo f 0 = f_muGas f) by (rewrite muGasTo_eq; apply towards_0; auto using mixTwo_pos).
  assert (S0 : muSolventTo f 0 = f_muSolvent f) by (rewrite muSolventTo_eq; apply towards_0; auto using mixThree_pos).
  change (mixMu f) with (viscosityMixing f). rewrite WM, G0, S0.
  assert (RG : rhoGasEff f = f_rhoGas f).
  { unfold rhoGasEff. change (mixRho f) with (densityMixing f). rewrite WR, G0. destruct (ltb _ cutOff) eqn:E; [ring|].
    pose proof (roots_apart _ _ E). pose proof (root4_pos (f_muGas f)). 
    replace (root4 (f_muGas f) * _ / _) with 1 by (field; split; lra). ring. }
  assert (RS : rhoSolventEff f = f_rhoSolvent f).
  { unfold rhoSolventEff. rewrite saturations. change (mixRho f) with (densityMixing f). rewrite WR, S0.
    destruct (ltb (Rabs _) cutOff) eqn:E; [ring|].
    pose proof (roots_apart _ _ E). pose proof (root4_pos (f_muSolvent f)).
    set (y := root4 (f_muSolvent f) * (_ * root4 (muOilOr1 f) + _)) in *.
    replace ((y - root4 (muOilOr1 f) * root4 (f_muGas f) * root4 (f_muSolvent f) / root4 (f_muSolvent f)) / _) with 1 by (field; split; lra).
    ring. }
  rewrite RG, RS. 
  assert (SD : blendB (mixPmisc f) (f_rhoSolvent f / f_refSolvent f) (f_bs f) * f_refSolvent f = f_rhoSolvent f).
  { rewrite (ph_rhoSolvent f PH). apply blend_same, PH. }
  rewrite SD. rewrite (ph_rhoSolvent f PH), (rhoGas_ref f PH), !cancel_ref by (apply PH || apply refOfGas_pos, PH).
  rewrite !blendMu_same by (apply PH).
  assert (GD : blendB (mixPmisc f) (f_bg f) (f_bg f) * refOfGas f = f_bg f * refOfGas f) by (unfold blendB; ring).
  rewrite GD. 
  replace (f_mobGas f * (f_muGas f / f_muGas f)) with (f_mobGas f) by (field; lra).
  destruct (f_oil f) eqn:O; [|reflexivity].
  destruct (ph_oil f PH O) as (_ & MO' & BO & _).
  assert (O0 : muOilTo f 0 = f_muOil f) by (rewrite muOilTo_eq by exact O; apply towards_0; auto using mixTwo_pos).
  assert (RO : rhoOilEff f (f_bs f * f_refSolvent f) = f_bo f * refOfOil f).
  { rewrite <- (rhoOil_ref f PH O). unfold rhoOilEff. change (mixRho f) with (densityMixing f). unfold muOilOr1. rewrite WR, O, O0. destruct (ltb _ cutOff) eqn:E; [ring|].
    pose proof (roots_apart _ _ E). pose proof (root4_pos (f_muOil f)). 
    replace (root4 (f_muOil f) * _ / _) with 1 by (field; split; lra). ring. }
  rewrite RO, cancel_ref by (apply refOfOil_pos; assumption). rewrite O0, blendMu_same by assumption.
  replace (f_mobOil f * (f_muOil f / f_muOil f)) with (f_mobOil f) by (field; lra).
  rewrite (rhoOil_ref f PH O). unfold blendB. f_equal. ring.
Qed.

(** Fully mixed: the gas has the density of the mixture of gas and solvent, the solvent the one
    of all. *)
Lemma way_two a s x y : 0 < a -> 0 < s -> 0 <= x -> 0 <= y -> cutOff < y + x -> a <> s ->
  forall e, / e = x / (y + x) * / a + y / (y + x) * / s -> 0 < e ->
  (a * (s - e)) / (e * (s - a)) = x / (y + x).
Proof.
  intros A S X Y C N e E EP. pose proof cutOff_pos.
  replace ((a * (s - e)) / (e * (s - a))) with ((/ e - / s) / (/ a - / s)).
  - rewrite E. field. repeat split; lra.
  - field. repeat split; lra.
Qed.

Lemma way_gone y a t : y <> a -> (y - ((1 - t) * y + t * a)) / (y - a) = t.
Proof. intros N. field. lra. Qed.

Theorem full_mixing f : physical f -> mixes f -> f_miscible f = true -> cutOff <= f_ss f ->
  misciblePart f = 1 -> viscosityMixing f = 1 -> densityMixing f = 1 ->
  m_rhoSolvent (effectiveProperties f) =
    mean3 (mobileOil f) (if f_oil f then f_rhoOil f else 0) (mobileGas f) (f_rhoGas f) (mobileSolvent f) (f_rhoSolvent f) /\
  m_muSolvent (effectiveProperties f) =
    mixThree (muOilOr1 f) (f_muSolvent f) (f_muGas f) (mobileOil f) (mobileSolvent f) (mobileGas f) /\
  (cutOff < mobileSolvent f + mobileGas f -> cutOff <= Rabs (root4 (f_muSolvent f) - root4 (f_muGas f)) ->
   m_rhoGas (effectiveProperties f) = mean2 (mobileGas f) (f_rhoGas f) (mobileSolvent f) (f_rhoSolvent f)).
Proof.
  intros PH MX MI CS WP WM WR.
  destruct (mobile_nonneg f PH) as (A & B & C). pose proof cutOff_pos as CP.
  pose proof (muOilOr1_pos f PH) as MO. pose proof (ph_muGas f PH) as MG. pose proof (ph_muSolvent f PH) as MS.
  assert (S1 : muSolventTo f 1 = mixThree (muOilOr1 f) (f_muSolvent f) (f_muGas f) (mobileOil f) (mobileSolvent f) (mobileGas f)) by (rewrite muSolventTo_eq; apply towards_1; auto using mixThree_pos).
  assert (G1 : muGasTo f 1 = mixTwo (f_muGas f) (f_muSolvent f) (mobileGas f) (mobileSolvent f)) by (rewrite muGasTo_eq; apply towards_1; auto using mixTwo_pos).
  assert (RS : rhoSolventEff f = rhoMix f).
  { unfold rhoSolventEff. rewrite saturations. change (mixRho f) with (densityMixing f). rewrite WR.
    destruct (ltb (Rabs _) cutOff) eqn:E; [ring|]. destruct (proj2 MX) as [Z | Z].
    - rewrite (solvent_alone f PH MX Z). rewrite !(ltb_false cutOff (mobileOil f + mobileGas f)) by lra.
      pose proof (root4_pos (muOilOr1 f)). pose proof (root4_pos (f_muSolvent f)). pose proof (root4_pos (f_muGas f)).
      replace (_ / _) with 1 by (field; pose proof (Rmult_lt_0_compat (root4 (muOilOr1 f)) (root4 (f_muGas f))); lra).
      rewrite rhoMix_eq by exact MX. unfold mean3. destruct MX as (M & _).
      replace (mobileOil f) with 0 in * by lra. replace (mobileGas f) with 0 in * by lra. field. lra.
    - rewrite !(ltb_true cutOff (mobileOil f + mobileGas f)) in E |- * by lra.
      assert (N : root4 (f_muSolvent f) * (mobileGas f / (mobileOil f + mobileGas f) * root4 (muOilOr1 f) + mobileOil f / (mobileOil f + mobileGas f) * root4 (f_muGas f))
                - root4 (muOilOr1 f) * root4 (f_muGas f) <> 0).
      { intros K. rewrite K in E. rewrite Rabs_R0, ltb_true in E by exact CP. discriminate. }
      destruct (solvent_fraction _ _ _ (root4 (muSolventTo f 1)) _ _ (root4_pos _) (root4_pos _) (root4_pos _) (root4_pos _) N) as (NE & ->).
      destruct (solvent_way f PH MX 1 Z ltac:(unfold weight; lra)) as (t & T & TE & K & _).
      rewrite S1, K, (way_gone _ _ t NE).
      rewrite rhoMix_eq by exact MX. unfold mean3. subst t. destruct MX as (M & _). field. split; lra. }
  unfold effectiveProperties. rewrite MI, ltb_false by exact CS. cbn [negb m_rhoGas m_rhoSolvent m_muSolvent].
  change (mixPmisc f) with (misciblePart f). change (mixMu f) with (viscosityMixing f). rewrite WP, WM.
  assert (RP : 0 < rhoMix f) by (eapply inHull_pos; [apply (densities_pos f PH) | apply rhoMix_hull; assumption]).
  pose proof (ph_refSolvent f PH) as RSP. pose proof (refOfGas_pos f PH) as RGP. split; [|split].
  - change (if f_oil f then f_rhoOil f else 0) with (rhoOilOr0 f). rewrite RS. unfold blendB. rewrite <- (rhoMix_eq f MX). field. lra.
  - rewrite RS, S1. apply blendMu_1; auto using mixThree_pos. apply div_pos; assumption.
  - intros GS AP. unfold blendB.
    assert (RG : rhoGasEff f = mean2 (mobileGas f) (f_rhoGas f) (mobileSolvent f) (f_rhoSolvent f)).
    { unfold rhoGasEff. change (mixRho f) with (densityMixing f). rewrite WR, G1. rewrite ltb_false by exact AP.
      assert (N : root4 (f_muGas f) <> root4 (f_muSolvent f)).
      { intros K. rewrite K in AP. replace (root4 (f_muSolvent f) - root4 (f_muSolvent f)) with 0 in AP by ring. rewrite Rabs_R0 in AP. lra. }
      pose proof (way_two (root4 (f_muGas f)) (root4 (f_muSolvent f)) (mobileGas f) (mobileSolvent f) (root4_pos _) (root4_pos _) B C GS N
        _ (mixTwo_root _ _ _ _ MG MS B C GS) (root4_pos _)) as X.
      rewrite X. unfold mean2. field. lra. }
    rewrite RG. field. lra.
Qed.

(* ----- polymer ----- *)
Section Polymer.
Variable y : polymer.
Hypothesis OK : polymerOk y.
Notation w := (y_w y).
Notation mu := (y_muWater y).
Notation m := (y_mult y (y_c y)).
Notation M := (y_mult y (y_cmax y)).
Notation cbar := (y_c y / y_cmax y).

Lemma mult_pos : 0 < m /\ 0 < M. Proof. destruct (po_mult y OK). lra. Qed.
Lemma cbar_weight : 0 <= cbar <= 1.
Proof.
  destruct (po_c y OK) as (A & B). pose proof (po_cmax y OK) as C. split; [apply Rmult_le_pos; [lra | left; apply Rinv_0_lt_compat; lra]|].
  apply Rmult_le_reg_r with (y_cmax y); [lra|]. unfold Rdiv. rewrite Rmult_assoc, Rinv_l by lra. lra.
Qed.
Lemma muWaterEff_eq : muWaterEff y = mu * Rpower m w.
Proof.
  unfold muWaterEff, muMixture. pose proof mult_pos. pose proof (po_mu y OK).
  rewrite <- Rpower_mult_distr by lra.
  replace (Rpower mu (1 - w)) with (mu * / Rpower mu w).
  - pose proof (Rpower_pos mu w). field. lra.
  - unfold Rminus. rewrite Rpower_plus, Rpower_1, Rpower_Ropp by lra. reflexivity.
Qed.
Lemma muPolymerEff_eq : muPolymerEff y = mu * (Rpower m w * Rpower M (1 - w)).
Proof.
  unfold muPolymerEff, muMixture, muPolymer. pose proof mult_pos. pose proof (po_mu y OK).
  rewrite <- !Rpower_mult_distr by lra.
  replace (Rpower mu (1 - w)) with (mu * / Rpower mu w).
  - pose proof (Rpower_pos mu w). field. lra.
  - unfold Rminus. rewrite Rpower_plus, Rpower_1, Rpower_Ropp by lra. reflexivity.
Qed.

Lemma Rpower_1_base e : Rpower 1 e = 1.
Proof. unfold Rpower. rewrite ln_1, Rmult_0_r. apply exp_0. Qed.
Lemma Rpower_ge1 x e : 1 <= x -> 0 <= e -> 1 <= Rpower x e.
Proof. intros X E. rewrite <- (Rpower_1_base e). apply Rle_Rpower_l; lra. Qed.

Notation a := (Rpower m w).
Notation b := (Rpower M (1 - w)).
Lemma ab_ge1 : 1 <= a /\ 1 <= b /\ a * b <= M.
Proof.
  destruct (po_mult y OK) as (H1 & H2). destruct (po_w y OK) as (W1 & W2).
  split; [apply Rpower_ge1; lra|]. split; [apply Rpower_ge1; lra|].
  replace M with (Rpower M w * b) at 2.
  - apply Rmult_le_compat_r; [left; apply Rpower_pos | apply Rle_Rpower_l; lra].
  - rewrite <- Rpower_plus. replace (w + (1 - w)) with 1 by ring. apply Rpower_1. lra.
Qed.
Lemma waterCorrection_eq : o_waterCorrection (polymerUpdate y) = ((1 - cbar) + cbar / b) / a.
Proof.
  unfold polymerUpdate. cbn [o_waterCorrection]. rewrite muWaterEff_eq, muPolymerEff_eq.
  pose proof (po_mu y OK). pose proof (Rpower_pos m w). pose proof (Rpower_pos M (1 - w)). pose proof (po_cmax y OK).
  field. repeat split; lra.
Qed.
Lemma polymerCorrection_eq : o_polymerCorrection (polymerUpdate y) = 1 / ((1 - cbar) * b + cbar).
Proof.
  change (o_polymerCorrection (polymerUpdate y)) with (mu / o_waterCorrection (polymerUpdate y) / muPolymerEff y).
  rewrite waterCorrection_eq, muPolymerEff_eq.
  pose proof (po_mu y OK) as MU. pose proof (Rpower_pos m w) as PA. pose proof (Rpower_pos M (1 - w)) as PB. pose proof (po_cmax y OK).
  pose proof cbar_weight as CB. set (c := cbar) in *. set (A := a) in *. set (B := b) in *.
  assert (D : 0 < (1 - c) * B + c * 1) by (apply weights_pos; lra).
  assert (D' : (1 - c) * B + c <> 0) by lra.
  field. repeat split; try lra.
Qed.
Theorem polymer_bounds :
  / M <= o_waterCorrection (polymerUpdate y) <= 1 /\ 0 < o_polymerCorrection (polymerUpdate y) <= 1.
Proof.
  rewrite waterCorrection_eq, polymerCorrection_eq.
  destruct ab_ge1 as (A1 & B1 & AB). pose proof cbar_weight as CB. destruct mult_pos as (MP & MMP).
  set (c := cbar) in *. set (A := a) in *. set (B := b) in *.
  assert (IB : 0 < / B <= 1). { split; [apply Rinv_0_lt_compat; lra|]. rewrite <- Rinv_1. apply Rinv_le_contravar; lra. }
  assert (IA : 0 < / A <= 1). { split; [apply Rinv_0_lt_compat; lra|]. rewrite <- Rinv_1. apply Rinv_le_contravar; lra. }
  assert (IN : / B <= 1 - c + c / B <= 1) by (unfold Rdiv; split; nra).
  split; [split|split].
  - apply Rle_trans with (/ B * / A).
    + rewrite <- Rinv_mult. apply Rinv_le_contravar; [apply Rmult_lt_0_compat; lra | rewrite Rmult_comm; exact AB].
    + unfold Rdiv. apply Rmult_le_compat_r; [lra | apply IN].
  - unfold Rdiv at 1. apply Rle_trans with (1 * 1); [apply Rmult_le_compat; lra | lra].
  - assert (D : 0 < (1 - c) * B + c * 1) by (apply weights_pos; lra). apply div_pos; lra.
  - assert (D : 1 <= (1 - c) * B + c) by nra. unfold Rdiv. rewrite Rmult_1_l, <- Rinv_1. apply Rinv_le_contravar; lra.
Qed.
End Polymer.

Lemma Rdiv_mono_num c d m : 0 < m -> c <= d -> c / m <= d / m.
Proof. intros M H. unfold Rdiv. apply Rmult_le_compat_r; [left; apply Rinv_0_lt_compat; exact M | exact H]. Qed.
Lemma exp_increasing_le x y : x <= y -> exp x <= exp y.
Proof. intros [H | ->]; [left; apply exp_increasing; exact H | right; reflexivity]. Qed.
Lemma Rdiv_mono x x' a a' : 0 <= x' <= x -> 0 < a <= a' -> x' / a' <= x / a.
Proof.
  intros X A. unfold Rdiv. apply Rmult_le_compat; try lra.
  - left. apply Rinv_0_lt_compat. lra.
  - apply Rinv_le_contravar; lra.
Qed.
Lemma resistance_ge1 y : 1 <= y_rrf y -> 0 < y_adsLimit y -> 0 <= y_ads y (y_c y) -> 1 <= resistance y.
Proof.
  intros R L A. unfold resistance.
  assert (0 <= adsorption y). { unfold adsorption. destruct (y_noDesorption y); [|exact A]. eapply Rle_trans; [exact A | apply Rmax_r]. }
  assert (0 <= (y_rrf y - 1) * adsorption y / y_adsLimit y).
  { apply Rmult_le_pos; [apply Rmult_le_pos; lra | left; apply Rinv_0_lt_compat; exact L]. } lra.
Qed.
Lemma resistance_mono y c c' : 1 <= y_rrf y -> 0 < y_adsLimit y -> y_ads y c <= y_ads y c' ->
  resistance (atConc y c) <= resistance (atConc y c').
Proof.
  intros R L A. unfold resistance, atConc, atConc. cbn [y_rrf y_adsLimit].
  assert (adsorption (atConc y c) <= adsorption (atConc y c')).
  { unfold adsorption, atConc. cbn. destruct (y_noDesorption y); [|exact A]. apply Rle_max_compat_l. exact A. }
  apply Rplus_le_compat_l. unfold Rdiv. apply Rmult_le_compat_r; [left; apply Rinv_0_lt_compat; exact L|].
  apply Rmult_le_compat_l; [lra | exact H].
Qed.
Lemma waterCorrection_antitone y c c' : 0 < y_cmax y -> 0 < y_muWater y -> weight (y_w y) -> 0 <= c -> c <= c' -> c' <= y_cmax y ->
  1 <= y_mult y c -> y_mult y c <= y_mult y c' -> y_mult y c' <= y_mult y (y_cmax y) ->
  0 <= o_waterCorrection (polymerUpdate (atConc y c')) <= o_waterCorrection (polymerUpdate (atConc y c)).
Proof.
  intros CM MU W C CC CX M1 M2 M3.
  assert (OK : polymerOk (atConc y c)) by (split; unfold atConc; cbn; auto; lra).
  assert (OK' : polymerOk (atConc y c')) by (split; unfold atConc; cbn; auto; lra).
  rewrite (waterCorrection_eq _ OK), (waterCorrection_eq _ OK').
  pose proof (cbar_weight _ OK) as K. pose proof (cbar_weight _ OK') as K'.
  destruct (ab_ge1 _ OK) as (A1 & B1 & _). destruct (ab_ge1 _ OK') as (A1' & _ & _).
  unfold atConc in *. cbn [y_c y_cmax y_mult y_w] in *.
  set (B := Rpower (y_mult y (y_cmax y)) (1 - y_w y)) in *.
  assert (IB : 0 < / B <= 1). { split; [apply Rinv_0_lt_compat; lra|]. rewrite <- Rinv_1. apply Rinv_le_contravar; lra. }
  assert (KK : c / y_cmax y <= c' / y_cmax y) by (apply Rdiv_mono_num; assumption).
  assert (P : 0 <= 1 - c' / y_cmax y + c' / y_cmax y / B <= 1 - c / y_cmax y + c / y_cmax y / B).
  { set (u := c / y_cmax y) in *. set (v := c' / y_cmax y) in *. unfold Rdiv. split; nra. }
  split. { apply Rmult_le_pos; [apply P | left; apply Rinv_0_lt_compat, Rpower_pos]. }
  apply Rdiv_mono; [exact P|]. split; [apply Rpower_pos | apply Rle_Rpower_l; [apply W | lra]].
Qed.

(** With molar weights. *)
Lemma weightCorrection_bounds g k c iv : 0 <= g -> 0 <= k -> 0 <= c -> 0 <= iv -> 0 < weightCorrection g k c iv <= 1.
Proof.
  intros G K C I. unfold weightCorrection. pose proof (Rmult_le_pos c iv C I) as X. set (x := c * iv) in *.
  assert (D : 1 <= 1 + g * (x + k * x * x)).
  { pose proof (Rmult_le_pos g (x + k * x * x) G). pose proof (Rmult_le_pos (k * x) x). pose proof (Rmult_le_pos k x). lra. }
  split; [apply div_pos; lra|]. unfold Rdiv. rewrite Rmult_1_l, <- Rinv_1. apply Rinv_le_contravar; lra.
Qed.
Lemma weightCorrection_antitone g k c c' iv : 0 <= g -> 0 <= k -> 0 <= c -> c <= c' -> 0 <= iv ->
  weightCorrection g k c' iv <= weightCorrection g k c iv.
Proof.
  intros G K C CC I. unfold weightCorrection. pose proof (Rmult_le_pos c iv C I) as X.
  assert (XX : c * iv <= c' * iv) by (apply Rmult_le_compat_r; assumption).
  set (x := c * iv) in *. set (x' := c' * iv) in *.
  assert (E : x + k * x * x <= x' + k * x' * x') .
  { assert (k * x <= k * x') by (apply Rmult_le_compat_l; assumption). pose proof (Rmult_le_pos k x K X).
    assert (k * x * x <= k * x' * x') by (apply Rmult_le_compat; lra). lra. }
  assert (D : 0 <= x + k * x * x). { pose proof (Rmult_le_pos k x K X). pose proof (Rmult_le_pos (k * x) x). lra. }
  unfold Rdiv. rewrite !Rmult_1_l. apply Rinv_le_contravar.
  - pose proof (Rmult_le_pos g _ G D). lra.
  - apply Rplus_le_compat_l, Rmult_le_compat_l; assumption.
Qed.

(* ----- shear ----- *)
Lemma newton_some eval slope l n : forall u v, shearNewton eval slope l n u = Some v ->
  exists u', Rabs (u' + eval u' - l) < shearEps /\ v = u' - (u' + eval u' - l) / (1 + slope u').
Proof.
  induction n as [|n IH]; cbn [shearNewton]; intros u v H; [discriminate|].
  destruct (ltb_case (Rabs (u + eval u - l)) shearEps) as [(A & E) | (A & E)]; rewrite E in H.
  - injection H as <-. exists u. split; [exact A | reflexivity].
  - apply IH in H. exact H.
Qed.
Lemma newton_residual eval slope l n u v lam d : shearNewton eval slope l n u = Some v ->
  (forall x z, Rabs (eval x - eval z) <= lam * Rabs (x - z)) -> (forall x, d <= Rabs (1 + slope x)) -> 0 < d -> 0 <= lam ->
  Rabs (v + eval v - l) <= shearEps * (1 + (1 + lam) / d).
Proof.
  intros H L D DP LP. destruct (newton_some _ _ _ _ _ _ H) as (x & F & ->).
  set (f := x + eval x - l) in *. set (q := f / (1 + slope x)).
  assert (Q : Rabs q <= shearEps / d).
  { unfold q. pose proof (D x) as Dx. unfold Rdiv. rewrite Rabs_mult, Rabs_inv. apply Rmult_le_compat; try apply Rabs_pos.
    - left. apply Rinv_0_lt_compat. lra.
    - lra.
    - apply Rinv_le_contravar; assumption. }
  replace (x - q + eval (x - q) - l) with (f + (- q + (eval (x - q) - eval x))) by (unfold f; ring).
  pose proof (L (x - q) x) as Lx. replace (x - q - x) with (- q) in Lx by ring. rewrite Rabs_Ropp in Lx.
  pose proof (Rabs_triang f (- q + (eval (x - q) - eval x))). pose proof (Rabs_triang (- q) (eval (x - q) - eval x)).
  rewrite Rabs_Ropp in *.
  assert (lam * Rabs q <= lam * (shearEps / d)) by (apply Rmult_le_compat_l; assumption).
  replace (shearEps * (1 + (1 + lam) / d)) with (shearEps + shearEps / d + lam * (shearEps / d)) by (field; lra). lra.
Qed.
Lemma exp_band a l t : Rabs (a - l) <= t -> exp l * exp (- t) <= exp a <= exp l * exp t.
Proof.
  intros H. rewrite <- !exp_plus. assert (- t <= a - l <= t) by (unfold Rabs in H; destruct (Rcase_abs (a - l)); lra).
  split; apply exp_increasing_le; lra.
Qed.
Theorem shear_result mult first eval slope v0 z lam d :
  computeShearFactor mult first eval slope v0 = Some z ->
  (forall x y, Rabs (eval x - eval y) <= lam * Rabs (x - y)) -> (forall x, d <= Rabs (1 + slope x)) -> 0 < d -> 0 <= lam ->
  (z = 1 /\ (Rabs (mult - 1) < multEps \/ v0 = 0 \/ ln (Rabs v0) < first)) \/
  (v0 <> 0 /\ exists v, z = exp (eval (ln v)) /\ sheared z v (Rabs v0) (shearEps * (1 + (1 + lam) / d))).
Proof.
  intros H L D DP LP. unfold computeShearFactor in H.
  destruct (ltb_case (Rabs (mult - 1)) multEps) as [(A & E) | (A & E)]; rewrite E in H.
  { left. injection H as <-. auto. }
  destruct (Req_EM_T v0 0) as [V | V]. { left. injection H as <-. auto. }
  destruct (ltb_case (ln (Rabs v0)) first) as [(B & F) | (B & F)]; rewrite F in H.
  { left. injection H as <-. auto. }
  right. split; [exact V|]. destruct (shearNewton _ _ _ _ _) as [u|] eqn:N; [|discriminate]. injection H as <-.
  exists (exp u). rewrite ln_exp. split; [reflexivity|].
  pose proof (newton_residual _ _ _ _ _ _ _ _ N L D DP LP) as R.
  unfold sheared. split; [apply exp_pos|]. split; [apply exp_pos|].
  rewrite <- exp_plus. rewrite <- (exp_ln (Rabs v0)) at 1 2 by (apply Rabs_pos_lt; exact V).
  apply exp_band. replace (u + eval u - ln (Rabs v0)) with (u + eval u - ln (Rabs v0)) by ring. exact R.
Qed.
Lemma newton_step eval slope l n u : shearNewton eval slope l (S n) u =
  (if ltb (Rabs (u + eval u - l)) shearEps then Some (u - (u + eval u - l) / (1 + slope u))
   else shearNewton eval slope l n (u - (u + eval u - l) / (1 + slope u))).
Proof. reflexivity. Qed.
Lemma newton_affine p q l n u : 1 + q <> 0 ->
  shearNewton (fun u => p + q * u) (fun _ => q) l (S (S n)) u = Some (u - (u + (p + q * u) - l) / (1 + q)).
Proof.
  intros Q. rewrite newton_step. set (u1 := u - (u + (p + q * u) - l) / (1 + q)).
  destruct (ltb _ shearEps); [reflexivity|]. rewrite newton_step.
  assert (F : u1 + (p + q * u1) - l = 0) by (unfold u1; field; exact Q). rewrite F.
  assert (EP : 0 < shearEps) by (unfold shearEps; apply Rinv_0_lt_compat, pow_lt; lra).
  rewrite Rabs_R0, ltb_true by exact EP. f_equal. unfold Rdiv. ring.
Qed.
Theorem shear_power_law mult first p q v0 : multEps <= Rabs (mult - 1) -> v0 <> 0 -> first <= ln (Rabs v0) -> 1 + q <> 0 ->
  exists z v, computeShearFactor mult first (fun u => p + q * u) (fun _ => q) v0 = Some z /\
    z = exp (p + q * ln v) /\ 0 < v /\ v * z = Rabs v0.
Proof.
  intros A V B Q. unfold computeShearFactor. rewrite ltb_false by exact A.
  destruct (Req_EM_T v0 0) as [E | _]; [contradiction|]. rewrite ltb_false by exact B.
  set (l := ln (Rabs v0)) in *. set (u1 := l - (l + (p + q * l) - l) / (1 + q)).
  assert (F : u1 + (p + q * u1) - l = 0) by (unfold u1; field; exact Q).
  exists (exp (p + q * u1)), (exp u1). rewrite ln_exp. split; [|split; [reflexivity | split; [apply exp_pos|]]].
  - rewrite (newton_affine p q l 18 l Q). reflexivity.
  - rewrite <- exp_plus. rewrite <- (exp_ln (Rabs v0)) by (apply Rabs_pos_lt; exact V). f_equal. fold l. lra.
Qed.

(** A table on which the iteration runs in a circle. *)
Definition circleTable (u : R) : R :=
  if ltb u (-1) then -5 - 19 / 20 * (u + 1) else if ltb 1 u then -5 - 19 / 20 * (u - 1) else -5.
Definition circleSlope (u : R) : R := if ltb u (-1) then - (19 / 20) else if ltb 1 u then - (19 / 20) else 0.
Lemma shearEps_1 : 0 < shearEps < 1.
Proof.
  unfold shearEps. split; [apply Rinv_0_lt_compat, pow_lt; lra|]. rewrite <- Rinv_1.
  apply Rinv_lt_contravar; [rewrite Rmult_1_l; apply pow_lt; lra | apply Rlt_pow_R1; [lra | lia]].
Qed.
Lemma circle n : shearNewton circleTable circleSlope (-5) n 19 = None /\ shearNewton circleTable circleSlope (-5) n (-19) = None.
Proof.
  pose proof shearEps_1 as SE.
  assert (T1 : circleTable 19 = -5 - 19 / 20 * (19 - 1)) by (unfold circleTable; rewrite ltb_false, ltb_true by lra; reflexivity).
  assert (T2 : circleTable (-19) = -5 - 19 / 20 * (-19 + 1)) by (unfold circleTable; rewrite ltb_true by lra; reflexivity).
  assert (S1 : circleSlope 19 = - (19 / 20)) by (unfold circleSlope; rewrite ltb_false, ltb_true by lra; reflexivity).
  assert (S2 : circleSlope (-19) = - (19 / 20)) by (unfold circleSlope; rewrite ltb_true by lra; reflexivity).
  induction n as [|n (IH1 & IH2)]; [split; reflexivity|]. rewrite !newton_step, T1, T2, S1, S2. split.
  - rewrite ltb_false by (rewrite Rabs_right; lra).
    replace (19 - (19 + (-5 - 19 / 20 * (19 - 1)) - -5) / (1 + - (19 / 20))) with (-19) by field. exact IH2.
  - rewrite ltb_false by (rewrite Rabs_left; lra).
    replace (-19 - (-19 + (-5 - 19 / 20 * (-19 + 1)) - -5) / (1 + - (19 / 20))) with 19 by field. exact IH1.
Qed.
Lemma circle_start n : shearNewton circleTable circleSlope (-5) n (-5) = None.
Proof.
  pose proof shearEps_1 as SE. destruct n as [|n]; [reflexivity|]. rewrite newton_step.
  assert (T : circleTable (-5) = -5 - 19 / 20 * (-5 + 1)) by (unfold circleTable; rewrite ltb_true by lra; reflexivity).
  assert (S1 : circleSlope (-5) = - (19 / 20)) by (unfold circleSlope; rewrite ltb_true by lra; reflexivity).
  rewrite T, S1. rewrite ltb_false by (rewrite Rabs_left; lra).
  replace (-5 - (-5 + (-5 - 19 / 20 * (-5 + 1)) - -5) / (1 + - (19 / 20))) with 19 by field. apply circle.
Qed.
Lemma circle_table_down u v : u <= v -> circleTable v <= circleTable u.
Proof.
  intros H. unfold circleTable, ltb.
  destruct (Rlt_dec u (-1)), (Rlt_dec v (-1)), (Rlt_dec 1 u), (Rlt_dec 1 v); lra.
Qed.
Lemma circle_unique u : u + circleTable u = -5 <-> u = 0.
Proof.
  unfold circleTable, ltb. destruct (Rlt_dec u (-1)), (Rlt_dec 1 u); lra.
Qed.

(* ----- biogrout ----- *)
Lemma micp_bounds phi ref crit eta kmin K : crit < phi <= ref -> 0 <= eta -> 0 < kmin <= K ->
  kmin / K <= micpFactor phi ref crit eta kmin K <= 1.
Proof.
  intros P E KK. unfold micpFactor. split; [apply Rmax_r|].
  assert (k : 0 < kmin / K <= 1).
  { split; [apply div_pos; lra|]. apply Rmult_le_reg_r with K; [lra|]. unfold Rdiv. rewrite Rmult_assoc, Rinv_l by lra. lra. }
  assert (t : 0 < (phi - crit) / (ref - crit) <= 1).
  { split; [apply div_pos; lra|]. apply Rmult_le_reg_r with (ref - crit); [lra|]. unfold Rdiv. rewrite Rmult_assoc, Rinv_l by lra. lra. }
  set (x := kmin / K) in *. set (y := (phi - crit) / (ref - crit)) in *.
  assert (Q : Rpower y eta <= 1). { rewrite <- (Rpower_1_base eta). apply Rle_Rpower_l; lra. }
  apply Rmax_lub; [|lra]. apply Rmult_le_reg_r with (1 + x); [lra|]. unfold Rdiv. rewrite Rmult_assoc, Rinv_l by lra. lra.
Qed.
Lemma micp_mono phi phi' ref crit eta kmin K : crit < phi -> phi <= phi' -> crit < ref -> 0 <= eta -> 0 < kmin -> 0 < K ->
  micpFactor phi ref crit eta kmin K <= micpFactor phi' ref crit eta kmin K.
Proof.
  intros P PP R E K1 K2. unfold micpFactor. apply Rle_max_compat_r.
  assert (k : 0 < kmin / K) by (apply div_pos; lra).
  apply Rdiv_mono_num; [lra|]. apply Rplus_le_compat_r, Rle_Rpower_l; [exact E|].
  split; [apply div_pos; lra | apply Rdiv_mono_num; lra].
Qed.
Lemma micp_full ref crit eta kmin K : crit < ref -> 0 < kmin <= K -> micpFactor ref ref crit eta kmin K = 1.
Proof.
  intros C KK. unfold micpFactor. replace ((ref - crit) / (ref - crit)) with 1 by (field; lra). rewrite Rpower_1_base.
  assert (k : 0 < kmin / K <= 1).
  { split; [apply div_pos; lra|]. apply Rmult_le_reg_r with K; [lra|]. unfold Rdiv. rewrite Rmult_assoc, Rinv_l by lra. lra. }
  replace ((1 + kmin / K) / (1 + kmin / K)) with 1 by (field; repeat split; lra). apply Rmax_left. lra.
Qed.

(* ----- relative permeabilities with solvent ----- *)
Lemma combo_bounds t a b lo hi : 0 <= t <= 1 -> lo <= a <= hi -> lo <= b <= hi -> lo <= a * (1 - t) + t * b <= hi.
Proof. intros T A B. split; nra. Qed.
Lemma product_weight a b : weight a -> weight b -> weight (a * b).
Proof. intros (A & B) (C & D). split; [apply Rmult_le_pos; assumption|]. nra. Qed.
Lemma totalGas_weight sgs so sor sgc : 0 <= sgs -> sor <= so ->
  weight (if ltb cutOff (Rmax (sgs + so - sor - sgc) 0) then Rmax (sgs - sgc) 0 / Rmax (sgs + so - sor - sgc) 0 else 0).
Proof.
  intros G O. pose proof cutOff_pos as CP. destruct (ltb_case cutOff (Rmax (sgs + so - sor - sgc) 0)) as [(A & ->) | (_ & ->)]; [|split; lra].
  assert (B : Rmax (sgs - sgc) 0 <= Rmax (sgs + so - sor - sgc) 0) by (apply Rle_max_compat_r; lra).
  pose proof (Rmax_r (sgs - sgc) 0) as C. set (x := Rmax (sgs - sgc) 0) in *. set (y := Rmax (sgs + so - sor - sgc) 0) in *.
  split; [apply Rmult_le_pos; [lra | left; apply Rinv_0_lt_compat; lra]|].
  apply Rmult_le_reg_r with y; [lra|]. unfold Rdiv. rewrite Rmult_assoc, Rinv_l by lra. lra.
Qed.
Theorem relperm_bounds r kro krg kmax : tablesOk r kmax -> 0 <= r_sg r -> 0 <= kro <= kmax -> 0 <= krg <= kmax ->
  (r_miscible r = true -> r_oil r = true -> r_sogcr r <= r_so r /\ r_sorwmis r <= r_so r) ->
  let '(o, g, s) := postSatFunc r kro krg in 0 <= o <= kmax /\ 0 <= g <= kmax /\ 0 <= s <= kmax.
Proof.
  intros (T1 & T2 & T3 & T4 & T5 & T6 & T7) SG KO KG RES. pose proof cutOff_pos as CP. unfold postSatFunc.
  assert (KM : 0 <= kmax) by lra.
  destruct (ltb_case (r_ss r) cutOff) as [(_ & ->) | (A & ->)]; [repeat split; lra|].
  destruct (ltb_case (r_sg r + r_ss r) cutOff) as [(_ & ->) | (B & ->)]; [repeat split; lra|].
  set (sgs := r_sg r + r_ss r) in *.
  assert (FH : weight (r_sg r / sgs)). { unfold sgs. replace (r_sg r + r_ss r) with (r_ss r + r_sg r) by ring. apply frac_le1; lra. }
  assert (FS : weight (r_ss r / sgs)) by (unfold sgs; apply frac_le1; lra).
  assert (Fin : forall o g, 0 <= o <= kmax -> 0 <= g <= kmax ->
    0 <= o <= kmax /\ 0 <= g * r_ssfnKrg r (r_sg r / sgs) <= kmax /\ 0 <= g * r_ssfnKrs r (r_ss r / sgs) <= kmax).
  { intros o g O G. destruct (T6 _ FH) as (H1 & H2). destruct (T7 _ FS) as (H3 & H4). repeat split; try lra; nra. }
  destruct (r_miscible r && r_oil r) eqn:MO; [|apply Fin; assumption].
  apply andb_prop in MO. destruct MO as (MI & OI). destruct (RES MI OI) as (R1 & R2).
  assert (MW : weight (r_misc r (r_ss r / sgs) * r_pmisc r)) by (apply product_weight; auto).
  set (misc := r_misc r (r_ss r / sgs) * r_pmisc r) in *.
  set (sor := if r_water r then misc * r_sorwmis r + (1 - misc) * r_sogcr r else r_sogcr r).
  set (sgc := if r_water r then misc * r_sgcwmis r + (1 - misc) * r_sgcr r else r_sgcr r).
  assert (SOR : sor <= r_so r). { unfold sor. destruct MW. destruct (r_water r); [nra | exact R1]. }
  pose proof (totalGas_weight sgs (r_so r) sor sgc ltac:(lra) SOR) as FG.
  set (fg := if ltb cutOff _ then _ else 0) in FG |- *.
  destruct (T3 _ FG) as (H1 & H2). destruct (T4 _ FG) as (H3 & H4). specialize (T5 (sgs + r_so r)).
  apply Fin; apply combo_bounds; auto; split; try (apply Rmult_le_pos; lra); nra.
Qed.

Theorem relperm_split r kro krg : (r_miscible r && r_oil r = false)%bool -> 0 <= r_sg r -> cutOff <= r_ss r ->
  (forall x, weight x -> r_ssfnKrg r x + r_ssfnKrs r (1 - x) = 1) ->
  let '(o, g, s) := postSatFunc r kro krg in o = kro /\ g + s = krg.
Proof.
  intros MO SG SS T. pose proof cutOff_pos as CP. unfold postSatFunc. rewrite ltb_false by exact SS. rewrite ltb_false by lra.
  rewrite MO. split; [reflexivity|]. rewrite <- Rmult_plus_distr_l.
  replace (r_ss r / (r_sg r + r_ss r)) with (1 - r_sg r / (r_sg r + r_ss r)) by (field; lra).
  rewrite T; [ring|]. replace (r_sg r + r_ss r) with (r_ss r + r_sg r) by ring. apply frac_le1; lra.
Qed.

(** The density of gas stays between the ones of gas and solvent. *)
Lemma gas_density_two f : physical f -> f_miscible f = true -> cutOff <= f_ss f ->
  cutOff <= Rabs (root4 (f_muSolvent f) - root4 (f_muGas f)) ->
  inHull [f_rhoGas f; f_rhoSolvent f] (m_rhoGas (effectiveProperties f)).
Proof.
  intros PH MI CS AP. unfold effectiveProperties. rewrite MI, ltb_false by exact CS. cbn [negb m_rhoGas].
  change (mixPmisc f) with (misciblePart f). pose proof (ph_wRho f PH) as W.
  eapply blend_density; [apply refOfGas_pos, PH | apply rhoGas_ref, PH | apply (ph_pmisc f PH) | | apply inHull_in; left; reflexivity].
  unfold rhoGasEff. change (mixRho f) with (densityMixing f). rewrite ltb_false by exact AP.
  destruct (muGasTo_hull f PH (densityMixing f) W) as (P & H).
  pose proof (fraction (root4 (f_muGas f)) (root4 (f_muSolvent f)) (root4 (muGasTo f (densityMixing f)))
    (root4_pos _) (root4_pos _) (root4_pos _) (roots_apart _ _ (ltb_false _ _ AP))
    (inHull_root_of [f_muGas f; f_muSolvent f] _ P (pair_pos _ _ (ph_muGas f PH) (ph_muSolvent f PH)) H)) as X.
  set (x := _ / _) in X |- *.
  replace (f_rhoGas f * x + f_rhoSolvent f * (1 - x)) with (x * f_rhoGas f + (1 - x) * f_rhoSolvent f) by ring.
  apply inHull_combo; [apply inHull_in; left; reflexivity | apply inHull_in; right; left; reflexivity | exact X].
Qed.
