(** Numbers with the special values of IEEE arithmetic but exact finite values: rounding
    and overflow are not modelled, comparisons with NaN are (all are false). *)
From Coq Require Export List Bool ZArith QArith Qabs Qminmax Lia.
From Coq Require Export Lqa.
Export ListNotations.
Open Scope Q_scope.

Inductive num := NaN | PInf | NInf | Fin (q : Q).

Definition Qltb (a b : Q) : bool := negb (Qle_bool b a).

(** The operator [<] of C++. *)
Definition nltb (a b : num) : bool :=
  match a, b with
  | NaN, _ | _, NaN => false
  | Fin x, Fin y => Qltb x y
  | NInf, NInf => false
  | NInf, _ => true
  | PInf, _ => false
  | Fin _, PInf => true
  | Fin _, NInf => false
  end.

(** The operator [<=] of C++. *)
Definition nleb (a b : num) : bool :=
  match a, b with
  | NaN, _ | _, NaN => false
  | Fin x, Fin y => Qle_bool x y
  | NInf, _ => true
  | PInf, PInf => true
  | PInf, _ => false
  | Fin _, PInf => true
  | Fin _, NInf => false
  end.

(** [std::max(a, b)] is [(a < b) ? b : a]. *)
Definition nmax (a b : num) : num := if nltb a b then b else a.
(** [std::min(a, b)] is [(b < a) ? b : a]. *)
Definition nmin (a b : num) : num := if nltb b a then b else a.

(** [std::abs]. *)
Definition nabs (a : num) : num :=
  match a with NaN => NaN | PInf | NInf => PInf | Fin x => Fin (Qabs x) end.

Definition nopp (a : num) : num :=
  match a with NaN => NaN | PInf => NInf | NInf => PInf | Fin x => Fin (- x) end.

Definition nadd (a b : num) : num :=
  match a, b with
  | NaN, _ | _, NaN => NaN
  | Fin x, Fin y => Fin (x + y)
  | PInf, NInf | NInf, PInf => NaN
  | PInf, _ | _, PInf => PInf
  | NInf, _ | _, NInf => NInf
  end.

Definition sgn_inf (positive : bool) : num := if positive then PInf else NInf.

Definition nmul (a b : num) : num :=
  match a, b with
  | NaN, _ | _, NaN => NaN
  | Fin x, Fin y => Fin (x * y)
  | PInf, PInf | NInf, NInf => PInf
  | PInf, NInf | NInf, PInf => NInf
  | PInf, Fin x | Fin x, PInf => if Qeq_bool x 0 then NaN else sgn_inf (Qltb 0 x)
  | NInf, Fin x | Fin x, NInf => if Qeq_bool x 0 then NaN else sgn_inf (Qltb x 0)
  end.

(** Division; a zero divisor is taken as +0. *)
Definition ndiv (a b : num) : num :=
  match a, b with
  | NaN, _ | _, NaN => NaN
  | Fin x, Fin y => if Qeq_bool y 0 then (if Qeq_bool x 0 then NaN else sgn_inf (Qltb 0 x)) else Fin (x / y)
  | Fin _, _ => Fin 0
  | PInf, Fin y => sgn_inf (Qle_bool 0 y)
  | NInf, Fin y => sgn_inf (negb (Qle_bool 0 y))
  | _, _ => NaN
  end.

(** [std::isfinite]. *)
Definition is_fin (a : num) : bool := match a with Fin _ => true | _ => false end.
Definition is_nan (a : num) : bool := match a with NaN => true | _ => false end.
Definition fin_val (a : num) : Q := match a with Fin x => x | _ => 0 end.

Lemma Qltb_lt a b : Qltb a b = true <-> a < b.
Proof.
  unfold Qltb. rewrite negb_true_iff. split; intros H.
  - apply Qnot_le_lt. intro C. apply Qle_bool_iff in C. congruence.
  - destruct (Qle_bool b a) eqn:E; auto. apply Qle_bool_iff in E. lra.
Qed.
Lemma Qltb_ge a b : Qltb a b = false <-> b <= a.
Proof.
  unfold Qltb. rewrite negb_false_iff. apply Qle_bool_iff.
Qed.
Lemma Qleb_gt a b : Qle_bool a b = false <-> b < a.
Proof.
  split; intros H.
  - apply Qnot_le_lt. intro C. apply Qle_bool_iff in C. congruence.
  - destruct (Qle_bool a b) eqn:E; auto. apply Qle_bool_iff in E. lra.
Qed.

Lemma nltb_nan_l a : nltb NaN a = false. Proof. reflexivity. Qed.
Lemma nltb_nan_r a : nltb a NaN = false. Proof. destruct a; reflexivity. Qed.
Lemma nmax_nan_l a : nmax NaN a = NaN. Proof. reflexivity. Qed.
Lemma nmax_nan_r a : nmax a NaN = a. Proof. unfold nmax. rewrite nltb_nan_r. reflexivity. Qed.

Lemma nltb_trans a b c : nltb a b = true -> nltb b c = true -> nltb a c = true.
Proof.
  destruct a, b, c; cbn; try discriminate; auto. rewrite !Qltb_lt. lra.
Qed.
Lemma nleb_trans a b c : nleb a b = true -> nleb b c = true -> nleb a c = true.
Proof.
  destruct a, b, c; cbn; try discriminate; auto. rewrite !Qle_bool_iff. lra.
Qed.
Lemma nltb_leb a b : nltb a b = true -> nleb a b = true.
Proof. destruct a, b; cbn; try discriminate; auto. rewrite Qltb_lt, Qle_bool_iff. lra. Qed.
Lemma nlt_or_ge a b : a <> NaN -> b <> NaN -> nltb a b = negb (nleb b a).
Proof. destruct a, b; cbn; try congruence; auto. Qed.
