(** Inversion of 4x4 blocks. Models opm/simulators/linalg/matrixblock.hh 68-204 (invertMatrix4 and the
    inversion of 4x4 blocks by means of it). The entries below are transcribed literally. Exact
    arithmetic. Smaller blocks are inverted by dune-common, whose code is not part of the repository. *)
From Coq Require Export List ZArith QArith Lia Lqa Bool Arith.
From Verif Require Export Num.
Export ListNotations.
Open Scope Q_scope.

Definition mat := nat -> nat -> Q.

(** matrixblock.hh 72-182: the adjugate. *)
Definition adj4 (m : mat) : mat := fun i j =>
  match i, j with
  | 0%nat, 0%nat => m 1%nat 1%nat * m 2%nat 2%nat * m 3%nat 3%nat - m 1%nat 1%nat * m 2%nat 3%nat * m 3%nat 2%nat - m 2%nat 1%nat * m 1%nat 2%nat * m 3%nat 3%nat + m 2%nat 1%nat * m 1%nat 3%nat * m 3%nat 2%nat + m 3%nat 1%nat * m 1%nat 2%nat * m 2%nat 3%nat - m 3%nat 1%nat * m 1%nat 3%nat * m 2%nat 2%nat
  | 1%nat, 0%nat => -m 1%nat 0%nat * m 2%nat 2%nat * m 3%nat 3%nat + m 1%nat 0%nat * m 2%nat 3%nat * m 3%nat 2%nat + m 2%nat 0%nat * m 1%nat 2%nat * m 3%nat 3%nat - m 2%nat 0%nat * m 1%nat 3%nat * m 3%nat 2%nat - m 3%nat 0%nat * m 1%nat 2%nat * m 2%nat 3%nat + m 3%nat 0%nat * m 1%nat 3%nat * m 2%nat 2%nat
  | 2%nat, 0%nat => m 1%nat 0%nat * m 2%nat 1%nat * m 3%nat 3%nat - m 1%nat 0%nat * m 2%nat 3%nat * m 3%nat 1%nat - m 2%nat 0%nat * m 1%nat 1%nat * m 3%nat 3%nat + m 2%nat 0%nat * m 1%nat 3%nat * m 3%nat 1%nat + m 3%nat 0%nat * m 1%nat 1%nat * m 2%nat 3%nat - m 3%nat 0%nat * m 1%nat 3%nat * m 2%nat 1%nat
  | 3%nat, 0%nat => -m 1%nat 0%nat * m 2%nat 1%nat * m 3%nat 2%nat + m 1%nat 0%nat * m 2%nat 2%nat * m 3%nat 1%nat + m 2%nat 0%nat * m 1%nat 1%nat * m 3%nat 2%nat - m 2%nat 0%nat * m 1%nat 2%nat * m 3%nat 1%nat - m 3%nat 0%nat * m 1%nat 1%nat * m 2%nat 2%nat + m 3%nat 0%nat * m 1%nat 2%nat * m 2%nat 1%nat
  | 0%nat, 1%nat => -m 0%nat 1%nat * m 2%nat 2%nat * m 3%nat 3%nat + m 0%nat 1%nat * m 2%nat 3%nat * m 3%nat 2%nat + m 2%nat 1%nat * m 0%nat 2%nat * m 3%nat 3%nat - m 2%nat 1%nat * m 0%nat 3%nat * m 3%nat 2%nat - m 3%nat 1%nat * m 0%nat 2%nat * m 2%nat 3%nat + m 3%nat 1%nat * m 0%nat 3%nat * m 2%nat 2%nat
  | 1%nat, 1%nat => m 0%nat 0%nat * m 2%nat 2%nat * m 3%nat 3%nat - m 0%nat 0%nat * m 2%nat 3%nat * m 3%nat 2%nat - m 2%nat 0%nat * m 0%nat 2%nat * m 3%nat 3%nat + m 2%nat 0%nat * m 0%nat 3%nat * m 3%nat 2%nat + m 3%nat 0%nat * m 0%nat 2%nat * m 2%nat 3%nat - m 3%nat 0%nat * m 0%nat 3%nat * m 2%nat 2%nat
  | 2%nat, 1%nat => -m 0%nat 0%nat * m 2%nat 1%nat * m 3%nat 3%nat + m 0%nat 0%nat * m 2%nat 3%nat * m 3%nat 1%nat + m 2%nat 0%nat * m 0%nat 1%nat * m 3%nat 3%nat - m 2%nat 0%nat * m 0%nat 3%nat * m 3%nat 1%nat - m 3%nat 0%nat * m 0%nat 1%nat * m 2%nat 3%nat + m 3%nat 0%nat * m 0%nat 3%nat * m 2%nat 1%nat
  | 3%nat, 1%nat => m 0%nat 0%nat * m 2%nat 1%nat * m 3%nat 2%nat - m 0%nat 0%nat * m 2%nat 2%nat * m 3%nat 1%nat - m 2%nat 0%nat * m 0%nat 1%nat * m 3%nat 2%nat + m 2%nat 0%nat * m 0%nat 2%nat * m 3%nat 1%nat + m 3%nat 0%nat * m 0%nat 1%nat * m 2%nat 2%nat - m 3%nat 0%nat * m 0%nat 2%nat * m 2%nat 1%nat
  | 0%nat, 2%nat => m 0%nat 1%nat * m 1%nat 2%nat * m 3%nat 3%nat - m 0%nat 1%nat * m 1%nat 3%nat * m 3%nat 2%nat - m 1%nat 1%nat * m 0%nat 2%nat * m 3%nat 3%nat + m 1%nat 1%nat * m 0%nat 3%nat * m 3%nat 2%nat + m 3%nat 1%nat * m 0%nat 2%nat * m 1%nat 3%nat - m 3%nat 1%nat * m 0%nat 3%nat * m 1%nat 2%nat
  | 1%nat, 2%nat => -m 0%nat 0%nat * m 1%nat 2%nat * m 3%nat 3%nat + m 0%nat 0%nat * m 1%nat 3%nat * m 3%nat 2%nat + m 1%nat 0%nat * m 0%nat 2%nat * m 3%nat 3%nat - m 1%nat 0%nat * m 0%nat 3%nat * m 3%nat 2%nat - m 3%nat 0%nat * m 0%nat 2%nat * m 1%nat 3%nat + m 3%nat 0%nat * m 0%nat 3%nat * m 1%nat 2%nat
  | 2%nat, 2%nat => m 0%nat 0%nat * m 1%nat 1%nat * m 3%nat 3%nat - m 0%nat 0%nat * m 1%nat 3%nat * m 3%nat 1%nat - m 1%nat 0%nat * m 0%nat 1%nat * m 3%nat 3%nat + m 1%nat 0%nat * m 0%nat 3%nat * m 3%nat 1%nat + m 3%nat 0%nat * m 0%nat 1%nat * m 1%nat 3%nat - m 3%nat 0%nat * m 0%nat 3%nat * m 1%nat 1%nat
  | 3%nat, 2%nat => -m 0%nat 0%nat * m 1%nat 1%nat * m 3%nat 2%nat + m 0%nat 0%nat * m 1%nat 2%nat * m 3%nat 1%nat + m 1%nat 0%nat * m 0%nat 1%nat * m 3%nat 2%nat - m 1%nat 0%nat * m 0%nat 2%nat * m 3%nat 1%nat - m 3%nat 0%nat * m 0%nat 1%nat * m 1%nat 2%nat + m 3%nat 0%nat * m 0%nat 2%nat * m 1%nat 1%nat
  | 0%nat, 3%nat => -m 0%nat 1%nat * m 1%nat 2%nat * m 2%nat 3%nat + m 0%nat 1%nat * m 1%nat 3%nat * m 2%nat 2%nat + m 1%nat 1%nat * m 0%nat 2%nat * m 2%nat 3%nat - m 1%nat 1%nat * m 0%nat 3%nat * m 2%nat 2%nat - m 2%nat 1%nat * m 0%nat 2%nat * m 1%nat 3%nat + m 2%nat 1%nat * m 0%nat 3%nat * m 1%nat 2%nat
  | 1%nat, 3%nat => m 0%nat 0%nat * m 1%nat 2%nat * m 2%nat 3%nat - m 0%nat 0%nat * m 1%nat 3%nat * m 2%nat 2%nat - m 1%nat 0%nat * m 0%nat 2%nat * m 2%nat 3%nat + m 1%nat 0%nat * m 0%nat 3%nat * m 2%nat 2%nat + m 2%nat 0%nat * m 0%nat 2%nat * m 1%nat 3%nat - m 2%nat 0%nat * m 0%nat 3%nat * m 1%nat 2%nat
  | 2%nat, 3%nat => -m 0%nat 0%nat * m 1%nat 1%nat * m 2%nat 3%nat + m 0%nat 0%nat * m 1%nat 3%nat * m 2%nat 1%nat + m 1%nat 0%nat * m 0%nat 1%nat * m 2%nat 3%nat - m 1%nat 0%nat * m 0%nat 3%nat * m 2%nat 1%nat - m 2%nat 0%nat * m 0%nat 1%nat * m 1%nat 3%nat + m 2%nat 0%nat * m 0%nat 3%nat * m 1%nat 1%nat
  | 3%nat, 3%nat => m 0%nat 0%nat * m 1%nat 1%nat * m 2%nat 2%nat - m 0%nat 0%nat * m 1%nat 2%nat * m 2%nat 1%nat - m 1%nat 0%nat * m 0%nat 1%nat * m 2%nat 2%nat + m 1%nat 0%nat * m 0%nat 2%nat * m 2%nat 1%nat + m 2%nat 0%nat * m 0%nat 1%nat * m 1%nat 2%nat - m 2%nat 0%nat * m 0%nat 2%nat * m 1%nat 1%nat
  | _, _ => 0
  end.
(** matrixblock.hh 184-185. *)
Definition det4 (m : mat) : Q :=
  m 0%nat 0%nat * adj4 m 0%nat 0%nat + m 0%nat 1%nat * adj4 m 1%nat 0%nat +
  m 0%nat 2%nat * adj4 m 2%nat 0%nat + m 0%nat 3%nat * adj4 m 3%nat 0%nat.
Definition qabs (x : Q) : Q := if Qltb x 0 then - x else x.
(** matrixblock.hh 187-194: [None] is the exception. The result is the inverse and the determinant. *)
Definition invertMatrix4 (m : mat) : option (mat * Q) :=
  if Qltb (qabs (det4 m)) (1 # 10^40) then None
  else Some (fun i j => adj4 m i j * (1 / det4 m), det4 m).
