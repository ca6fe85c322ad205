(** * Distributed matrices *)

From Coq Require Import Arith List Bool Sorted QArith.
From Verif Require Import GlobalIndexModel GlobalIndexSpec ForeignModel ForeignSpec DomesticModel DomesticSpec
  VectorModel PipelineModel PipelineSpec.
From Verif Require FluxSpec.
Import ListNotations.
Local Open Scope nat_scope.

Section Matrices.
Variable N : nat.
Variable fo : nat -> foreignOverlap.
Variable dof : nat -> nat -> nat.
Context {V : Type}.

(** The native matrix of each process: [native p n] are the columns and values of the native
    row n, [toNative p l] is the native row of the local index l, [cname p c] is the degree
    of freedom of the native column c, and [known p c] tells whether the process has a
    domestic index for the column. *)
Variable toNative : nat -> nat -> nat.
Variable native : nat -> nat -> list (nat * V).
Variable cname : nat -> nat -> nat.
Variable known : nat -> nat -> bool.

(** The matrix of rank q has the value v in the row and the column which stand for x and
    y. *)
Definition hasEntry (q x y : nat) (v : V) : Prop :=
  exists l c, l < numLocal (fo q) /\ dof q l = x /\ In (c, v) (native q (toNative q l))
    /\ known q c = true /\ cname q c = y.

(** The entries for x and y on the other ranks than p, in the order of the ranks. *)
Definition otherEntries (p x y : nat) (c : list (nat * V)) : Prop :=
  StronglySorted lt (map fst c)
  /\ forall q v, In (q, v) c <-> q < N /\ q <> p /\ hasEntry q x y v.

(** What the native matrices have to be: the native indices of the local rows, columns which
    stand for the degree of freedom of their domestic index, the columns of [graph], and no two
    columns of a row for the same degree of freedom. *)
Record nativeMatrices (ddof : nat -> nat -> nat) (size : nat -> nat) (column : nat -> nat -> option nat)
    (numRows : nat -> nat) (graph : nat -> nat -> list nat) : Prop := {
  nm_rows : forall p n l, p < N -> nativeToLocal (fo p) n = Some l ->
    l < numLocal (fo p) /\ n < numRows p /\ toNative p l = n;
  nm_native : forall p l, p < N -> l < numLocal (fo p) -> nativeToLocal (fo p) (toNative p l) = Some l;
  nm_known : forall p c, known p c = match column p c with Some _ => true | None => false end;
  nm_column : forall p c i, p < N -> column p c = Some i -> i < size p /\ ddof p i = cname p c;
  nm_graph : forall p n, p < N -> map fst (native p n) = graph p n;
  nm_once : forall p n, p < N -> NoDup (map (fun e => cname p (fst e)) (native p n))
}.

End Matrices.

(** The sum over all processes of the entries for x and y. *)
Definition entrySum (N : nat) (fo : nat -> foreignOverlap) (dof toNative : nat -> nat -> nat)
    (native : nat -> nat -> list (nat * Q)) (cname : nat -> nat -> nat) (known : nat -> nat -> bool)
    (x y : nat) : Q :=
  FluxSpec.sumOver (fun q =>
    FluxSpec.sumOver (fun l =>
      if Nat.eqb (dof q l) x
      then FluxSpec.sumOver (fun e => if known q (fst e) && Nat.eqb (cname q (fst e)) y then snd e else 0%Q)
             (native q (toNative q l))
      else 0%Q) (seq 0 (numLocal (fo q)))) (seq 0 N).

(* ----- rows and columns of the native matrices ----- *)

Section NativeRows.
Variable N : nat.
Variable pt : nat -> partition.
Variable d0 os : nat.
Variable name : nat -> nat -> nat.
Variable pb : nat -> peerBlackLists.
Context {V : Type}.
Variable native : nat -> nat -> list (nat * V).

(** A native column which rank p can use: one of its rows, or a black-listed index which
    another process announced and whose row is in the overlap of p. *)
Definition usableColumn (p c : nat) : Prop :=
  isRow pt p c \/
  ((exists q j, q < N /\ In (c, j) (bget p (pb q))) /\ inOverlap N pt d0 os name p (name p c)).

(** The native matrix of rank q has the value v for the global row x and column y. *)
Definition rowEntry (q x y : nat) (v : V) : Prop :=
  exists n c, isRow pt q n /\ name q n = x /\ In (c, v) (native q n) /\ usableColumn q c /\ name q c = y.

(** The entries for x and y on the other ranks than p, in the order of the ranks. *)
Definition otherRowEntries (p x y : nat) (c : list (nat * V)) : Prop :=
  StronglySorted lt (map fst c)
  /\ forall q v, In (q, v) c <-> q < N /\ q <> p /\ rowEntry q x y v.

(** The matrices have the graph for which the overlap was built. *)
Definition onGraph : Prop := forall p n, p < N -> map fst (native p n) = columns (pt p) n.

(** No row has two columns which are the same global one. *)
Definition columnsOnce : Prop :=
  forall p n, p < N -> NoDup (map (name p) (columns (pt p) n)).

Definition allUsable : Prop :=
  forall p n c, p < N -> isRow pt p n -> In c (columns (pt p) n) -> usableColumn p c.

End NativeRows.

(** The sum, over all processes and their rows with the name x, of g. *)
Definition overRows (N : nat) (pt : nat -> partition) (name : nat -> nat -> nat) (x : nat)
    (g : nat -> nat -> Q) : Q :=
  FluxSpec.sumOver (fun q =>
    FluxSpec.sumOver (fun n => if negb (blackListed (pt q) n) && Nat.eqb (name q n) x then g q n else 0%Q)
      (seq 0 (numNative (pt q)))) (seq 0 N).

(** The entry of the global matrix: the sum of the entries of all processes. *)
Definition globalEntry N pt name (native : nat -> nat -> list (nat * Q)) (x y : nat) : Q :=
  overRows N pt name x (fun q n =>
    FluxSpec.sumOver (fun e => if Nat.eqb (name q (fst e)) y then snd e else 0%Q) (native q n)).

(** The product of the global matrix with the vector X, of the columns in [seen] only ... *)
Definition seenProduct N pt name (native : nat -> nat -> list (nat * Q)) (seen : nat -> bool) (X : nat -> Q) (x : nat) : Q :=
  overRows N pt name x (fun q n =>
    FluxSpec.sumOver (fun e => if seen (name q (fst e)) then (snd e * X (name q (fst e)))%Q else 0%Q) (native q n)).

(** ... and of all columns. *)
Definition globalProduct N pt name (native : nat -> nat -> list (nat * Q)) (X : nat -> Q) (x : nat) : Q :=
  overRows N pt name x (fun q n =>
    FluxSpec.sumOver (fun e => (snd e * X (name q (fst e)))%Q) (native q n)).
