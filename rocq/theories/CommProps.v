(** * C33: exchange of values over the grid *)

From Coq Require Import Arith List Bool Lia QArith.
From Verif Require Import GlobalIndexModel ForeignModel PipelineModel CommModel CommSpec CommProofs.
From Verif Require FluxSpec.
Import ListNotations.
Local Open Scope nat_scope.

(** The sum over the interior and border copies, as the residuals are added up
    (fvbasediscretization.hh:920-925): for every grid, every order of the entities in the
    messages and of the messages, every interior or border copy holds the sum of the values
    of all of them; nothing else changes. *)
Theorem C33_sum_over_all_copies :
  forall N g, indexed N g -> forall plan order, overInterface N g interiorBorder interiorBorder plan order ->
  forall (c : nat -> list Q) q, q < N -> length (c q) = numEnt (g q) ->
  exists y, communicate (handleSum Q 0%Q Qplus) plan order c q = Some y /\ length y = numEnt (g q)
    /\ forall j, j < numEnt (g q) ->
       (nth j y 0 == if interiorBorder (kind (g q) j) then sumOfCopies N g c q j else nth j (c q) 0)%Q.
Proof.
  intros N g IX plan order OV c q Hq L.
  destruct (sum_result N g IX interiorBorder plan order OV c q Hq L) as (y & E & Ly & V).
  exists y. split; [exact E|]. split; [exact Ly|]. intros j Hj. rewrite (V j Hj).
  destruct (interiorBorder (kind (g q) j)); reflexivity.
Qed.

(** The same with all copies as receivers, as the volumes are added up
    (fvbasediscretization.hh:514-520): the other copies get the sum added to their own value. *)
Theorem C33_sum_sent_to_all_copies :
  forall N g, indexed N g -> forall plan order, overInterface N g interiorBorder anyEntity plan order ->
  forall (c : nat -> list Q) q, q < N -> length (c q) = numEnt (g q) ->
  exists y, communicate (handleSum Q 0%Q Qplus) plan order c q = Some y /\ length y = numEnt (g q)
    /\ forall j, j < numEnt (g q) ->
       (nth j y 0 == if interiorBorder (kind (g q) j) then sumOfCopies N g c q j
                     else nth j (c q) 0 + sumOfCopies N g c q j)%Q.
Proof.
  intros N g IX plan order OV c q Hq L.
  destruct (sum_result N g IX anyEntity plan order OV c q Hq L) as (y & E & Ly & V).
  exists y. split; [exact E|]. split; [exact Ly|]. intros j Hj. rewrite (V j Hj). reflexivity.
Qed.

(** The maximum: the value of one of the interior or border copies, and at least as large
    as those of all of them. *)
Theorem C33_maximum_over_all_copies :
  forall N g, indexed N g -> forall plan order, overInterface N g interiorBorder interiorBorder plan order ->
  forall (c : nat -> list Q) q, q < N -> length (c q) = numEnt (g q) ->
  exists y, communicate (handleMax Q 0%Q Qless) plan order c q = Some y /\ length y = numEnt (g q)
    /\ forall j, j < numEnt (g q) ->
       (interiorBorder (kind (g q) j) = true ->
          (exists p i, borderCopy N g q j p i /\ nth j y 0%Q = nth i (c p) 0%Q)
          /\ forall p i, borderCopy N g q j p i -> (nth i (c p) 0 <= nth j y 0)%Q)
       /\ (interiorBorder (kind (g q) j) = false -> nth j y 0%Q = nth j (c q) 0%Q).
Proof.
  intros N g IX plan order OV c q Hq L.
  apply (best_result N g IX plan order OV Q 0%Q Qle (fun a b => if Qless a b then b else a)
    Qle_refl Qle_trans max_op c q Hq L).
Qed.

Theorem C33_minimum_over_all_copies :
  forall N g, indexed N g -> forall plan order, overInterface N g interiorBorder interiorBorder plan order ->
  forall (c : nat -> list Q) q, q < N -> length (c q) = numEnt (g q) ->
  exists y, communicate (handleMin Q 0%Q Qless) plan order c q = Some y /\ length y = numEnt (g q)
    /\ forall j, j < numEnt (g q) ->
       (interiorBorder (kind (g q) j) = true ->
          (exists p i, borderCopy N g q j p i /\ nth j y 0%Q = nth i (c p) 0%Q)
          /\ forall p i, borderCopy N g q j p i -> (nth j y 0 <= nth i (c p) 0)%Q)
       /\ (interiorBorder (kind (g q) j) = false -> nth j y 0%Q = nth j (c q) 0%Q).
Proof.
  intros N g IX plan order OV c q Hq L.
  apply (best_result N g IX plan order OV Q 0%Q (fun a b => b <= a)%Q (fun a b => if Qless b a then b else a)
    Qle_refl (fun a b c H K => Qle_trans _ _ _ K H) min_op c q Hq L).
Qed.

(** Ghost synchronisation (ecfvdiscretization.hh:189-202) of values of any kind: the copies
    of an entity which is interior or border on process m only hold the value of m
    afterwards, and m keeps its own. *)
Theorem C33_ghosts_hold_the_value_of_the_owner :
  forall N g, indexed N g -> forall plan order, overInterface N g interiorBorder anyEntity plan order ->
  forall A (zero : A) (c : nat -> list A) q, q < N -> length (c q) = numEnt (g q) ->
  exists y, communicate (handleGhost A zero) plan order c q = Some y /\ length y = numEnt (g q)
    /\ forall j m i, j < numEnt (g q) -> borderCopy N g q j m i ->
       (forall p k, borderCopy N g q j p k -> p = m) -> nth j y zero = nth i (c m) zero.
Proof.
  intros N g IX plan order OV A zero c q Hq L.
  destruct (ghost_result N g plan order OV A zero c q Hq L) as (y & E & Ly & V).
  exists y. split; [exact E|]. split; [exact Ly|]. intros j m i Hj BC U.
  assert (one : forall k, borderCopy N g q j m k -> k = i).
  { intros k ((Hm & _ & Hk & _ & Ek) & _). destruct BC as ((_ & _ & Hi & _ & Ei) & _).
    apply (IX m); auto. congruence. }
  destruct (V j Hj) as [[-> H]|(p & k & Hn & BC' & ->)].
  - assert (m = q) by (apply (H m i BC)). subst m. f_equal. apply one.
    destruct BC as ((_ & _ & Hi & _ & Ei) & K). assert (Eji : j = i) by (apply (IX q); auto). rewrite Eji. unfold borderCopy, sameEntity. auto 10.
  - assert (p = m) by (apply (U p k BC')). subst p. rewrite (one k BC'). reflexivity.
Qed.

(* ----- examples ----- *)

(** Two processes with three vertices each: the vertices 1 and 2 are common; 1 is a border
    vertex, and 2 is in the interior of process 1 and a ghost of process 0. *)
Definition twoParts (p : nat) : part :=
  match p with
  | 0 => mkPart 3 (fun i => i) (fun i => match i with 0 => InteriorEntity | 1 => BorderEntity | _ => GhostEntity end) (fun _ => [])
  | _ => mkPart 3 S (fun i => match i with 0 => BorderEntity | _ => InteriorEntity end) (fun _ => [])
  end.

Lemma two_indexed : indexed 2 twoParts.
Proof. intros p i j Hp. destruct p as [|p]; cbn [twoParts numEnt ident]; lia. Qed.

Definition others (q : nat) : list nat := [1 - q].

Lemma two_border : overInterface 2 twoParts interiorBorder interiorBorder
  (fun p _ => match p with 0 => [(1, 0)] | _ => [(0, 1)] end) others.
Proof.
  split.
  - intros p q Hp Hq Hn. split; [destruct p; repeat constructor; intros []|].
    intros i j. unfold sameEntity. destruct p as [|[|p]], q as [|[|q]]; try lia; cbn [twoParts numEnt ident In]; split.
    + intros [E|[]]. injection E as <- <-. cbn. repeat split; lia.
    + intros ((_ & _ & Hi & Hj & E) & K1 & K2). destruct i as [|[|[|i]]]; cbn in *; try lia; try congruence.
      left. f_equal. lia.
    + intros [E|[]]. injection E as <- <-. cbn. repeat split; lia.
    + intros ((_ & _ & Hi & Hj & E) & K1 & K2). destruct j as [|[|[|j]]]; cbn in *; try lia; try congruence.
      left. f_equal. lia.
  - intros q Hq. split; [repeat constructor; intros []|]. intros p. unfold others. cbn [In].
    destruct q as [|[|q]]; lia.
Qed.

Lemma two_all : overInterface 2 twoParts interiorBorder anyEntity
  (fun p _ => match p with 0 => [(1, 0)] | _ => [(0, 1); (1, 2)] end) others.
Proof.
  split.
  - intros p q Hp Hq Hn. split; [destruct p; repeat constructor; cbn [In]; intuition congruence|].
    intros i j. unfold sameEntity. destruct p as [|[|p]], q as [|[|q]]; try lia; cbn [twoParts numEnt ident In]; split.
    + intros [E|[]]. injection E as <- <-. cbn. repeat split; lia.
    + intros ((_ & _ & Hi & Hj & E) & K1 & K2). destruct i as [|[|[|i]]]; cbn in *; try lia; try congruence.
      left. f_equal. lia.
    + intros [E|[E|[]]]; injection E as <- <-; cbn; repeat split; lia.
    + intros ((_ & _ & Hi & Hj & E) & K1 & K2). destruct j as [|[|[|j]]]; cbn in *; try lia.
      * left. f_equal; lia.
      * right. left. f_equal; lia.
  - intros q Hq. split; [repeat constructor; intros []|]. intros p. unfold others. cbn [In].
    destruct q as [|[|q]]; lia.
Qed.

Example two_sums :
  map (communicate (handleSum Q 0%Q Qplus) (fun p _ => match p with 0 => [(1, 0)] | _ => [(0, 1)] end) others
         (fun p => match p with 0 => [1; 2; 3]%Q | _ => [10; 20; 30]%Q end)) [0; 1]
  = [Some [1; 12; 3]%Q; Some [12; 20; 30]%Q].
Proof. reflexivity. Qed.

(** The synchronisation of ghosts is not meant for entities which are border entities of
    several processes: here the two copies of vertex 1 swap their values. *)
Example border_copies_swap :
  map (communicate (handleGhost Q 0%Q) (fun p _ => match p with 0 => [(1, 0)] | _ => [(0, 1); (1, 2)] end) others
         (fun p => match p with 0 => [1; 2; 3]%Q | _ => [10; 20; 30]%Q end)) [0; 1]
  = [Some [1; 10; 20]%Q; Some [2; 20; 30]%Q].
Proof. reflexivity. Qed.

Print Assumptions C33_sum_over_all_copies.
Print Assumptions C33_sum_sent_to_all_copies.
Print Assumptions C33_maximum_over_all_copies.
Print Assumptions C33_minimum_over_all_copies.
Print Assumptions C33_ghosts_hold_the_value_of_the_owner.
