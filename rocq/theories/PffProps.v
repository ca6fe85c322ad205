(** * Properties of the prefetch friendly grid vector *)
From Coq Require Import List Arith Bool Lia.
From Verif Require Import PffModel PffSpec PffProofs.
Import ListNotations.

Lemma total_zero : forall es, total es = 0 <-> forall e, In e es -> el_dofs e = 0.
Proof.
  induction es as [|e es IH]; [split; [intros _ e []|reflexivity]|]. rewrite total_cons. split.
  - intros H x [<-|X]; [lia|]. apply IH; [lia|exact X].
  - intros H. rewrite (H e (or_introl eq_refl)). apply IH. intros x X. apply H. right. exact X.
Qed.

(** The update is defined exactly if the grid has a degree of freedom at all. *)
Theorem C101_defined : forall D dflt dist h o es, valid D h o -> numbered es ->
  (update D dflt dist h o es = None <-> forall e, In e es -> el_dofs e = 0).
Proof.
  intros D dflt dist h o es V N. rewrite <- total_zero. split; [|apply update_empty]. intros H.
  destruct (Nat.eq_dec (total es) 0) as [Z|Z]; [exact Z|]. exfalso.
  destruct (update_spec D dflt dist h o es V N ltac:(lia)) as (h' & b & ptr & cap & U & _). rewrite U in H. discriminate.
Qed.
(** An update, the first one or a later one for another grid, leaves a vector which gives for
    each element and degree of freedom what was distributed for it, from its own data. *)
Theorem C101_values : forall D dflt dist h o es h' o', valid D h o -> numbered es ->
  update D dflt dist h o es = Some (h', o') -> valid D h' o' /\ own o' /\ distributed D dist h' o' es.
Proof.
  intros D dflt dist h o es h' o' V N U. destruct (Nat.eq_dec (total es) 0) as [Z|Z]; [rewrite update_empty in U by exact Z; discriminate|].
  destruct (update_spec D dflt dist h o es V N ltac:(lia)) as (h1 & b & ptr & cap & U' & V' & _ & _ & _ & OW & c & HB & E).
  rewrite U in U'. injection U' as <- ->. split; [exact V'|]. split.
  - intros i b' a P. cbn [o_ptr o_block] in *. specialize (OW i _ P). cbn [fst] in OW. congruence.
  - intros e k I K. destruct (E e I) as (a & P & Va). unfold get. cbn [o_ptr]. rewrite P, HB, (Va k K). eexists. reflexivity.
Qed.
(** In a new vector the function starts from default constructed data. *)
Theorem C101_first_values : forall D dflt dist h es h' o' e k, (forall b, h_next D h <= b -> h_block D h b = None) -> numbered es ->
  update D dflt dist h construct es = Some (h', o') -> In e es -> k < el_dofs e -> get D h' o' (el_idx e) k = Some (dist (el_idx e) k dflt).
Proof.
  intros D dflt dist h es h' o' e k F N U I K.
  assert (V : valid D h construct) by (split; [exact F|reflexivity]).
  destruct (Nat.eq_dec (total es) 0) as [Z|Z]; [rewrite update_empty in U by exact Z; discriminate|].
  destruct (update_spec D dflt dist h construct es V N ltac:(lia)) as (h1 & b & ptr & cap & U' & _ & _ & _ & _ & _ & c & HB & E).
  rewrite U in U'. injection U' as <- ->. destruct (E e I) as (a & P & Va). unfold get. cbn [o_ptr]. rewrite P, HB, (Va k K).
  f_equal. f_equal. assert (R : resized D dflt (contentOf D h construct) (total es) = repeat dflt (total es)).
  { unfold resized, contentOf. cbn [construct o_block length]. now rewrite firstn_nil, Nat.sub_0_r. }
  rewrite R. destruct (Nat.lt_ge_cases (a + k) (total es)) as [L|L].
  - apply (repeat_spec (total es)). apply nth_In. now rewrite repeat_length.
  - apply nth_overflow. now rewrite repeat_length.
Qed.
(** An update does not touch another vector which has its own data and points there. *)
Theorem C101_others : forall D dflt dist h o es h' o' p idx k, valid D h o -> numbered es ->
  update D dflt dist h o es = Some (h', o') -> valid D h p -> own p -> apart o p ->
  get D h' p idx k = get D h p idx k /\ valid D h' p /\ apart o' p.
Proof.
  intros D dflt dist h o es h' o' p idx k V N U VP OP AP.
  destruct (Nat.eq_dec (total es) 0) as [Z|Z]; [rewrite update_empty in U by exact Z; discriminate|].
  destruct (update_spec D dflt dist h o es V N ltac:(lia)) as (h1 & b & ptr & cap & U' & V' & HX & FR & _).
  rewrite U in U'. injection U' as <- ->.
  assert (K : forall x, o_block p = Some x -> h_block D h' x = h_block D h x /\ x <> b).
  { intros x X. assert (NB : x <> b).
    { intros ->. destruct FR as [FR|FR]; [exact (AP b FR X)|]. destruct VP as [_ VP]. rewrite X in VP. destruct VP as [c VP]. congruence. }
    split; [|exact NB]. apply HX; [|exact NB]. intros Q. exact (AP x Q X). }
  split; [|split].
  - unfold get. destruct (nth_error (o_ptr p) idx) as [[[b' a]|]|] eqn:P; try reflexivity. now rewrite (proj1 (K b' (OP _ _ _ P))).
  - destruct VP as [_ VP]. split; [exact (proj1 V')|]. destruct (o_block p) as [x|]; [|exact VP]. now rewrite (proj1 (K x eq_refl)).
  - intros x X Q. cbn [o_block] in X. injection X as ->. exact (proj2 (K x Q) eq_refl).
Qed.
(** A copy gives what the original gives as long as the original stays as it is. *)
Theorem C101_copy_partial : forall D h o h' o' idx k, valid D h o -> own o -> copy D h o = (h', o') ->
  get D h' o' idx k = get D h o idx k /\ get D h' o idx k = get D h o idx k /\ valid D h' o' /\ valid D h' o /\ apart o o'.
Proof.
  intros D h o h' o' idx k [F V] OW C. unfold copy in C. destruct (o_block o) as [b|] eqn:B.
  - injection C as <- <-. destruct V as [c V].
    assert (NB : b < h_next D h) by (destruct (Nat.lt_ge_cases b (h_next D h)) as [X|X]; [exact X|rewrite (F b X) in V; discriminate]).
    assert (G : forall q, o_ptr q = o_ptr o -> get D (mkHeap D (fun x => if Nat.eqb x (h_next D h) then Some (contentOf D h o) else h_block D h x) (S (h_next D h))) q idx k = get D h o idx k).
    { intros q Q. unfold get. rewrite Q. destruct (nth_error (o_ptr o) idx) as [[[b' a]|]|] eqn:P; try reflexivity. cbn [h_block].
      pose proof (OW _ _ _ P) as W. rewrite B in W. injection W as ->. destruct (Nat.eqb_spec b' (h_next D h)) as [->|_]; [lia|reflexivity]. }
    assert (FF : forall x, S (h_next D h) <= x -> (if Nat.eqb x (h_next D h) then Some (contentOf D h o) else h_block D h x) = None).
    { intros x X. destruct (Nat.eqb_spec x (h_next D h)); [lia|]. apply F. lia. }
    split; [now apply G|]. split; [now apply G|]. split; [|split].
    + split; [exact FF|]. cbn [o_block h_block]. rewrite Nat.eqb_refl. eexists. reflexivity.
    + split; [exact FF|]. rewrite B. cbn [h_block]. destruct (Nat.eqb_spec b (h_next D h)); [lia|]. exists c. exact V.
    + intros x X Q. cbn [o_block] in Q. rewrite B in X. injection X as <-. injection Q as <-. lia.
  - injection C as <- <-. split; [reflexivity|]. split; [reflexivity|]. split; [split; [exact F|reflexivity]|]. split; [split; [exact F|rewrite B; exact V]|].
    intros x X. rewrite B in X. discriminate.
Qed.
(** After an update of its own the copy has nothing to do with the original any more. *)
Theorem C101_copy_updated : forall D dflt dist h o h1 o1 es h2 o2, valid D h o -> own o -> copy D h o = (h1, o1) -> numbered es ->
  update D dflt dist h1 o1 es = Some (h2, o2) ->
  distributed D dist (destroy D h2 o) o2 es /\ forall idx k, get D h2 o idx k = get D h o idx k.
Proof.
  intros D dflt dist h o h1 o1 es h2 o2 V OW C N U.
  pose proof (fun idx k => C101_copy_partial D h o h1 o1 idx k V OW C) as CP. destruct (CP 0 0) as (_ & _ & V1 & VO & AP).
  assert (AP' : apart o1 o) by (intros x X Q; exact (AP x Q X)).
  destruct (C101_values D dflt dist h1 o1 es h2 o2 V1 N U) as (V2 & OW2 & DI).
  pose proof (fun idx k => C101_others D dflt dist h1 o1 es h2 o2 o idx k V1 N U VO OW AP') as OT. split.
  - intros e k I K. destruct (DI e k I K) as [was G]. exists was. rewrite <- G. unfold get.
    destruct (nth_error (o_ptr o2) (el_idx e)) as [[[b a]|]|] eqn:P; try reflexivity. pose proof (OW2 _ _ _ P) as B2.
    unfold destroy, freeBlock. destruct (o_block o) as [b'|] eqn:B; [|reflexivity]. cbn [setBlock h_block].
    destruct (Nat.eqb_spec b b') as [->|_]; [|reflexivity]. exfalso. exact (proj2 (proj2 (OT 0 0)) b' B2 B).
  - intros idx k. rewrite (proj1 (OT idx k)). apply CP.
Qed.

(** ** Refuted, and examples *)
Definition heap0 : heap nat := mkHeap nat (fun _ => None) 0.
Definition grid0 : list element := [mkElement 1 2; mkElement 0 1].
Definition dist0 (c : nat) : nat -> nat -> nat -> nat := fun idx k _ => c + 10 * idx + k.

Example numbered0 : numbered grid0.
Proof. split; [repeat constructor; cbn; lia|]. intros e [<-|[<-|[]]]; cbn; lia. Qed.
Example update_example : forall h o, update nat 0 (dist0 100) heap0 construct grid0 = Some (h, o) ->
  (get nat h o 0 0, get nat h o 1 0, get nat h o 1 1) = (Some 100, Some 110, Some 111).
Proof. intros h o H. vm_compute in H. injection H as <- <-. reflexivity. Qed.

(** A copy is not a vector of its own: it follows updates of the original, and when the
    original is gone its pointers dangle. *)
Theorem C101_copy_refuted : exists h o h1 o1, update nat 0 (dist0 100) heap0 construct grid0 = Some (h, o) /\ copy nat h o = (h1, o1) /\
  get nat h1 o1 1 1 = Some 111 /\ get nat (destroy nat h1 o) o1 1 1 = None /\
  exists h2 o2, update nat 0 (dist0 200) h1 o grid0 = Some (h2, o2) /\ get nat h2 o1 1 1 = Some 211.
Proof.
  do 4 eexists. split; [vm_compute; reflexivity|]. split; [vm_compute; reflexivity|]. split; [vm_compute; reflexivity|].
  split; [vm_compute; reflexivity|]. do 2 eexists. split; vm_compute; reflexivity.
Qed.
(** A degree of freedom the element does not have is not noticed: it is that of another element. *)
Theorem C101_range_refuted : exists h o, update nat 0 (dist0 100) heap0 construct grid0 = Some (h, o) /\
  el_dofs (mkElement 1 2) = 2 /\ get nat h o 1 2 = Some 100 /\ get nat h o 0 0 = Some 100 /\ get nat h o 0 1 = None.
Proof. do 2 eexists. split; [vm_compute; reflexivity|]. repeat split; vm_compute; reflexivity. Qed.

Print Assumptions C101_defined.
Print Assumptions C101_values.
Print Assumptions C101_first_values.
Print Assumptions C101_others.
Print Assumptions C101_copy_partial.
Print Assumptions C101_copy_updated.
Print Assumptions C101_copy_refuted.
Print Assumptions C101_range_refuted.
