(** C07 and C44: the threaded element loops. *)
From Verif Require Import ParLoopModel ParLoopSpec ParLoopProofs.
From Coq Require Import ZArith.

(** C07. In every interleaving of any number of threads, with any failures, the
    entities handed out are exactly a prefix of the grid view, each one once. *)
Theorem C07_each_entity_handed_out_once :
  forall (elems : list (elem Z)) nonlocal prefetching r0 j0 T ls s,
    prun Z Z.add elems nonlocal prefetching ls (pinit Z T r0 j0) = Some s ->
    NoDup (handed s) /\ (forall p, In p (handed s) -> p < length elems) /\
    NoDup (finishedl s) /\ (forall p, In p (finishedl s) -> p < length elems).
Proof.
  intros elems nonlocal prefetching r0 j0 T ls s H.
  destruct (handed_once Z Z.add 0%Z Z.add_comm Z.add_assoc Z.add_0_r _ _ _ _ _ _ _ _ H) as (m & E & Hm).
  destruct (processed_sub Z Z.add 0%Z Z.add_comm Z.add_assoc Z.add_0_r _ _ _ _ _ _ _ _ H) as [F1 F2].
  rewrite E. split; [apply NoDup_rev_seq|]. split.
  - intros p Hp. apply in_rev in Hp. apply in_seq in Hp. unfold nelem in Hm. lia.
  - split; auto. intros p Hp. apply F2 in Hp. apply in_seq in Hp. unfold nelem in Hp. lia.
Qed.

(** If nothing throws, every entity has been processed exactly once when all threads
    have left the loop. *)
Theorem C07_every_entity_processed :
  forall (elems : list (elem Z)) nonlocal prefetching r0 j0 T ls s, T <> 0 ->
    prun Z Z.add elems nonlocal prefetching ls (pinit Z T r0 j0) = Some s ->
    all_done s -> threw s = false ->
    Permutation (finishedl s) (seq 0 (length elems)).
Proof.
  intros elems nonlocal prefetching r0 j0 T ls s HT H Hd Ht.
  exact (all_processed Z Z.add 0%Z Z.add_comm Z.add_assoc Z.add_0_r _ _ _ _ _ _ _ _ HT H Hd Ht).
Qed.

(** After one thread has stopped the loop (setFinished), no entity is handed out to anybody. *)
Theorem C07_stop_is_final :
  forall (elems : list (elem Z)) nonlocal prefetching r0 j0 T ls1 ls2 s1 s2,
    prun Z Z.add elems nonlocal prefetching ls1 (pinit Z T r0 j0) = Some s1 -> threw s1 = true ->
    prun Z Z.add elems nonlocal prefetching ls2 s1 = Some s2 ->
    handed s2 = handed s1 /\ threw s2 = true.
Proof.
  intros elems nonlocal prefetching r0 j0 T ls1 ls2 s1 s2 H1 Ht.
  pose proof (PInv_run Z Z.add 0%Z Z.add_comm Z.add_assoc Z.add_0_r elems nonlocal prefetching r0 j0
                ls1 _ _ (PInv_init Z Z.add 0%Z Z.add_0_r elems nonlocal r0 j0 T) H1) as HI.
  clear H1. revert s1 HI Ht. induction ls2 as [|[i b] ls IH]; cbn; intros s1 HI Ht H.
  - inversion H; subst; auto.
  - destruct (tstep Z Z.add elems nonlocal prefetching i b s1) as [s|] eqn:E; [|discriminate].
    destruct (stop_stays Z Z.add 0%Z _ _ _ _ _ _ _ _ _ HI Ht E) as [E1 E2].
    pose proof (PInv_step Z Z.add 0%Z Z.add_comm Z.add_assoc Z.add_0_r _ _ _ _ _ _ _ _ _ HI E) as HI'.
    destruct (IH _ HI' E2 H) as [E3 E4]. split; congruence.
Qed.

(** No schedule is infinite, and as long as a thread is still in the loop some thread can move. *)
Theorem C07_loop_terminates :
  forall (elems : list (elem Z)) nonlocal prefetching r0 j0 T ls s,
    prun Z Z.add elems nonlocal prefetching ls (pinit Z T r0 j0) = Some s ->
    length ls <= 4 * length elems + 2 * T /\
    (~ all_done s -> exists i s', tstep Z Z.add elems nonlocal prefetching i false s = Some s').
Proof.
  intros elems nonlocal prefetching r0 j0 T ls s H. split.
  - exact (par_bounded _ _ _ _ _ _ _ _ _ _ H).
  - apply par_progress.
Qed.

(** C44. For every commutative monoid of values, every schedule, any number of
    threads and both forms of the loop: the assembled residual and Jacobian are the
    plain sums over the participating elements. *)
Theorem C44_assembly_independent_of_schedule :
  forall (R : Type) (add : R -> R -> R) (zero : R),
    (forall a b, add a b = add b a) ->
    (forall a b c, add a (add b c) = add (add a b) c) ->
    (forall a, add a zero = a) ->
    forall (elems : list (elem R)) nonlocal prefetching r0 j0 T ls s, T <> 0 ->
    prun R add elems nonlocal prefetching ls (pinit R T r0 j0) = Some s ->
    all_done s -> threw s = false ->
    (forall i, res s i = add (r0 i) (rsum R add zero (row_values R nonlocal elems i))) /\
    (forall i j, jac s i j = add (j0 i j) (rsum R add zero (block_values R nonlocal elems i j))).
Proof. exact assembled. Qed.

(** In particular two runs with different thread counts and schedules agree. *)
Theorem C44_thread_count_does_not_matter :
  forall (R : Type) (add : R -> R -> R) (zero : R),
    (forall a b, add a b = add b a) ->
    (forall a b c, add a (add b c) = add (add a b) c) ->
    (forall a, add a zero = a) ->
    forall (elems : list (elem R)) nonlocal pf1 pf2 r0 j0 T1 T2 ls1 ls2 s1 s2, T1 <> 0 -> T2 <> 0 ->
    prun R add elems nonlocal pf1 ls1 (pinit R T1 r0 j0) = Some s1 ->
    prun R add elems nonlocal pf2 ls2 (pinit R T2 r0 j0) = Some s2 ->
    all_done s1 -> all_done s2 -> threw s1 = false -> threw s2 = false ->
    (forall i, res s1 i = res s2 i) /\ (forall i j, jac s1 i j = jac s2 i j).
Proof.
  intros R add zero H1 H2 H3 elems nonlocal pf1 pf2 r0 j0 T1 T2 ls1 ls2 s1 s2 HT1 HT2 R1 R2 D1 D2 E1 E2.
  destruct (assembled R add zero H1 H2 H3 _ _ _ _ _ _ _ _ HT1 R1 D1 E1) as [A1 B1].
  destruct (assembled R add zero H1 H2 H3 _ _ _ _ _ _ _ _ HT2 R2 D2 E2) as [A2 B2].
  split; intros; rewrite ?A1, ?A2, ?B1, ?B2; reflexivity.
Qed.

(** Non-vacuity: two threads, three elements (one of them not interior), both loop forms. *)
Definition ex_elems : list (elem Z) :=
  [ {| interior := true; rentries := [(0, 5%Z); (1, 7%Z)]; jentries := [((0, 1), 3%Z)] |};
    {| interior := false; rentries := [(1, 100%Z)]; jentries := [] |};
    {| interior := true; rentries := [(1, 11%Z)]; jentries := [((0, 1), 4%Z)] |} ].
Fixpoint drive (fuel : nat) (i : nat) (pf : bool) (s : pst Z) : pst Z :=
  match fuel with
  | 0 => s
  | S f => match tstep Z Z.add ex_elems false pf (i mod 2) false s with
           | Some s' => drive f (S i) pf s'
           | None => drive f (S i) pf s
           end
  end.
Example C44_example : forall pf,
  let s := drive 60 0 pf (pinit Z 2 (fun _ => 0%Z) (fun _ _ => 1%Z)) in
  threads s = [TDone; TDone] /\ threw s = false /\ res s 0 = 5%Z /\ res s 1 = 18%Z /\ jac s 0 1 = 8%Z.
Proof. intros [|]; vm_compute; auto. Qed.

(** A run in which the second element throws: the loop stops early. *)
Example C07_throw_example :
  exists s, prun Z Z.add ex_elems true true
      [(0,false); (0,false); (1,false); (0,true); (0,false); (1,false); (1,false); (1,false); (1,false)]
      (pinit Z 2 (fun _ => 0%Z) (fun _ _ => 0%Z)) = Some s /\
    threw s = true /\ all_done s /\ handed s = [2; 1; 0] /\ finishedl s = [2].
Proof.
  eexists. vm_compute. repeat split. intros t [<-|[<-|[]]]; reflexivity.
Qed.

Print Assumptions C07_each_entity_handed_out_once.
Print Assumptions C07_every_entity_processed.
Print Assumptions C07_stop_is_final.
Print Assumptions C07_loop_terminates.
Print Assumptions C44_assembly_independent_of_schedule.
Print Assumptions C44_thread_count_does_not_matter.
