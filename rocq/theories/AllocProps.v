(** C56: aligned allocation. *)
From Verif Require Import AllocModel AllocSpec AllocProofs.

(** For up to max_size() objects: what is returned is large enough for them and aligned as
    asked and as the type needs; it is not null if anything was asked for. *)
Theorem C56_allocation_large_enough_partial :
  forall mem Alignment size align n p bytes,
    power_of_two Alignment -> object_type size align -> honest mem -> 0 <= n <= max_size size ->
    allocate mem Alignment size align n = Block p bytes ->
    size * n <= bytes /\ (Alignment | p) /\ (align | p) /\ (0 < n -> p <> 0).
Proof.
  intros mem A size align n p bytes HA T H N E. rewrite allocate_request in E by auto. cbn zeta in E.
  destruct (request_ok A align HA (proj1 T)) as (PR & _ & D1 & D2). assert (HR : 0 < request A align) by (destruct PR as (k & K & ->); apply pow2_pos; auto). destruct T as (_ & S & _ & _).
  assert (W : wrap (size * n) = size * n).
  { unfold wrap. apply Z.mod_small. split; [nia|]. unfold max_size in N.
    assert (size * ((size_max - 1) / size) <= size_max - 1) by (apply Z.mul_div_le; lia). nia. }
  rewrite W in E. destruct (mem (request A align) (size * n)) as [q|] eqn:M.
  - destruct (H _ _ _ HR M) as (H1 & H2).
    destruct ((q =? 0) && (0 <? n)) eqn:C; [discriminate|]. injection E as <- <-. split; [lia|]. split; [eapply Z.divide_trans; eauto|].
    split; [eapply Z.divide_trans; eauto|]. intros P ->. apply Z.ltb_lt in P. rewrite P in C. discriminate.
  - cbn in E. destruct (0 <? n) eqn:C; [discriminate|]. injection E as <- <-. split; [lia|]. split; [apply Z.divide_0_r|]. split; [apply Z.divide_0_r|].
    intros P. apply Z.ltb_lt in P. congruence.
Qed.
Print Assumptions C56_allocation_large_enough_partial.

(** It throws only if there is no memory. *)
Theorem C56_throws_only_without_memory :
  forall mem Alignment size align n, power_of_two Alignment -> object_type size align ->
    (forall a s, exists p, mem a s = Some p /\ p <> 0) -> allocate mem Alignment size align n <> BadAlloc.
Proof.
  intros mem A size align n HA T H E. rewrite allocate_request in E by auto. cbn zeta in E.
  destruct (H (request A align) (wrap (size * n))) as (p & M & P). rewrite M in E. apply Z.eqb_neq in P. rewrite P in E. discriminate.
Qed.
Print Assumptions C56_throws_only_without_memory.

(** Beyond max_size() the byte count overflows: an empty block for 2^61 doubles. *)
Theorem C56_allocation_large_enough_refuted :
  ~ (forall mem Alignment size align n p bytes,
       power_of_two Alignment -> object_type size align -> honest mem -> 0 <= n < size_max ->
       allocate mem Alignment size align n = Block p bytes -> size * n <= bytes).
Proof.
  intros H. specialize (H (fun a _ => Some (1024 * a)) 64 8 8 (2 ^ 61) 65536 0).
  assert (X : 8 * 2 ^ 61 <= 0).
  { apply H.
    - exists 6. split; [lia|reflexivity].
    - split; [exists 3; split; [lia|reflexivity]|]. split; [lia|]. split; [exists 1; reflexivity|reflexivity].
    - intros a s p P E. assert (X : p = 1024 * a) by congruence. rewrite X. split; [exists 1024; reflexivity|lia].
    - split; [lia|reflexivity].
    - reflexivity. }
  vm_compute in X. apply X. reflexivity.
Qed.
Print Assumptions C56_allocation_large_enough_refuted.

(** The alignment check accepts exactly the powers of two. *)
Theorem C56_alignment_check : forall v, is_alignment v = true <-> power_of_two v.
Proof. exact is_alignment_iff. Qed.
Print Assumptions C56_alignment_check.

Example C56_case : object_type 24 8 /\ power_of_two 32 /\ alignment_of 24 8 = 8 /\
  allocate (fun a s => Some (1024 * a)) 32 24 8 10 = Block 32768 240.
Proof.
  split; [|split; [exists 5; split; [lia|reflexivity]|split; reflexivity]].
  split; [exists 3; split; [lia|reflexivity]|]. split; [lia|]. split; [exists 3; reflexivity|reflexivity].
Qed.
