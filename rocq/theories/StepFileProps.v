(** C16: the file of predetermined time step sizes. *)
From Verif Require Import StepFileModel StepFileSpec StepFileProofs.
Open Scope char_scope.

(** A file of one or more numbers that ends directly after the last one is read exactly:
    one step size per number, with the usual meaning of its decimal notation. *)
Theorem C16_numbers_read_exactly_partial :
  forall items, file_ok items -> items <> [] ->
    exists qs, Forall2 (fun '(w, n) q => q == meaning n) items qs /\
      read_steps (length items) (Some (file_text items)) = Some (map Num qs).
Proof.
  intros items Hok Hne.
  assert (H : exists qs, Forall2 (fun '(w, n) q => q == meaning n) items qs /\ nums items = map Num qs).
  { destruct Hok as [H _]. clear Hne. induction items as [|[w n] items IH].
    - exists []. split; constructor.
    - inversion H as [|? ? Hwn Hi]; subst. cbn in Hwn. destruct (value_some n (proj2 Hwn)) as [q Hq].
      destruct (IH Hi) as (qs & F & E). exists (q :: qs). split.
      + constructor; auto. apply value_meaning; tauto.
      + cbn. rewrite Hq, <- E. reflexivity. }
  destruct H as (qs & F & E). exists qs. split; auto. rewrite <- E. apply read_exact; auto.
Qed.
Print Assumptions C16_numbers_read_exactly_partial.

(** The value of a number is the usual one: sign * digits * 10^(exponent - decimals). *)
Example C16_values :
  option_map Qred (value (mkNumber (Some "-") ["1"; "2"] (Some ["5"]) (Some ("e", Some "-", ["1"])))) = Some (-5 # 4) /\
  text (mkNumber (Some "-") ["1"; "2"] (Some ["5"]) (Some ("e", Some "-", ["1"]))) = list_ascii_of_string "-12.5e-1".
Proof. vm_compute. auto. Qed.

Example C16_example :
  file_ok [([], mkNumber None ["1"; "0"] None None); (["010"; " "], mkNumber None [] (Some ["5"]) None)] /\
  file_text [([], mkNumber None ["1"; "0"] None None); (["010"; " "], mkNumber None [] (Some ["5"]) None)]
    = list_ascii_of_string "10
 .5".
Proof.
  split; [|reflexivity]. split; repeat constructor; cbn; try discriminate; congruence.
Qed.

(** In general the statement fails: white space (such as the usual newline) at the end of
    the file makes the loop push one more element, read from an uninitialised variable;
    this includes the empty file followed by a newline. *)
Theorem C16_trailing_newline_refuted :
  forall items w, file_ok items -> blank w -> w <> [] ->
    read_steps (length items + 1) (Some (file_text items ++ w)) = Some (nums items ++ [Uninit]).
Proof. exact read_trailing. Qed.
Print Assumptions C16_trailing_newline_refuted.

(** Anything that is not a number after the numbers, or a file that cannot be opened,
    makes the loop run for ever. *)
Theorem C16_junk_does_not_terminate_refuted :
  (forall items w c rest, file_ok items -> blank w -> (items <> [] -> w <> []) ->
    is_space c = false -> is_digit c = false -> is_sign c = false -> Ascii.eqb c "." = false ->
    forall fuel, read_steps fuel (Some (file_text items ++ w ++ c :: rest)) = None) /\
  (forall fuel, read_steps fuel None = None).
Proof. split; [intros; apply read_junk; auto|exact read_missing]. Qed.
Print Assumptions C16_junk_does_not_terminate_refuted.

Example C16_junk_example : forall fuel,
  read_steps fuel (Some (file_text [([], mkNumber None ["1"; "0"] None None)] ++ [" "] ++ "#" :: ["!"])) = None.
Proof.
  intros fuel. apply (proj1 C16_junk_does_not_terminate_refuted); try reflexivity; try discriminate.
  - split; repeat constructor; cbn; try discriminate; congruence.
  - repeat constructor.
Qed.
