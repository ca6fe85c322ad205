(** C11: parameter registration and look-up. *)
From Verif Require Import ParamModel ParamSpec ParamProofs ParRegModel ParRegSpec ParRegProofs.

(** The value read is the one of the documented precedence, for every history in which files do
    not override (start() always reads them that way) and look-ups are checked. *)
Theorem C11_precedence_partial : forall parses h s d v s',
  Forall file_keeps h -> Forall checked_gets h ->
  run_ops parses h fresh_state = Ok s -> get parses true d s = Ok (v, s') ->
  precedence (d_name d) h = Some v.
Proof. exact get_precedence. Qed.

(** A registered parameter can be read after the registration has ended (if its text converts). *)
Theorem C11_registered_can_be_read_partial : forall parses h s d,
  Forall file_keeps h -> Forall checked_gets h ->
  run_ops parses h fresh_state = Ok s -> is_open s = false ->
  first_value (d_name d) (registrations h) <> None ->
  (forall text, ptree s (d_name d) = Some text -> parses (d_type d) text = true) ->
  exists v s', get parses true d s = Ok (v, s').
Proof. exact get_defined. Qed.

(** Reading a parameter that was never registered is an error. *)
Theorem C11_unregistered_is_error_partial : forall parses h s d,
  Forall file_keeps h -> Forall checked_gets h -> run_ops parses h fresh_state = Ok s ->
  first_value (d_name d) (registrations h) = None ->
  get parses true d s = Thrown /\ is_set true d s = Thrown.
Proof. exact unregistered_get. Qed.

(** Registering after the end of the registration is an error, whatever happened before and in between. *)
Theorem C11_no_registration_after_end : forall parses h1 h2 d usage,
  run_ops parses (h1 ++ OEnd :: h2 ++ [ORegister d usage]) fresh_state = Thrown.
Proof. exact no_register_after_end. Qed.

(** Ending the registration checks that all settings made so far convert. *)
Theorem C11_end_checks_syntax : forall parses s s' d, end_registration parses s = Ok s' -> In d (finals s) ->
  forall text, ptree s (d_name d) = Some text -> parses (d_type d) text = true.
Proof. exact end_checks. Qed.

(** One unchecked look-up makes an unregistered parameter pass for a registered one, with an
    empty default instead of the compile-time one. *)
Theorem C11_unchecked_read_refuted :
  exists parses h d s v s', run_ops parses h fresh_state = Ok s /\
    first_value (d_name d) (registrations h) = None /\
    get parses true d s = Ok (v, s') /\ v <> d_value d.
Proof.
  exists (fun _ _ => true),
    [OEnd; OGet false {| d_name := lit "OutputDir"; d_type := lit "string"; d_value := lit "." |}],
    {| d_name := lit "OutputDir"; d_type := lit "string"; d_value := lit "." |}.
  do 3 eexists. split; [vm_compute; reflexivity|]. split; [reflexivity|].
  split; [vm_compute; reflexivity|discriminate].
Qed.

Definition ex_d : pdesc := {| d_name := lit "EndTime"; d_type := lit "double"; d_value := lit "-1e+35" |}.
Example C11_example :
  let h := [ORegister ex_d (lit "u"); OSetDefault ex_d (lit "5"); OEnd;
            OCmdLine [(lit "EndTime", lit "7")]; OFile false [(lit "EndTime", lit "9"); (lit "X", lit "1")];
            OGet true ex_d] in
  Forall file_keeps h /\ Forall checked_gets h /\
  exists s s', run_ops (fun _ _ => true) h fresh_state = Ok s /\ get (fun _ _ => true) true ex_d s = Ok (lit "7", s') /\
    unused s [lit "EndTime"; lit "X"] = [lit "X"].
Proof.
  cbv zeta. split; [repeat constructor|]. split; [repeat constructor|].
  do 2 eexists. split; [vm_compute; reflexivity|]. vm_compute. auto.
Qed.
Example C11_example_default :
  let h := [ORegister ex_d (lit "u"); OSetDefault ex_d (lit "5"); OEnd] in
  exists s s', run_ops (fun _ _ => true) h fresh_state = Ok s /\ get (fun _ _ => true) true ex_d s = Ok (lit "5", s').
Proof. do 2 eexists. split; [vm_compute; reflexivity|]. vm_compute. reflexivity. Qed.

Print Assumptions C11_precedence_partial.
Print Assumptions C11_registered_can_be_read_partial.
Print Assumptions C11_unregistered_is_error_partial.
Print Assumptions C11_no_registration_after_end.
Print Assumptions C11_end_checks_syntax.
Print Assumptions C11_unchecked_read_refuted.
