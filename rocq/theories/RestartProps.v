(** C27, C28: restart files. *)
From Coq Require Import Lqa.
From Verif Require Import RestartModel RestartSpec FloatTextProofs RestartProofs.
Open Scope Q_scope.

(** A helper of the theorems below: the state fits the model, and its numbers are numbers. *)
Definition writable (k : kind) (n : nat) (s : state) : Prop :=
  proper_sim (s_sim s) /\ (forall b p, v_file (s_vtk s) = Some (b, p) -> b <> []) /\
  Forall (shape k n) (s_sol s) /\ Forall proper_dof (s_sol s).

(** C27.  The file restores the simulator's data, the writer's data and every variable of
    every degree of freedom, whatever was there before: in all models except the black-oil
    model with more than one extension variable. *)
Theorem C27_restart_round_trip_partial :
  forall k n g codim withVtk s old,
    match k with BlackOil extra => (length extra <= 1)%nat | _ => True end -> (1 <= n)%nat ->
    writable k n s -> length (s_sol old) = length (s_sol s) -> Forall (shape k n) (s_sol old) ->
    exists s', read_all k g codim withVtk old (Some (write_all k g codim withVtk s)) = Some s' /\
      same_sim (s_sim s') (s_sim s) /\ Forall2 same_dof (s_sol s') (s_sol s) /\
      (withVtk = true -> v_num (s_vtk s') = v_num (s_vtk s) /\
                         (g_rank g = 0%Z -> v_file (s_vtk s') = v_file (s_vtk s))).
Proof.
  intros k n g codim w s old Hr Hn (H1 & H2 & H3 & H4) Hl Ho.
  destruct (restart_round_trip k n g codim w s old Hr Hn H1 H2 H3 H4 Hl Ho) as (s' & E & A & B & C).
  exists s'. split; auto. split; auto. split; auto. intros ->. rewrite C. unfold vtk_read. cbn. split; auto.
  intros ->. reflexivity.
Qed.
Print Assumptions C27_restart_round_trip_partial.

(** An example with a number that has no short decimal representation. *)
Definition tenth : Q := 3602879701896397 # 36028797018963968.
Definition demo : state :=
  mkState (mkSimdata 2 0 (1 # 4) 0 (-3 # 8) 7)
    (mkVtk 3 (Some (str "<xml>", 5%Z))) [mkDof [tenth; 101325] [3%Z]; mkDof [-1; 0] [1%Z]].
Lemma is_double_of m e q : (Z.abs m < 2 ^ 53)%Z -> (-1074 <= e)%Z -> q == inject_Z m * Qpower 2 e -> is_double q.
Proof. intros. exists m, e. auto. Qed.
Lemma demo_doubles : is_double tenth /\ is_double 101325 /\ is_double (-1) /\ is_double 0 /\ is_double (1 # 4) /\ is_double (-3 # 8).
Proof.
  repeat split.
  - apply (is_double_of 3602879701896397 (-55)); vm_compute; [reflexivity|discriminate|reflexivity].
  - apply (is_double_of 101325 0); vm_compute; [reflexivity|discriminate|reflexivity].
  - apply (is_double_of (-1) 0); vm_compute; [reflexivity|discriminate|reflexivity].
  - apply (is_double_of 0 0); vm_compute; [reflexivity|discriminate|reflexivity].
  - apply (is_double_of 1 (-2)); vm_compute; [reflexivity|discriminate|reflexivity].
  - apply (is_double_of (-3) (-3)); vm_compute; [reflexivity|discriminate|reflexivity].
Qed.
Example C27_writable : writable Pvs 2 demo.
Proof.
  destruct demo_doubles as (A & B & C & D & E & F). split; [|split; [|split]].
  - repeat split; auto.
  - cbn. intros b p [= <- <-]. discriminate.
  - repeat constructor.
  - repeat constructor; auto.
Qed.
Example C27_text : string_of_list_ascii (write_entities Pvs 0 (s_sol demo)) =
"Entities: Codim 0
0.10000000000000000555 101325 3 
-1 0 1 

"%string.
Proof. vm_compute. reflexivity. Qed.

(** In the black-oil model with two extension variables (say solvent and temperature) the
    two are written without a space between them: they are not restored. *)
Theorem C27_restart_round_trip_refuted :
  ~ (forall k n g codim withVtk s old, (1 <= n)%nat -> writable k n s ->
       length (s_sol old) = length (s_sol s) -> Forall (shape k n) (s_sol old) ->
       exists s', read_all k g codim withVtk old (Some (write_all k g codim withVtk s)) = Some s' /\
         Forall2 same_dof (s_sol s') (s_sol s)).
Proof.
  intros H.
  specialize (H (BlackOil [1%nat; 2%nat]) 3%nat (mkGrid 1 0 1 4 4) 0%Z false
               (mkState (mkSimdata 0 0 0 0 0 0) (mkVtk 0 None) [mkDof [101325; 1 # 4; 300] [0; 0; 0; 0]%Z])
               (mkState (mkSimdata 0 0 0 0 0 0) (mkVtk 0 None) [mkDof [0; 0; 0] [0; 0; 0; 0]%Z])).
  destruct H as (s' & E & F); [lia| |reflexivity|repeat constructor|].
  - destruct demo_doubles as (A & B & C & D & E & _). split; [|split; [|split]].
    + repeat split; auto.
    + cbn. discriminate.
    + repeat constructor.
    + repeat constructor; auto. apply (is_double_of 300 0); vm_compute; [reflexivity|discriminate|reflexivity].
  - vm_compute in E. inversion E as [Es]. subst s'. inversion F as [|? ? ? ? S _]; subst. destruct S as [S _].
    inversion S as [|? ? ? ? _ S1]; subst. inversion S1 as [|? ? ? ? X _]; subst.
    vm_compute in X. discriminate.
Qed.
Print Assumptions C27_restart_round_trip_refuted.

(** A file written for another grid, another process or another number of processes is
    rejected. *)
Theorem C27_other_grid_rejected :
  forall k g g' codim codim' withVtk withVtk' s old, g <> g' ->
    read_all k g' codim' withVtk' old (Some (write_all k g codim withVtk s)) = None.
Proof. intros. apply other_grid. auto. Qed.
Print Assumptions C27_other_grid_rejected.

(** A file that was cut off anywhere before the line of the last degree of freedom is
    rejected. *)
Theorem C27_truncation_rejected_partial :
  forall k n g codim withVtk s ds d old cut,
    match k with BlackOil extra => (length extra <= 1)%nat | _ => True end -> (1 <= n)%nat ->
    writable k n s -> s_sol s = ds ++ [d] ->
    length (s_sol old) = length (s_sol s) -> Forall (shape k n) (s_sol old) ->
    let whole := write_all k g codim withVtk s in
    (cut + length (write_entity k d) + 2 < length whole)%nat ->
    read_all k g codim withVtk old (Some (firstn cut whole)) = None.
Proof. intros k n g codim w s ds d old cut Hr Hn (H1 & H2 & H3 & H4) Hs Hl Ho whole Hc. apply (truncated k n g codim w s ds d old cut); auto. Qed.
Print Assumptions C27_truncation_rejected_partial.

(** A file cut off inside the last line is not: a value that has lost its last digits, or
    that is missing altogether, is accepted. *)
Theorem C27_truncation_rejected_refuted :
  ~ (forall k n g codim withVtk s old cut, (1 <= n)%nat -> writable k n s ->
       length (s_sol old) = length (s_sol s) -> Forall (shape k n) (s_sol old) ->
       forall s', read_all k g codim withVtk old (Some (firstn cut (write_all k g codim withVtk s))) = Some s' ->
       Forall2 same_dof (s_sol s') (s_sol s)).
Proof.
  intros H.
  set (s := mkState (mkSimdata 0 0 0 0 0 0) (mkVtk 0 None) [mkDof [101325; 300] []]).
  set (old := mkState (mkSimdata 0 0 0 0 0 0) (mkVtk 0 None) [mkDof [1; 1] []]).
  specialize (H Base 2%nat (mkGrid 1 0 1 4 4) 0%Z false s old (length (write_all Base (mkGrid 1 0 1 4 4) 0 false s) - 4)%nat ltac:(lia)).
  destruct demo_doubles as (A & B & C & D & E & _).
  assert (W : writable Base 2 s).
  { split; [|split; [|split]].
    - repeat split; auto.
    - cbn. discriminate.
    - repeat constructor.
    - repeat constructor; auto. apply (is_double_of 300 0); vm_compute; [reflexivity|discriminate|reflexivity]. }
  specialize (H W eq_refl ltac:(repeat constructor)).
  eassert (R : read_all Base (mkGrid 1 0 1 4 4) 0 false old
    (Some (firstn (length (write_all Base (mkGrid 1 0 1 4 4) 0 false s) - 4) (write_all Base (mkGrid 1 0 1 4 4) 0 false s))) = Some _).
  { vm_compute. reflexivity. }
  specialize (H _ R). inversion H as [|? ? ? ? S _]; subst. destruct S as [S _].
  inversion S as [|? ? ? ? _ S1]; subst. inversion S1 as [|? ? ? ? X _]; subst. vm_compute in X. discriminate.
Qed.
Print Assumptions C27_truncation_rejected_refuted.

(** C28.  Files of different processes, and files whose times differ by more than about
    one part in a hundred thousand, have different names. *)
Theorem C28_file_names_differ_partial :
  forall dir sim t t' rank rank',
    rank <> rank' \/ (Qabs t + Qabs t') / 2 * (1 # 100000) < Qabs (t - t') ->
    restart_name dir sim t rank <> restart_name dir sim t' rank'.
Proof.
  intros dir sim t t' r r' H. apply names_differ. destruct H as [H|H]; [right; auto|left].
  assert (E : (Qabs t + Qabs t') / 2 * (1 # 100000) == (Qabs t + Qabs t') * (1 # 200000)) by field. rewrite E in H. lra.
Qed.
Print Assumptions C28_file_names_differ_partial.

(** The name has only six significant digits of the time: later files overwrite earlier
    ones. *)
Theorem C28_file_names_differ_refuted :
  ~ (forall dir sim t t' rank, ~ t == t' -> restart_name dir sim t rank <> restart_name dir sim t' rank).
Proof.
  intros H. apply (H (str ".") (str "lens") 1000000 1000001 0%Z); [vm_compute; discriminate|vm_compute; reflexivity].
Qed.
Print Assumptions C28_file_names_differ_refuted.
Example C28_names :
  string_of_list_ascii (restart_name (str "out") (str "lens") 86400 3) = "out/lens_time=86400_rank=3.ers"%string /\
  string_of_list_ascii (restart_name (str ".") (str "lens") (31536001 # 1) 0) = "lens_time=3.1536e+07_rank=0.ers"%string.
Proof. vm_compute. auto. Qed.
