(** C30: the collection file of the visualization output. *)
From Verif Require Import PvdModel PvdSpec PvdProofs.

(** With synchronous output: after any number of writes, whichever of them were discarded,
    the file on rank zero lists exactly the data sets written, in order, and is closed by the
    final tags; so it is at the end of the simulation. *)
Theorem C30_collection_complete_sync :
  forall sim dune writes, writes <> [] ->
    let name n := dune (file_name sim n) in
    let w := acts true false sim dune (script writes) new_writer in
    option_map f_data (w_file w) = Some (collection (outputs name 0 writes)) /\
    option_map f_data (w_file (acts true false sim dune destructor_script w)) = Some (collection (outputs name 0 writes)) /\
    w_num w = length (outputs name 0 writes).
Proof.
  intros sim dune writes H name w. destruct (sync_writes sim dune writes [] new_writer good_new) as (G & C).
  cbn [app length] in G, C. destruct (C H) as (f & F & D). pose proof (sync_destructor sim dune _ _ G) as X.
  fold w in F, X, G. rewrite F in *.
  destruct X as (f' & F' & D'). rewrite F'. cbn [option_map]. destruct D as (_ & ->), D' as (_ & ->). rewrite !body_footer.
  split; [reflexivity|]. split; [reflexivity|]. apply G.
Qed.
Print Assumptions C30_collection_complete_sync.

(** The same across a restart: the writes of the continued simulation are appended to the
    ones the restart file knows about. *)
Theorem C30_collection_complete_after_restart :
  forall sim dune before after, after <> [] ->
    let w := acts true false sim dune (script after)
               (restart_writer (acts true false sim dune (script before) new_writer)) in
    option_map f_data (w_file w) = Some (collection (outputs (fun n => dune (file_name sim n)) 0 (before ++ after))).
Proof.
  intros sim dune before after H w. destruct (sync_writes sim dune before [] new_writer good_new) as (G & _).
  cbn [app length] in G. apply good_restart in G. destruct (sync_writes sim dune after _ _ G) as (_ & C).
  destruct (C H) as (f & F & _ & D). subst w. rewrite F. cbn [option_map]. rewrite D, body_footer, (outputs_app (nm sim dune)). reflexivity.
Qed.
Print Assumptions C30_collection_complete_after_restart.

(** No two data sets go to the same file. *)
Theorem C30_data_files_distinct :
  forall sim dune writes, (forall a b, dune a = dune b -> a = b) ->
    NoDup (map snd (outputs (fun n => dune (file_name sim n)) 0 writes)).
Proof. intros sim dune writes I. apply outputs_nodup. intros a b H. eapply file_name_inj. apply I. exact H. Qed.
Print Assumptions C30_data_files_distinct.

(** The other ranks have no such file. *)
Theorem C30_only_rank_zero : forall async sim dune l, w_file (acts false async sim dune l new_writer) = None.
Proof. intros. apply rank_other. reflexivity. Qed.
Print Assumptions C30_only_rank_zero.

Example C30_sync_case :
  let writes := [(0, false); (1 # 4, true); (100, false)] in
  option_map (fun f => string_of_list_ascii (f_data f))
    (w_file (acts true false (str "lens") (fun n => n ++ str ".vtu") (script writes) new_writer)) = Some
"<?xml version=""1.0""?>
<VTKFile type=""Collection""
         version=""0.1""
         byte_order=""LittleEndian""
         compressor=""vtkZLibDataCompressor"">
 <Collection>
   <DataSet timestep=""0"" file=""lens-00000.vtu""/>
   <DataSet timestep=""100"" file=""lens-00001.vtu""/>
 </Collection>
</VTKFile>
"%string.
Proof. vm_compute. reflexivity. Qed.

(** With asynchronous output: whenever the simulation has ended the file is complete, for
    every schedule in which no write task runs while the other thread writes the closing
    tags. *)
Theorem C30_collection_complete_async_partial :
  forall sim dune writes w, writes <> [] ->
    quiet_steps true true sim dune (script writes ++ destructor_script, new_writer) ([], w) ->
    option_map f_data (w_file w) = Some (collection (outputs (fun n => dune (file_name sim n)) 0 writes)).
Proof.
  intros sim dune writes w N H. apply at_steps in H. cbn [fst snd] in H. inversion H as [? rest ? E _ X| | | | | |w0 _ F]; subst.
  - destruct rest as [|[? ?] ?]; discriminate X.
  - destruct (w_file w) as [f|]; [|congruence]. destruct F as (_ & F). cbn. rewrite F, body_footer. reflexivity.
Qed.
Print Assumptions C30_collection_complete_async_partial.

(** One schedule of two writes: [true] is a step of the output thread. *)
Fixpoint play (dune : list ascii -> list ascii) (sim : list ascii) (sched : list bool) (x : list action * writer) : list action * writer :=
  match sched with
  | [] => x
  | true :: s => play dune sim s (fst x, run_task dune (snd x))
  | false :: s => match fst x with [] => x | a :: l => play dune sim s (l, act true true sim dune a (snd x)) end
  end.
Fixpoint allowed (dune : list ascii -> list ascii) (sim : list ascii) (sched : list bool) (x : list action * writer) : bool :=
  match sched with
  | [] => true
  | true :: s => (0 <? w_queue (snd x))%nat && allowed dune sim s (fst x, run_task dune (snd x))
  | false :: s => match fst x with [] => false
                  | a :: l => (negb (waits a) || (w_queue (snd x) =? 0)%nat) && allowed dune sim s (l, act true true sim dune a (snd x)) end
  end.
Lemma play_steps dune sim sched : forall x y, steps true true sim dune x y -> allowed dune sim sched y = true ->
  steps true true sim dune x (play dune sim sched y).
Proof.
  induction sched as [|[|] s IH]; intros x [l w] H A; cbn [play allowed fst snd] in *; auto.
  - apply andb_prop in A. destruct A as (A1 & A2). apply IH; auto. eapply steps_next; [exact H|]. apply step_task. apply Nat.ltb_lt. auto.
  - destruct l as [|a l]; auto. apply andb_prop in A. destruct A as (A1 & A2). apply IH; auto. eapply steps_next; [exact H|].
    apply step_main. intros W. rewrite W in A1. apply Nat.eqb_eq. auto.
Qed.

(** In general it is not: if the write task runs after the other thread has noted the write
    position and before it returns to it, the next entry overwrites the one just written. *)
Theorem C30_collection_complete_async_refuted :
  ~ (forall sim dune writes w, writes <> [] ->
       steps true true sim dune (script writes ++ destructor_script, new_writer) ([], w) ->
       option_map f_data (w_file w) = Some (collection (outputs (fun n => dune (file_name sim n)) 0 writes))).
Proof.
  intros H.
  pose (dune := fun n : list ascii => n). pose (sim := str "lens"). pose (writes := [(0, false); (100, false)] : list (Q * bool)).
  pose (sched := [false; false; false; true; false; false] ++ [false; false; true; false; false; false] ++ [false; false; false; false; false]).
  pose (x := play dune sim sched (script writes ++ destructor_script, new_writer)).
  assert (S : steps true true sim dune (script writes ++ destructor_script, new_writer) x).
  { apply play_steps; [constructor|]. vm_compute. reflexivity. }
  assert (L : fst x = []) by (vm_compute; reflexivity).
  assert (D : option_map f_data (w_file (snd x)) <> Some (collection (outputs (fun n => dune (file_name sim n)) 0 writes))).
  { vm_compute. discriminate. }
  clearbody x. destruct x as [l w]. cbn [fst snd] in *. subst l. apply D. apply H; [discriminate|exact S].
Qed.
Print Assumptions C30_collection_complete_async_refuted.

(** Nor is it complete between the writes even then: when the write task has run after the
    closing tags were written, they are gone until the next write ends. *)
Theorem C30_loadable_between_writes_async_refuted :
  ~ (forall sim dune writes rest w, writes <> [] ->
       quiet_steps true true sim dune (script (writes ++ rest) ++ destructor_script, new_writer) (script rest ++ destructor_script, w) ->
       w_queue w = 0%nat ->
       option_map f_data (w_file w) = Some (collection (outputs (fun n => dune (file_name sim n)) 0 writes))).
Proof.
  intros H. specialize (H (str "lens") (fun n => n) [(0, false)] [(100, false)]).
  set (w1 := acts true true (str "lens") (fun n => n) (write_script (0, false)) new_writer).
  specialize (H (run_task (fun n => n) w1) ltac:(discriminate)).
  assert (S : quiet_steps true true (str "lens") (fun n => n) (script ([(0, false)] ++ [(100, false)]) ++ destructor_script, new_writer)
                (script [(100, false)] ++ destructor_script, run_task (fun n => n) w1)).
  { eapply (quiet_next true true _ _ _ (script [(100, false)] ++ destructor_script) w1); [|apply step_task; vm_compute; lia|intros _; reflexivity].
    eapply quiet_next; [|apply step_main; cbn; try discriminate|intros E; apply (f_equal (@length action)) in E; cbn in E; lia].
    eapply quiet_next; [|apply step_main; cbn; try discriminate|intros E; apply (f_equal (@length action)) in E; cbn in E; lia].
    eapply quiet_next; [|apply step_main; cbn; try discriminate|intros E; apply (f_equal (@length action)) in E; cbn in E; lia].
    eapply quiet_next; [|apply (step_main true true _ _ ADispatch); cbn; try discriminate|intros E; apply (f_equal (@length action)) in E; cbn in E; lia].
    eapply quiet_next; [|apply (step_main true true _ _ (ABegin 0)); cbn; reflexivity|intros E; apply (f_equal (@length action)) in E; cbn in E; lia].
    constructor. }
  specialize (H S ltac:(vm_compute; reflexivity)). vm_compute in H. discriminate.
Qed.
Print Assumptions C30_loadable_between_writes_async_refuted.

(** A schedule of the kind the partial theorem is about exists. *)
Example C30_async_case :
  let x := (script [(0, false)] ++ destructor_script, new_writer) in
  let y := play (fun n => n) (str "lens") [false; false; true; false; false; false; false; false; false; false; false] x in
  fst y = [] /\ allowed (fun n => n) (str "lens") [false; false; true; false; false; false; false; false; false; false; false] x = true /\
  option_map f_data (w_file (snd y)) = Some (collection [(0, str "lens-00000")]).
Proof. vm_compute. auto. Qed.
