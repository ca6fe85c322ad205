(** * C34: the global numbering *)

From Coq Require Import Arith List Bool Lia Sorted.
From Verif Require Import MpiModel MpiSpec MpiProofs MpiLemmas GlobalIndexModel GlobalIndexSpec GlobalIndexProofs.
Import ListNotations.

(** C34: for every number of processes and every distribution of degrees of freedom,
    with border lists in any order, every schedule ends, without deadlock even if MPI
    buffers nothing, with maps in which all processes use the same one-to-one numbering
    of all degrees of freedom by 0, ..., total - 1. *)
Theorem C34_global_indices_are_a_bijection : forall N fo dof,
  distributed N fo dof ->
  exists number total res,
    numbering N fo dof number total
    /\ ends N (fun p => buildGlobalIndices p N (fo p)) res
    /\ forall p, p < N -> mapsTo fo dof number p (res p).
Proof.
  intros N fo dof D. exists (number N fo dof), (offset fo N), (final fo).
  split; [|split].
  - apply numbering_ok; auto.
  - apply ends_intro. eapply whole; eauto.
  - intros p Hp. apply (final_maps N); auto.
Qed.

(** C34: in particular two processes which both know two indices identify them exactly
    if they are the same degree of freedom. *)
Theorem C34_processes_identify_equal_degrees_of_freedom : forall N fo dof,
  distributed N fo dof ->
  exists res, ends N (fun p => buildGlobalIndices p N (fo p)) res
    /\ forall p q i j, p < N -> q < N -> i < numLocal (fo p) -> j < numLocal (fo q) ->
       (domesticToGlobal (res p) i = domesticToGlobal (res q) j <-> dof p i = dof q j).
Proof.
  intros N fo dof D.
  destruct (C34_global_indices_are_a_bijection N fo dof D) as (num & total & res & (Hr & Hi & _) & He & Hm).
  exists res. split; [auto|]. intros p q i j Hp Hq Hpi Hqj.
  destruct (Hm p Hp) as (_ & _ & Mp & _). destruct (Hm q Hq) as (_ & _ & Mq & _).
  rewrite Mp, Mq by auto. split.
  - intros E. injection E as E. apply (Hi p q); auto; [exists i|exists j]; auto.
  - intros ->. reflexivity.
Qed.

(* ----- a case which meets the hypotheses ----- *)

(** Three processes; rank 0 has the degrees of freedom 10, 11, 12, rank 1 has 11, 13, 14
    and rank 2 has 12, 11, 14, 15.  Every native index is a local index, shifted by one
    on rank 2, where the native index 0 is black-listed. *)
Definition exDofs (p : nat) : list nat :=
  nth p [[10; 11; 12]; [11; 13; 14]; [12; 11; 14; 15]] [].

Definition exDof (p i : nat) : nat := nth i (exDofs p) 0.

Definition exForeign (p : nat) : foreignOverlap :=
  match p with
  | 0 => mkForeign 3 (fun _ => 0) (fun i => if i <? 3 then Some i else None)
           [mkBorder 2 1 2 0; mkBorder 1 0 1 0; mkBorder 1 2 2 0; mkBorder 0 7 1 1] [1; 2]
  | 1 => mkForeign 3 (fun i => match i with 0 => 0 | _ => 1 end)
           (fun i => if i <? 3 then Some i else None)
           [mkBorder 0 1 0 0; mkBorder 2 3 2 0; mkBorder 0 2 2 0] [0; 2]
  | _ => mkForeign 4 (fun i => match i with 0 | 1 => 0 | 2 => 1 | _ => 2 end)
           (fun i => match i with 0 => None | S j => if j <? 4 then Some j else None end)
           [mkBorder 2 1 0 0; mkBorder 3 2 1 0; mkBorder 2 0 1 0; mkBorder 1 2 0 0] [0; 1]
  end.

Lemma exDistributed : distributed 3 exForeign exDof.
Proof.
  split.
  - split.
    + intros p e Hp He Hd.
      destruct p as [|[|[|p]]]; [| | |lia]; cbn in He;
      repeat (destruct He as [<-|He]; [cbn in *; try discriminate;
         do 2 eexists; repeat split; cbn; try reflexivity; lia|]);
      destruct He.
    + intros p q i Hp Hq Hpq Hi (j & Hj & E).
      destruct p as [|[|[|p]]]; [| | |lia]; destruct q as [|[|[|q]]]; try lia;
      cbn in Hi, Hj;
      destruct i as [|[|[|[|i]]]]; try lia;
      destruct j as [|[|[|[|j]]]]; try lia; try discriminate E;
      cbn [exForeign borderList nativeToLocal].
      all: try (eexists; split; [left; reflexivity|]; cbn; now auto).
      all: try (eexists; split; [right; left; reflexivity|]; cbn; now auto).
      all: try (eexists; split; [right; right; left; reflexivity|]; cbn; now auto).
      all: try (eexists; split; [right; right; right; left; reflexivity|]; cbn; now auto).
    + intros p Hp. destruct p as [|[|[|p]]]; [| | |lia]; cbn;
      repeat (constructor; [cbn; intros K; repeat (destruct K as [K|K]; [discriminate K|]); exact K|]);
      constructor.
  - intros p i j Hp Hi Hj E. destruct p as [|[|[|p]]]; [| | |lia]; cbn in Hi, Hj;
    destruct i as [|[|[|[|i]]]]; try lia; destruct j as [|[|[|[|j]]]]; try lia; try discriminate E; auto.
  - intros p a b i Hp Ha Hb. destruct p as [|[|[|p]]]; [| | |lia];
    cbn [exForeign nativeToLocal] in Ha, Hb.
    + destruct (a <? 3), (b <? 3); congruence.
    + destruct (a <? 3), (b <? 3); congruence.
    + destruct a as [|a], b as [|b]; try discriminate.
      destruct (a <? 4), (b <? 4); congruence.
  - intros p i Hp Hi. destruct p as [|[|[|p]]]; [| | |lia]; cbn in Hi;
    destruct i as [|[|[|[|i]]]]; try lia; cbn; (split; [lia|]); split;
    try (intros q Hq (j & Hj & E); destruct q as [|[|q]]; [| |lia]; cbn in Hj;
         destruct j as [|[|[|[|j]]]]; try lia; discriminate E).
    all: try (exists 0; cbn; split; [lia|reflexivity]).
    all: try (exists 1; cbn; split; [lia|reflexivity]).
    all: try (exists 2; cbn; split; [lia|reflexivity]).
    all: try (exists 3; cbn; split; [lia|reflexivity]).
  - intros p Hp. destruct p as [|[|[|p]]]; [| | |lia]; cbn; repeat constructor.
  - intros p e Hp He Hd. destruct p as [|[|[|p]]]; [| | |lia]; cbn in He;
    repeat (destruct He as [<-|He]; [cbn; auto|]); destruct He.
  - intros p q Hp Hq. destruct p as [|[|[|p]]]; [| | |lia]; cbn in Hq;
    repeat (destruct Hq as [<-|Hq]; [lia|]); destruct Hq.
Qed.

Example exNumbers :
  map (fun p => map (domesticToGlobal (final exForeign p)) (seq 0 (length (exDofs p)))) (seq 0 3)
  = [[Some 0; Some 1; Some 2]; [Some 1; Some 3; Some 4]; [Some 2; Some 1; Some 4; Some 5]].
Proof. reflexivity. Qed.

Example exBijection :
  exists number total res, numbering 3 exForeign exDof number total
    /\ ends 3 (fun p => buildGlobalIndices p 3 (exForeign p)) res
    /\ forall p, p < 3 -> mapsTo exForeign exDof number p (res p).
Proof. apply C34_global_indices_are_a_bijection. apply exDistributed. Qed.

(* ----- why the master must be the lowest rank ----- *)

(** Every pair of three processes shares one degree of freedom, whose master is the
    higher rank. *)
Definition highForeign (p : nat) : foreignOverlap :=
  match p with
  | 0 => mkForeign 2 (fun i => match i with 0 => 1 | _ => 2 end) Some
           [mkBorder 0 0 1 0; mkBorder 1 0 2 0] [1; 2]
  | 1 => mkForeign 2 (fun i => match i with 0 => 1 | _ => 2 end) Some
           [mkBorder 0 0 0 0; mkBorder 1 1 2 0] [0; 2]
  | _ => mkForeign 2 (fun i => 2) Some
           [mkBorder 0 1 0 0; mkBorder 1 1 1 0] [0; 1]
  end.

Definition highDof (p i : nat) : nat := nth i (nth p [[0; 1]; [0; 2]; [1; 2]] []) 0.

Fixpoint exec {M R} (s : state M R) (ls : list (option nat)) : option (state M R) :=
  match ls with
  | [] => Some s
  | l :: ls' => match step s l with Some s' => exec s' ls' | None => None end
  end.

Lemma exec_run : forall M R ls (s t : state M R), exec s ls = Some t -> run s ls t.
Proof.
  induction ls as [|l ls IH]; cbn; intros s t H; [injection H as <-; constructor|].
  destruct (step s l) eqn:E; [|discriminate]. econstructor; eauto.
Qed.

Lemma circular : forall M R (s : state M R) k0 k1 m k2,
  procs s = [Recv 1 k0; Recv 2 k1; Send 0 m k2] -> (forall p q, chan s p q = []) ->
  ~ exists s', assured s s'.
Proof.
  intros M R s k0 k1 m k2 Hp Hc (s' & H).
  inversion H as [p q m' k k' H1 H2 H3|p q m' k s2 H1 H2|p q k s2 H1 H2|p q k s2 H1 H2 H3|s2 H1]; subst.
  - rewrite Hp in H1, H2. destruct p as [|[|[|p]]]; cbn in H1; try discriminate.
    + injection H1 as <- <- <-. cbn in H2. discriminate.
    + destruct p; discriminate.
  - rewrite Hp in H1. destruct p as [|[|[|p]]]; cbn in H1; try discriminate. destruct p; discriminate.
  - unfold step in H2. rewrite H1 in H2. rewrite Hc in H2. destruct (q <? size s); discriminate.
  - rewrite Hp in H1. destruct p as [|[|[|p]]]; cbn in H1; try discriminate. destruct p; discriminate.
  - unfold step in H1. rewrite Hp in H1. discriminate.
Qed.

(** C34, with an arbitrary assignment of masters in place of the lowest rank: the
    numbering can deadlock if MPI does not buffer the messages. *)
Theorem C34_other_masters_can_deadlock_refuted :
  exists N fo dof,
    bordersKnown N fo dof
    /\ (forall p q i j, p < N -> q < N -> i < numLocal (fo p) -> j < numLocal (fo q) ->
          dof p i = dof q j -> masterRank (fo p) i = masterRank (fo q) j)
    /\ (forall p i, p < N -> i < numLocal (fo p) -> has fo dof (masterRank (fo p) i) (dof p i))
    /\ ~ exists res, ends N (fun p => buildGlobalIndices p N (fo p)) res.
Proof.
  exists 3, highForeign, highDof. split; [|split; [|split]].
  - split.
    + intros p e Hp He Hd.
      destruct p as [|[|[|p]]]; [| | |lia]; cbn in He;
      repeat (destruct He as [<-|He]; [cbn in *; try discriminate;
         do 2 eexists; repeat split; cbn; try reflexivity; lia|]);
      destruct He.
    + intros p q i Hp Hq Hpq Hi (j & Hj & E).
      destruct p as [|[|[|p]]]; [| | |lia]; destruct q as [|[|[|q]]]; try lia;
      cbn in Hi, Hj;
      destruct i as [|[|i]]; try lia;
      destruct j as [|[|j]]; try lia; try discriminate E;
      cbn [highForeign borderList nativeToLocal].
      all: try (eexists; split; [left; reflexivity|]; cbn; now auto).
      all: try (eexists; split; [right; left; reflexivity|]; cbn; now auto).
    + intros p Hp. destruct p as [|[|[|p]]]; [| | |lia]; cbn;
      repeat (constructor; [cbn; intros K; repeat (destruct K as [K|K]; [discriminate K|]); exact K|]);
      constructor.
  - intros p q i j Hp Hq Hi Hj E.
    destruct p as [|[|[|p]]]; [| | |lia]; destruct q as [|[|[|q]]]; try lia; cbn in Hi, Hj;
    destruct i as [|[|i]]; try lia; destruct j as [|[|j]]; try lia; try discriminate E; reflexivity.
  - intros p i Hp Hi. destruct p as [|[|[|p]]]; [| | |lia]; cbn in Hi;
    destruct i as [|[|i]]; try lia; cbn.
    all: try (exists 0; cbn; split; [lia|reflexivity]).
    all: try (exists 1; cbn; split; [lia|reflexivity]).
  - intros (res & He).
    remember (exec (start 3 (fun p => buildGlobalIndices p 3 (highForeign p)))
                   [Some 0; Some 1; Some 1; Some 2]) as o eqn:Eo.
    assert (C : match o with
                | Some s => (exists k0 k1 m k2, procs s = [Recv 1 k0; Recv 2 k1; Send 0 m k2])
                            /\ forallb (fun c => match c with [] => true | _ => false end) (chans s) = true
                | None => False
                end).
    { subst o. vm_compute. split; [|reflexivity]. do 4 eexists. reflexivity. }
    destruct o as [s|]; [|exact C]. symmetry in Eo. rename Eo into Es.
    destruct C as ((k0 & k1 & m & k2 & Hp) & Hc).
    apply exec_run in Es.
    destruct (ends_progress _ _ _ He _ _ Es) as [E|E].
    + rewrite E in Hp. discriminate.
    + eapply circular; eauto. intros p q. unfold chan.
      rewrite forallb_forall in Hc.
      destruct (nth_in_or_default (p * size s + q) (chans s) []) as [K|K]; [|auto].
      specialize (Hc _ K). destruct (nth (p * size s + q) (chans s) []); [reflexivity|discriminate].
Qed.

Print Assumptions C34_global_indices_are_a_bijection.
Print Assumptions C34_processes_identify_equal_degrees_of_freedom.
Print Assumptions C34_other_masters_can_deadlock_refuted.
