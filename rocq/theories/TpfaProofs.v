(** Proofs about the two-point flux linearizer. *)
From Coq Require Import List Bool Arith ZArith QArith Qabs Qminmax Lia Lqa Permutation.
Import ListNotations.
From Verif Require Import StencilModel StencilSpec StencilProofs TpfaModel TpfaSpec.
Open Scope Q_scope.

(* ----- sums ----- *)

Lemma total_cons {A} (f : A -> Q) a l : total f (a :: l) = f a + total f l.
Proof. reflexivity. Qed.

Lemma total_app {A} (f : A -> Q) l m : total f (l ++ m) == total f l + total f m.
Proof. induction l as [|a l IH]; cbn [app]; [cbn; lra|]. rewrite !total_cons, IH. lra. Qed.

Lemma total_ext {A} (f g : A -> Q) l : (forall a, In a l -> f a == g a) -> total f l == total g l.
Proof.
  induction l as [|a l IH]; intros H; [reflexivity|]. rewrite !total_cons, IH, H; [reflexivity|now left|].
  intros b I. apply H. now right.
Qed.

Lemma total_zero {A} (f : A -> Q) l : (forall a, In a l -> f a == 0) -> total f l == 0.
Proof.
  induction l as [|a l IH]; intros H; [reflexivity|]. rewrite total_cons, IH, H; [reflexivity|now left|].
  intros b I. apply H. now right.
Qed.

Lemma total_plus {A} (f g : A -> Q) l : total (fun a => f a + g a) l == total f l + total g l.
Proof. induction l as [|a l IH]; [reflexivity|]. rewrite !total_cons, IH. lra. Qed.

Lemma total_opp {A} (f : A -> Q) l : total (fun a => - f a) l == - total f l.
Proof. induction l as [|a l IH]; [reflexivity|]. rewrite !total_cons, IH. lra. Qed.

Lemma total_scale {A} (f : A -> Q) c l : total (fun a => c * f a) l == c * total f l.
Proof. induction l as [|a l IH]; [cbn; lra|]. rewrite !total_cons, IH. lra. Qed.

Lemma total_map {A B} (h : A -> B) (f : B -> Q) l : total f (map h l) = total (fun a => f (h a)) l.
Proof. induction l as [|a l IH]; [reflexivity|]. cbn [map]. rewrite !total_cons, IH. reflexivity. Qed.

Lemma total_flat {A B} (h : A -> list B) (f : B -> Q) l :
  total f (flat_map h l) == total (fun a => total f (h a)) l.
Proof. induction l as [|a l IH]; [reflexivity|]. cbn [flat_map]. rewrite total_app, IH, total_cons. lra. Qed.

(** Picking one member. *)
Lemma total_pick (f : nat -> Q) i l : NoDup l ->
  total (fun c => if (c =? i)%nat then f c else 0) l == if existsb (Nat.eqb i) l then f i else 0.
Proof.
  induction l as [|c l IH]; intros D; [reflexivity|]. inversion D; subst.
  rewrite total_cons, IH by assumption. cbn [existsb].
  destruct (Nat.eqb_spec c i) as [->|N].
  - rewrite Nat.eqb_refl. cbn [orb].
    destruct (existsb (Nat.eqb i) l) eqn:X; [|lra].
    apply existsb_exists in X. destruct X as (y & I & Ey). apply Nat.eqb_eq in Ey. subst. contradiction.
  - destruct (Nat.eqb_spec i c) as [->|M]; [congruence|]. cbn [orb]. lra.
Qed.

Lemma in_existsb i l : In i l <-> existsb (Nat.eqb i) l = true.
Proof.
  rewrite existsb_exists. split.
  - intros H. exists i. split; [assumption|apply Nat.eqb_refl].
  - intros (x & I & E). apply Nat.eqb_eq in E. now subst.
Qed.

Lemma notin_existsb i l : ~ In i l <-> existsb (Nat.eqb i) l = false.
Proof. rewrite in_existsb. destruct (existsb (Nat.eqb i) l); split; intros; congruence. Qed.

Lemma fold_plus l : forall a, fold_left Qplus l a == a + total (fun x => x) l.
Proof. induction l as [|x l IH]; intros a; cbn [fold_left]; [cbn; lra|]. rewrite IH, total_cons. lra. Qed.

(* ----- what statements do ----- *)

(** The numbers a statement adds to one entry of the residual and of the matrix. *)
Definition resAt (i e : nat) (t : stmt) : list Q :=
  match t with AddResidual k v => if (k =? i)%nat then [v e] else [] | _ => [] end.
Definition blkAt (i j e p : nat) (t : stmt) : list Q :=
  match t with
  | AddBlock r c b => if ((i =? r)%nat && (j =? c)%nat)%bool then [b e p] else []
  | _ => []
  end.
Definition oldAt (i : nat) (t : stmt) : list vec :=
  match t with Store1 k v => if (k =? i)%nat then [v] else [] | _ => [] end.
Definition newAt (i : nat) (t : stmt) : list vec :=
  match t with Store0 k v => if (k =? i)%nat then [v] else [] | _ => [] end.

Lemma residual_exec l : forall s i e,
  residual (fold_left exec l s) i e = fold_left Qplus (flat_map (resAt i e) l) (residual s i e).
Proof.
  induction l as [|t l IH]; intros s i e; [reflexivity|]. cbn [fold_left flat_map].
  rewrite IH, fold_left_app. f_equal. destruct t; cbn [exec resAt residual withResidual withJacobian]; try reflexivity.
  unfold at_. destruct (Nat.eqb_spec i i0) as [->|N].
  - rewrite Nat.eqb_refl. reflexivity.
  - destruct (Nat.eqb_spec i0 i) as [->|M]; [congruence|reflexivity].
Qed.

Lemma hasBlock_exec1 s t i j : hasBlock (exec s t) i j <-> hasBlock s i j.
Proof.
  unfold hasBlock. destruct t; cbn [exec jacobian withResidual withJacobian]; try reflexivity.
  destruct (jacobian s) as [m|]; [|split; intros (m & b' & E & _); discriminate].
  split.
  - intros (m' & b' & E & H). injection E as <-. cbn in H.
    destruct ((i =? i0)%nat && (j =? j0)%nat)%bool; [|eauto].
    destruct (m i j) eqn:M; [eauto|discriminate].
  - intros (m' & b' & E & H). injection E as <-.
    destruct ((i =? i0)%nat && (j =? j0)%nat)%bool eqn:C.
    + exists (fun r c => if ((r =? i0)%nat && (c =? j0)%nat)%bool
                         then match m r c with Some x => Some (addM x b) | None => None end else m r c), (addM b' b).
      split; [reflexivity|]. cbn. rewrite C, H. reflexivity.
    + exists (fun r c => if ((r =? i0)%nat && (c =? j0)%nat)%bool
                         then match m r c with Some x => Some (addM x b) | None => None end else m r c), b'.
      split; [reflexivity|]. cbn. rewrite C. assumption.
Qed.

Lemma hasBlock_exec l : forall s i j, hasBlock (fold_left exec l s) i j <-> hasBlock s i j.
Proof.
  induction l as [|t l IH]; intros; [reflexivity|]. cbn [fold_left]. rewrite IH. apply hasBlock_exec1.
Qed.

Lemma entry_exec1 s t i j e p : hasBlock s i j ->
  entryOf (exec s t) i j e p = fold_left Qplus (blkAt i j e p t) (entryOf s i j e p).
Proof.
  intros (m & b & E & B). unfold entryOf. destruct t; cbn [exec jacobian withResidual withJacobian blkAt]; try reflexivity.
  rewrite E. cbn. destruct ((i =? i0)%nat && (j =? j0)%nat)%bool; [|reflexivity].
  rewrite B. reflexivity.
Qed.

Lemma entry_exec l : forall s i j e p, hasBlock s i j ->
  entryOf (fold_left exec l s) i j e p = fold_left Qplus (flat_map (blkAt i j e p) l) (entryOf s i j e p).
Proof.
  induction l as [|t l IH]; intros s i j e p H; [reflexivity|]. cbn [fold_left flat_map].
  rewrite IH by (now apply hasBlock_exec1). rewrite fold_left_app, entry_exec1 by assumption. reflexivity.
Qed.

Lemma entry_none s i j e p : ~ hasBlock s i j -> entryOf s i j e p = 0.
Proof.
  intros H. unfold entryOf. destruct (jacobian s) as [m|] eqn:E; [|reflexivity].
  destruct (m i j) eqn:B; [|reflexivity]. exfalso. apply H. exists m, m0. auto.
Qed.

Lemma hasBlock_dec s i j : {hasBlock s i j} + {~ hasBlock s i j}.
Proof.
  unfold hasBlock. destruct (jacobian s) as [m|]; [|right; intros (m & b & E & _); discriminate].
  destruct (m i j) eqn:B.
  - left. eauto.
  - right. intros (m' & b & E & B'). congruence.
Qed.

Lemma cached1_exec l : forall s i,
  cached1 (fold_left exec l s) i = fold_left (fun _ v => v) (flat_map (oldAt i) l) (cached1 s i).
Proof.
  induction l as [|t l IH]; intros s i; [reflexivity|]. cbn [fold_left flat_map].
  rewrite IH, fold_left_app. f_equal. destruct t; cbn [exec oldAt cached1 withResidual withJacobian]; try reflexivity.
  unfold at_. destruct (Nat.eqb_spec i i0) as [->|N].
  - rewrite Nat.eqb_refl. reflexivity.
  - destruct (Nat.eqb_spec i0 i) as [->|M]; [congruence|reflexivity].
Qed.

Lemma cached0_exec l : forall s i,
  cached0 (fold_left exec l s) i = fold_left (fun _ v => v) (flat_map (newAt i) l) (cached0 s i).
Proof.
  induction l as [|t l IH]; intros s i; [reflexivity|]. cbn [fold_left flat_map].
  rewrite IH, fold_left_app. f_equal. destruct t; cbn [exec newAt cached0 withResidual withJacobian]; try reflexivity.
  unfold at_. destruct (Nat.eqb_spec i i0) as [->|N].
  - rewrite Nat.eqb_refl. reflexivity.
  - destruct (Nat.eqb_spec i0 i) as [->|M]; [congruence|reflexivity].
Qed.

(** The tables do not change. *)
Definition sameTables (a b : lin) : Prop :=
  neighborInfo a = neighborInfo b /\ boundaryInfo a = boundaryInfo b /\ fullDomain a = fullDomain b /\
  (jacobian a = None <-> jacobian b = None).

Lemma sameTables_refl a : sameTables a a.
Proof. repeat split; auto. Qed.

Lemma sameTables_trans a b c : sameTables a b -> sameTables b c -> sameTables a c.
Proof. intros (A & B & C & D) (A' & B' & C' & D'). repeat split; try congruence; tauto. Qed.

Lemma tables_exec1 s t : sameTables (exec s t) s.
Proof.
  destruct t; repeat split; cbn; auto; try tauto.
  - destruct (jacobian s); congruence.
  - destruct (jacobian s); congruence.
Qed.

Lemma tables_exec l : forall s, sameTables (fold_left exec l s) s.
Proof.
  induction l as [|t l IH]; intros; [apply sameTables_refl|]. cbn [fold_left].
  eapply sameTables_trans; [apply IH|apply tables_exec1].
Qed.

(* ----- one cell ----- *)

Lemma flat_nil {A B} (f : A -> list B) l : (forall a, In a l -> f a = []) -> flat_map f l = [].
Proof.
  induction l as [|a l IH]; intros H; [reflexivity|]. cbn. rewrite H by now left.
  apply IH. intros b I. apply H. now right.
Qed.

Lemma flat_flat {A B C} (f : B -> list C) (g : A -> list B) l :
  flat_map f (flat_map g l) = flat_map (fun a => flat_map f (g a)) l.
Proof. induction l as [|a l IH]; [reflexivity|]. cbn [flat_map]. rewrite flat_map_app, IH. reflexivity. Qed.

(** Which cell a statement of the loop belongs to. *)
Definition ofCell (c : nat) (t : stmt) : Prop :=
  match t with
  | AddResidual i _ => i = c
  | AddBlock _ j _ => j = c
  | Store0 i _ => i = c
  | Store1 i _ => i = c
  end.

Lemma storage_ofCell E onFull old c : Forall (ofCell c) (storageStmts E onFull old c).
Proof.
  unfold storageStmts.
  destruct (storageCache E), (iteration E =? 0)%nat, (recycle E), onFull; cbn;
    repeat (constructor; cbn; auto).
Qed.

Lemma cell_ofCell E onFull s c : Forall (ofCell c) (cellStmts E onFull s c).
Proof.
  unfold cellStmts. rewrite !Forall_app. repeat split.
  - unfold fluxStmts. apply Forall_forall. intros t I. apply in_flat_map in I.
    destruct I as (kj & _ & I). cbn in I. destruct I as [<-|[<-|[<-|[]]]]; reflexivity.
  - apply storage_ofCell.
  - repeat constructor.
Qed.

Lemma other_res c i e t : ofCell c t -> i <> c -> resAt i e t = [].
Proof. destruct t; cbn; intros H N; try reflexivity. subst. destruct (Nat.eqb_spec c i); [congruence|reflexivity]. Qed.

Lemma other_blk c i j e p t : ofCell c t -> j <> c -> blkAt i j e p t = [].
Proof.
  destruct t; cbn; intros H N; try reflexivity. subst.
  destruct (Nat.eqb_spec j c); [congruence|]. now rewrite andb_false_r.
Qed.

Lemma other_old c i t : ofCell c t -> i <> c -> oldAt i t = [].
Proof. destruct t; cbn; intros H N; try reflexivity. subst. destruct (Nat.eqb_spec c i); [congruence|reflexivity]. Qed.

Lemma other_new c i t : ofCell c t -> i <> c -> newAt i t = [].
Proof. destruct t; cbn; intros H N; try reflexivity. subst. destruct (Nat.eqb_spec c i); [congruence|reflexivity]. Qed.

Lemma flat_ofCell {B} (f : stmt -> list B) c l : Forall (ofCell c) l ->
  (forall t, ofCell c t -> f t = []) -> flat_map f l = [].
Proof. intros F H. apply flat_nil. intros t I. apply H. rewrite Forall_forall in F. auto. Qed.

Lemma cellStmts_same E onFull s s' c : neighborInfo s = neighborInfo s' -> cached1 s c = cached1 s' c ->
  cellStmts E onFull s c = cellStmts E onFull s' c.
Proof. intros A B. unfold cellStmts. now rewrite A, B. Qed.

Lemma cached1_cells E onFull l : forall s s' c, ~ In c l ->
  cached1 (fold_left exec (flat_map (cellStmts E onFull s') l) s) c = cached1 s c.
Proof.
  intros s s' c N. rewrite cached1_exec, flat_flat, (flat_nil (fun a => _)); [reflexivity|].
  intros d I. apply (flat_ofCell _ d); [apply cell_ofCell|]. intros t T. apply (other_old d); [assumption|].
  intros ->. contradiction.
Qed.

(** The loop over different cells is the execution of the statements of all of them. *)
Lemma loop_stmts E onFull cells : forall s, NoDup cells ->
  fold_left (cellBody E onFull) cells s = fold_left exec (flat_map (cellStmts E onFull s) cells) s.
Proof.
  induction cells as [|c cells IH]; intros s D; [reflexivity|]. inversion D; subst.
  cbn [fold_left flat_map]. rewrite fold_left_app. unfold cellBody at 2.
  set (s1 := fold_left exec (cellStmts E onFull s c) s). rewrite IH by assumption.
  f_equal. rewrite !flat_map_concat_map. f_equal. apply map_ext_in. intros d I.
  apply cellStmts_same.
  - apply (tables_exec (cellStmts E onFull s c) s).
  - subst s1. rewrite cached1_exec, (flat_ofCell _ c); [reflexivity|apply cell_ofCell|].
    intros t T. apply (other_old c); [assumption|]. intros ->. contradiction.
Qed.

(* ----- any interleaving ----- *)

(** The statements of one cell in a list of statements labelled by cells. *)
Definition partOf (c : nat) (l : list (nat * stmt)) : list stmt :=
  map snd (filter (fun x => (fst x =? c)%nat) l).

Lemma flat_part {B} (f : stmt -> list B) c l :
  (forall d t, In (d, t) l -> d <> c -> f t = []) ->
  flat_map f (map snd l) = flat_map f (partOf c l).
Proof.
  unfold partOf. induction l as [|[d t] l IH]; intros H; [reflexivity|]. cbn [map flat_map filter fst snd].
  rewrite IH by (intros d' t' I; apply H; now right).
  destruct (Nat.eqb_spec d c) as [->|N]; [reflexivity|]. rewrite (H d t) by (auto; now left). reflexivity.
Qed.

Lemma part_of_flat (g : nat -> list stmt) c cells : NoDup cells ->
  partOf c (flat_map (fun d => map (pair d) (g d)) cells) = if existsb (Nat.eqb c) cells then g c else [].
Proof.
  unfold partOf. induction cells as [|d cells IH]; intros D; [reflexivity|]. inversion D; subst.
  cbn [flat_map existsb]. rewrite filter_app, map_app, IH by assumption.
  assert (F : forall l, filter (fun x : nat * stmt => (fst x =? c)%nat) (map (pair d) l)
              = if (c =? d)%nat then map (pair d) l else []).
  { induction l as [|t l IHl]; cbn; [now destruct (c =? d)%nat|].
    rewrite (Nat.eqb_sym d c), IHl. destruct (c =? d)%nat; reflexivity. }
  rewrite F. destruct (Nat.eqb_spec c d) as [->|N]; cbn [orb].
  - rewrite map_map, map_id. cbn. destruct (existsb (Nat.eqb d) cells) eqn:X; [|now rewrite app_nil_r].
    apply in_existsb in X. contradiction.
  - reflexivity.
Qed.

Lemma map_snd_flat (g : nat -> list stmt) cells :
  map snd (flat_map (fun d => map (pair d) (g d)) cells) = flat_map g cells.
Proof.
  induction cells as [|d cells IH]; [reflexivity|]. cbn. rewrite map_app, map_map, map_id, IH. reflexivity.
Qed.

Section Interleaving.
Variables (cells : list nat) (g : nat -> list stmt).
Hypothesis Own : forall c, Forall (ofCell c) (g c).
Variable l : list (nat * stmt).
Hypothesis Parts : forall c, partOf c l = if existsb (Nat.eqb c) cells then g c else [].

Lemma labelled d t : In (d, t) l -> ofCell d t.
Proof.
  intros I. assert (H : In t (partOf d l)).
  { unfold partOf. change t with (snd (d, t)). apply in_map. apply filter_In. split; [assumption|].
    cbn. apply Nat.eqb_refl. }
  rewrite Parts in H. destruct (existsb (Nat.eqb d) cells); [|destruct H].
  specialize (Own d). rewrite Forall_forall in Own. auto.
Qed.

Lemma inter_flat {B} (f : stmt -> list B) c : (forall d t, ofCell d t -> d <> c -> f t = []) ->
  flat_map f (map snd l) = if existsb (Nat.eqb c) cells then flat_map f (g c) else [].
Proof.
  intros H. rewrite (flat_part f c).
  - rewrite Parts. now destruct (existsb (Nat.eqb c) cells).
  - intros d t I N. apply (H d); [now apply labelled|assumption].
Qed.
End Interleaving.

(** Executions leave the same values everywhere. *)
Definition sameValues (a b : lin) : Prop :=
  (forall i e, residual a i e = residual b i e) /\
  (forall i j, hasBlock a i j <-> hasBlock b i j) /\
  (forall i j e p, entryOf a i j e p = entryOf b i j e p) /\
  (forall i, cached0 a i = cached0 b i /\ cached1 a i = cached1 b i) /\
  sameTables a b.

Lemma sameValues_flat s l l' :
  (forall i e, flat_map (resAt i e) l = flat_map (resAt i e) l') ->
  (forall i j e p, flat_map (blkAt i j e p) l = flat_map (blkAt i j e p) l') ->
  (forall i, flat_map (oldAt i) l = flat_map (oldAt i) l') ->
  (forall i, flat_map (newAt i) l = flat_map (newAt i) l') ->
  sameValues (fold_left exec l s) (fold_left exec l' s).
Proof.
  intros R B O N. split; [|split; [|split; [|split]]].
  - intros. rewrite !residual_exec, R. reflexivity.
  - intros. rewrite !hasBlock_exec. reflexivity.
  - intros i j e p. destruct (hasBlock_dec s i j) as [H|H].
    + rewrite !entry_exec by assumption. now rewrite B.
    + rewrite !entry_none; [reflexivity| |]; now rewrite hasBlock_exec.
  - intros i. rewrite !cached0_exec, !cached1_exec, N, O. auto.
  - eapply sameTables_trans; [apply tables_exec|].
    destruct (tables_exec l' s) as (A1 & A2 & A3 & A4). repeat split; auto; tauto.
Qed.

Lemma interleaving E onFull cells s l : NoDup cells ->
  (forall c, partOf c l = if existsb (Nat.eqb c) cells then cellStmts E onFull s c else []) ->
  sameValues (fold_left exec (map snd l) s) (fold_left (cellBody E onFull) cells s).
Proof.
  intros D P. rewrite loop_stmts by assumption.
  set (g := cellStmts E onFull s) in *.
  assert (Own : forall c, Forall (ofCell c) (g c)) by (intros; apply cell_ofCell).
  rewrite <- (map_snd_flat g cells).
  pose proof (fun c => part_of_flat g c cells D) as P'.
  apply sameValues_flat.
  - intros i e. rewrite (inter_flat cells g Own l P _ i), (inter_flat cells g Own _ P' _ i); auto;
      intros d t T N; apply (other_res d); congruence || auto.
  - intros i j e p. rewrite (inter_flat cells g Own l P _ j), (inter_flat cells g Own _ P' _ j); auto;
      intros d t T N; apply (other_blk d); congruence || auto.
  - intros i. rewrite (inter_flat cells g Own l P _ i), (inter_flat cells g Own _ P' _ i); auto;
      intros d t T N; apply (other_old d); congruence || auto.
  - intros i. rewrite (inter_flat cells g Own l P _ i), (inter_flat cells g Own _ P' _ i); auto;
      intros d t T N; apply (other_new d); congruence || auto.
Qed.

(* ----- the sums ----- *)

Lemma total_single x : total (fun y : Q => y) [x] == x.
Proof. cbn. lra. Qed.

Lemma flux_res E i nbs e c :
  total (fun x => x) (flat_map (resAt i e) (fluxStmts E c nbs))
  == if (c =? i)%nat then total (fun kj => val (flux E c (fst kj) (snd kj)) e) (numbered nbs) else 0.
Proof.
  unfold fluxStmts. fold (numbered nbs). rewrite flat_flat, total_flat.
  destruct (Nat.eqb_spec c i) as [->|N].
  - apply total_ext. intros kj _. cbn. rewrite Nat.eqb_refl. cbn. lra.
  - apply total_zero. intros kj _. cbn. apply Nat.eqb_neq in N. rewrite N. reflexivity.
Qed.

Lemma flux_blk E i j nbs e p c :
  total (fun x => x) (flat_map (blkAt i j e p) (fluxStmts E c nbs))
  == if (j =? c)%nat
     then (if (i =? c)%nat then total (fun kj => der (flux E c (fst kj) (snd kj)) e p) (numbered nbs) else 0)
          - total (fun kc => if (snd kc =? i)%nat then der (flux E c (fst kc) i) e p else 0) (numbered nbs)
     else 0.
Proof.
  unfold fluxStmts. fold (numbered nbs). rewrite flat_flat, total_flat.
  destruct (Nat.eqb_spec j c) as [->|N].
  - assert (A : forall b : bool,
      (if b then total (fun kj => der (flux E c (fst kj) (snd kj)) e p) (numbered nbs) else 0) ==
      total (fun kj => if b then der (flux E c (fst kj) (snd kj)) e p else 0) (numbered nbs)).
    { intros []; [reflexivity|]. rewrite total_zero by (intros; reflexivity). reflexivity. }
    rewrite A. unfold Qminus. rewrite <- total_opp, <- total_plus. apply total_ext. intros [k d] _. cbn [fst snd flat_map app].
    cbn [resAt blkAt]. rewrite Nat.eqb_refl, !andb_true_r.
    rewrite (Nat.eqb_sym d i). unfold scaleM.
    destruct (i =? c)%nat; destruct (Nat.eqb_spec i d) as [->|]; cbn; lra.
  - apply total_zero. intros kj _. cbn. apply Nat.eqb_neq in N. rewrite N, !andb_false_r. reflexivity.
Qed.

Lemma storage_res E onFull cached i e c :
  total (fun x => x) (flat_map (resAt i e) (storageStmts E onFull (cached c) c))
  == if (c =? i)%nat
     then (val (storage E c) e - startAmounts E onFull cached c e) * (volume E c / dt E) else 0.
Proof.
  unfold storageStmts, startAmounts. destruct (Nat.eqb_spec c i) as [->|N].
  - destruct (storageCache E), (iteration E); cbn [Nat.eqb Nat.ltb Nat.leb negb];
      try destruct (recycle E); try destruct onFull; cbn -[Qplus Qmult Qminus Qdiv];
      rewrite Nat.eqb_refl; cbn -[Qplus Qmult Qminus Qdiv]; unfold scaleV, subV; lra.
  - apply Nat.eqb_neq in N. destruct (storageCache E), (iteration E); cbn [Nat.eqb];
      try destruct (recycle E); try destruct onFull; cbn; rewrite N; reflexivity.
Qed.

Lemma storage_blk E onFull old i j e p c :
  total (fun x => x) (flat_map (blkAt i j e p) (storageStmts E onFull old c))
  == if ((i =? c)%nat && (j =? c)%nat)%bool then der (storage E c) e p * (volume E c / dt E) else 0.
Proof.
  unfold storageStmts. destruct ((i =? c)%nat && (j =? c)%nat)%bool eqn:X;
    destruct (storageCache E), (iteration E); cbn [Nat.eqb];
      try destruct (recycle E); try destruct onFull; cbn -[Qplus Qmult Qminus Qdiv];
      rewrite X; cbn -[Qplus Qmult Qminus Qdiv]; unfold scaleM; lra.
Qed.

Lemma source_res E i e c :
  total (fun x => x) (flat_map (resAt i e) (sourceStmts E c))
  == if (c =? i)%nat then - (volume E c * val (source E c) e) else 0.
Proof.
  unfold sourceStmts. cbn -[Qplus Qmult Qopp]. destruct (c =? i)%nat; cbn -[Qplus Qmult Qopp]; unfold scaleV; lra.
Qed.

Lemma source_blk E i j e p c :
  total (fun x => x) (flat_map (blkAt i j e p) (sourceStmts E c))
  == if ((i =? c)%nat && (j =? c)%nat)%bool then - (volume E c * der (source E c) e p) else 0.
Proof.
  unfold sourceStmts. cbn -[Qplus Qmult Qopp].
  destruct ((i =? c)%nat && (j =? c)%nat)%bool; cbn -[Qplus Qmult Qopp]; unfold scaleM; lra.
Qed.

(** The balance without wells and boundary. *)
Definition inside (E : env) (nbs : nat -> list nat) (start : nat -> vec) (i e : nat) : Q :=
  total (fun kj => val (flux E i (fst kj) (snd kj)) e) (numbered (nbs i))
  + (val (storage E i) e - start i e) * (volume E i / dt E)
  - volume E i * val (source E i) e.

Definition row (s : lin) (i : nat) : list nat := nth i (neighborInfo s) [].

Lemma cell_res E onFull s i e c :
  total (fun x => x) (flat_map (resAt i e) (cellStmts E onFull s c))
  == if (c =? i)%nat then inside E (row s) (startAmounts E onFull (cached1 s)) c e else 0.
Proof.
  unfold cellStmts. rewrite !flat_map_app, !total_app, flux_res, storage_res, source_res.
  unfold inside, row. destruct (c =? i)%nat; lra.
Qed.

Lemma cell_blk E onFull s i j e p c :
  total (fun x => x) (flat_map (blkAt i j e p) (cellStmts E onFull s c))
  == if (j =? c)%nat then (if (i =? c)%nat then ownBlock E (row s) c e p else 0) + otherBlock E (row s) i c e p
     else 0.
Proof.
  unfold cellStmts. rewrite !flat_map_app, !total_app, flux_blk, storage_blk, source_blk.
  unfold ownBlock, otherBlock, row. destruct (j =? c)%nat, (i =? c)%nat; cbn [andb]; lra.
Qed.

Lemma cells_res E onFull s i e cells : NoDup cells ->
  total (fun x => x) (flat_map (resAt i e) (flat_map (cellStmts E onFull s) cells))
  == if existsb (Nat.eqb i) cells then inside E (row s) (startAmounts E onFull (cached1 s)) i e else 0.
Proof.
  intros D. rewrite flat_flat, total_flat, <- (total_pick (fun c => inside E (row s) (startAmounts E onFull (cached1 s)) c e)) by assumption.
  apply total_ext. intros c _. apply cell_res.
Qed.

Lemma cells_blk E onFull s i j e p cells : NoDup cells ->
  total (fun x => x) (flat_map (blkAt i j e p) (flat_map (cellStmts E onFull s) cells))
  == if existsb (Nat.eqb j) cells
     then (if (i =? j)%nat then ownBlock E (row s) i e p else 0) + otherBlock E (row s) i j e p else 0.
Proof.
  intros D. rewrite flat_flat, total_flat.
  rewrite (total_ext _ (fun c => if (c =? j)%nat then (if (i =? c)%nat then ownBlock E (row s) c e p else 0)
                                   + otherBlock E (row s) i c e p else 0)).
  - rewrite (total_pick (fun c => (if (i =? c)%nat then ownBlock E (row s) c e p else 0) + otherBlock E (row s) i c e p)) by assumption.
    destruct (existsb (Nat.eqb j) cells); [|reflexivity].
    destruct (Nat.eqb_spec i j) as [->|]; reflexivity.
  - intros c _. rewrite cell_blk, (Nat.eqb_sym c j). reflexivity.
Qed.

Lemma extra_res E s i e :
  total (fun x => x) (flat_map (resAt i e) (extraStmts E s)) == extraResidual E (boundaryInfo s) i e.
Proof.
  unfold extraStmts, extraResidual. rewrite flat_map_app, total_app. apply Qplus_comp.
  - destruct (separateSources E); [|reflexivity]. rewrite flat_flat, total_flat. apply total_ext.
    intros w _. cbn. destruct (fst w =? i)%nat; cbn; lra.
  - rewrite flat_flat, total_flat. apply total_ext.
    intros b _. destruct (boundaryFlux E (fst b) (snd b)); cbn; destruct (fst b =? i)%nat; cbn; lra.
Qed.

Lemma extra_blk E s i j e p :
  total (fun x => x) (flat_map (blkAt i j e p) (extraStmts E s))
  == if (i =? j)%nat then extraBlock E (boundaryInfo s) i e p else 0.
Proof.
  unfold extraStmts, extraBlock. rewrite flat_map_app, total_app.
  assert (W : forall (c : nat) (b : Q), total (fun x => x) (if ((i =? c)%nat && (j =? c)%nat)%bool then [b] else [])
              == if (i =? j)%nat then if (c =? i)%nat then b else 0 else 0).
  { intros c b. rewrite (Nat.eqb_sym c i). destruct (Nat.eqb_spec i j) as [->|N].
    - destruct (j =? c)%nat; cbn; lra.
    - destruct (Nat.eqb_spec i c) as [->|], (Nat.eqb_spec j c) as [->|]; cbn; try reflexivity. congruence. }
  assert (Z : forall A (f : A -> Q) (l : list A), (if (i =? j)%nat then total f l else 0)
              == total (fun a => if (i =? j)%nat then f a else 0) l).
  { intros A f l. destruct (i =? j)%nat; [reflexivity|]. rewrite total_zero by (intros; reflexivity). reflexivity. }
  transitivity ((if (i =? j)%nat then if separateSources E
     then total (fun w => if (fst w =? i)%nat then der (snd w) e p else 0) (wells E) else 0 else 0)
    + (if (i =? j)%nat then total (fun b => if (fst b =? i)%nat
                    then match boundaryFlux E (fst b) (snd b) with Some f => der f e p | None => 0 end
                    else 0) (boundaryInfo s) else 0)); [|destruct (i =? j)%nat; lra].
  apply Qplus_comp.
  - destruct (separateSources E); [|now destruct (i =? j)%nat]. rewrite flat_flat, total_flat, Z. apply total_ext.
    intros w _. cbn [flat_map resAt blkAt app]. rewrite !app_nil_r. apply W.
  - rewrite flat_flat, total_flat, Z. apply total_ext.
    intros b _. destruct (boundaryFlux E (fst b) (snd b)).
    + cbn [flat_map resAt blkAt app]. rewrite !app_nil_r. apply W.
    + cbn. destruct (i =? j)%nat, (fst b =? i)%nat; reflexivity.
Qed.

(** All loops of [linearize_]. *)
Lemma linearizeCells_result n aux E cells s a : NoDup cells ->
  linearizeCells n aux E cells s = Ok a ->
  (forall i e, residual a i e == residual s i e
     + (if existsb (Nat.eqb i) cells
        then inside E (row s) (startAmounts E (length cells =? n + aux)%nat (cached1 s)) i e else 0)
     + extraResidual E (boundaryInfo s) i e) /\
  (forall i j, hasBlock a i j <-> hasBlock s i j) /\
  (forall i j e p, hasBlock s i j -> entryOf a i j e p == entryOf s i j e p
     + (if existsb (Nat.eqb j) cells
        then (if (i =? j)%nat then ownBlock E (row s) i e p else 0) + otherBlock E (row s) i j e p else 0)
     + (if (i =? j)%nat then extraBlock E (boundaryInfo s) i e p else 0)) /\
  sameTables a s.
Proof.
  intros D H. unfold linearizeCells in H.
  destruct (negb (recycle E) && negb (intQuantsCache E) && negb (storageCache E))%bool; [discriminate|].
  destruct (existsb _ cells); [discriminate|]. unfold numTotalDof in H.
  set (f := (length cells =? n + aux)%nat) in *. injection H as <-.
  rewrite loop_stmts by assumption.
  set (l := flat_map (cellStmts E f s) cells). set (s1 := fold_left exec l s).
  assert (T : sameTables s1 s) by apply tables_exec. destruct T as (T1 & T2 & T3 & T4).
  split; [|split; [|split]].
  - intros i e. rewrite residual_exec, fold_plus, extra_res, T2. subst s1.
    rewrite residual_exec, fold_plus. subst l. rewrite cells_res by assumption. reflexivity.
  - intros. rewrite hasBlock_exec. subst s1. rewrite hasBlock_exec. reflexivity.
  - intros i j e p B. rewrite entry_exec by (subst s1; now rewrite hasBlock_exec).
    rewrite fold_plus, extra_blk, T2. subst s1.
    rewrite entry_exec, fold_plus by assumption. subst l. rewrite cells_blk by assumption. reflexivity.
  - eapply sameTables_trans; [apply tables_exec|]. repeat split; auto; tauto.
Qed.

(* ----- resetting ----- *)

Lemma resetAll_result s a : resetAll s = Ok a ->
  (forall i e, residual a i e = 0) /\ (forall i j, hasBlock a i j <-> hasBlock s i j) /\
  (forall i j e p, entryOf a i j e p = 0) /\ sameTables a s /\ (forall i, cached1 a i = cached1 s i).
Proof.
  unfold resetAll. destruct (jacobian s) as [m|] eqn:J; [|discriminate]. intros H. injection H as <-.
  split; [reflexivity|]. split; [|split; [|split]].
  - intros. unfold hasBlock. cbn. rewrite J. split.
    + intros (m' & b & E & B). injection E as <-. destruct (m i j) eqn:M; [|discriminate]. eauto.
    + intros (m' & b & E & B). injection E as <-.
      exists (fun i j => match m i j with Some _ => Some zeroM | None => None end), zeroM. now rewrite B.
  - intros. unfold entryOf. cbn. destruct (m i j); reflexivity.
  - repeat split; auto; cbn; intros; congruence.
  - reflexivity.
Qed.

Lemma clear_rows cells : forall m i j, fold_left clearRow cells m i j =
  if existsb (Nat.eqb i) cells then match m i j with Some _ => Some zeroM | None => None end else m i j.
Proof.
  induction cells as [|c cells IH]; intros m i j; [reflexivity|]. cbn [fold_left existsb]. rewrite IH.
  unfold clearRow. destruct (i =? c)%nat; cbn [orb]; [|reflexivity].
  destruct (existsb (Nat.eqb i) cells), (m i j); reflexivity.
Qed.

Lemma clear_residual cells : forall r i, fold_left (fun r i => at_ r i zeroV) cells r i =
  if existsb (Nat.eqb i) cells then zeroV else r i.
Proof.
  induction cells as [|c cells IH]; intros r i; [reflexivity|]. cbn [fold_left existsb]. rewrite IH.
  unfold at_. destruct (i =? c)%nat; cbn [orb]; [|reflexivity].
  now destruct (existsb (Nat.eqb i) cells).
Qed.

Lemma resetCells_result cells s a : resetCells cells s = Ok a ->
  (forall i e, residual a i e = if existsb (Nat.eqb i) cells then 0 else residual s i e) /\
  (forall i j, hasBlock a i j <-> hasBlock s i j) /\
  (forall i j e p, entryOf a i j e p = if existsb (Nat.eqb i) cells then 0 else entryOf s i j e p) /\
  sameTables a s /\ (forall i, cached1 a i = cached1 s i).
Proof.
  unfold resetCells. destruct (jacobian s) as [m|] eqn:J; [|discriminate]. intros H. injection H as <-.
  split; [|split; [|split; [|split]]].
  - intros. cbn. rewrite clear_residual. now destruct (existsb (Nat.eqb i) cells).
  - intros. unfold hasBlock. cbn. rewrite J. split.
    + intros (m' & b & E & B). injection E as <-. rewrite clear_rows in B.
      destruct (existsb (Nat.eqb i) cells); [|eauto]. destruct (m i j) eqn:M; [|discriminate]. eauto.
    + intros (m' & b & E & B). injection E as <-. eexists. 
      destruct (existsb (Nat.eqb i) cells) eqn:X.
      * exists zeroM. split; [reflexivity|]. rewrite clear_rows, X, B. reflexivity.
      * exists b. split; [reflexivity|]. rewrite clear_rows, X. assumption.
  - intros. unfold entryOf. cbn. rewrite J, clear_rows. 
    destruct (existsb (Nat.eqb i) cells), (m i j); reflexivity.
  - repeat split; auto; cbn; intros; congruence.
  - reflexivity.
Qed.

(* ----- creating the matrix ----- *)

Lemma numbered_filter {A B} (f : A -> B) (P : B -> bool) (Q' : A -> bool) l : forall a,
  (forall x, P (f x) = Q' x) ->
  map fst (filter (fun k => P (snd k)) (combine (seq a (length l)) (map f l)))
  = filter (fun k => match nth_error l (k - a) with Some i => Q' i | None => false end) (seq a (length l)).
Proof.
  induction l as [|x l IH]; intros a H; [reflexivity|]. cbn [length seq map combine filter snd].
  rewrite Nat.sub_diag. cbn [nth_error]. rewrite H.
  assert (R : filter (fun k => match nth_error (x :: l) (k - a) with Some i => Q' i | None => false end) (seq (S a) (length l))
     = filter (fun k => match nth_error l (k - S a) with Some i => Q' i | None => false end) (seq (S a) (length l))).
  { apply filter_ext_in. intros k I. apply in_seq in I. replace (k - a)%nat with (S (k - S a)) by lia. reflexivity. }
  rewrite R, <- (IH (S a) H). destruct (Q' x); reflexivity.
Qed.

Section Grid.
Variables (intersections : nat -> list intersection) (mapper : nat -> nat) (n : nat)
          (auxNeighbors : nat -> list nat) (nonTrivialBoundary : bool).
Hypothesis G : tpfaGrid intersections mapper n.

Definition nbsOf (c : nat) : list nat := behind (intersections c).
Definition bdyOf : list (nat * nat) :=
  if nonTrivialBoundary then flat_map (openFaces intersections) (seq 0 n) else [].

Lemma dofsOf_cell c : (c < n)%nat -> dofsOf intersections mapper c = c :: nbsOf c.
Proof.
  destruct G as (_ & M & N). intros H. unfold dofsOf, nbsOf. rewrite update_result. cbn [elements map].
  rewrite M by assumption. f_equal. rewrite <- (map_id (behind (intersections c))) at 2.
  apply map_ext_in. intros d I. apply M. now apply (N c).
Qed.

Lemma boundaryOf_cell c : (c < n)%nat -> boundaryOf intersections mapper c = openFaces intersections c.
Proof.
  destruct G as (_ & M & _). intros H. unfold boundaryOf, openFaces. rewrite update_result. cbn [boundaryFaces].
  rewrite (M c H), map_length.
  set (f := fun i => newFace i (2 ^ 32 - 10000)). set (l := outerOf (intersections c)).
  pose proof (numbered_filter f (fun x => negb (dirId x <? 0)%Z) (fun i => negb (indexInInside i <? 0)%Z) l 0
                (fun _ => eq_refl)) as E.
  transitivity (map (pair c) (map fst (filter (fun k => negb (dirId (snd k) <? 0)%Z)
                 (combine (seq 0 (length l)) (map f l))))).
  - rewrite map_map. reflexivity.
  - rewrite E. f_equal. apply filter_ext. intros k. rewrite Nat.sub_0_r. reflexivity.
Qed.

Lemma inPattern_iff i j : (i < n)%nat ->
  inPattern intersections mapper n auxNeighbors i j = true
  <-> j = i \/ In j (nbsOf i) \/ In j (auxNeighbors i).
Proof.
  destruct G as (_ & M & _). intros H. unfold inPattern. rewrite orb_true_iff, <- in_existsb, existsb_exists. split.
  - intros [(c & I & E)|I]; [|auto]. apply in_seq in I. apply andb_true_iff in E. destruct E as [E1 E2].
    rewrite M in E1 by lia. apply Nat.eqb_eq in E1. subst c. apply in_existsb in E2.
    rewrite dofsOf_cell in E2 by assumption. destruct E2; auto.
  - intros H'. assert (C : (j = i \/ In j (nbsOf i)) \/ In j (auxNeighbors i)) by tauto.
    destruct C as [C|C]; [left|now right]. exists i. split; [apply in_seq; lia|]. rewrite M by assumption.
    rewrite Nat.eqb_refl. cbn [andb]. apply in_existsb. rewrite dofsOf_cell by assumption.
    destruct C; [left|right]; auto.
Qed.

(** The state after the matrix was created once: the tables, and the matrix unless it was
    erased. *)
Definition created (s : lin) : Prop :=
  neighborInfo s = map nbsOf (seq 0 n) /\ boundaryInfo s = bdyOf /\ fullDomain s = seq 0 n /\
  (jacobian s <> None -> forall i j, hasBlock s i j <->
     (i < n)%nat /\ (j = i \/ In j (nbsOf i) \/ In j (auxNeighbors i))).
Definition fresh (s : lin) : Prop := neighborInfo s = [] /\ boundaryInfo s = [] /\ jacobian s = None.

Lemma map_tl_rows : map (fun e => tl (dofsOf intersections mapper e)) (seq 0 n) = map nbsOf (seq 0 n).
Proof. apply map_ext_in. intros c I. apply in_seq in I. rewrite dofsOf_cell by lia. reflexivity. Qed.

Lemma addresses_ok i : (i < n)%nat ->
  addressesOf intersections mapper n auxNeighbors (map nbsOf (seq 0 n)) i = Some true.
Proof.
  intros H. unfold addressesOf.
  rewrite (nth_error_nth' _ []) by (rewrite map_length, seq_length; assumption).
  rewrite (nth_indep _ [] (nbsOf 0)) by (rewrite map_length, seq_length; assumption).
  rewrite map_nth, seq_nth by assumption. cbn [Nat.add]. f_equal.
  apply andb_true_iff. split.
  - apply inPattern_iff; auto.
  - apply forallb_forall. intros j I. destruct G as (_ & _ & N). destruct (N i j H I) as (A & B & C).
    apply inPattern_iff; auto.
Qed.

Lemma create_fresh s : fresh s -> exists a,
  createMatrix intersections mapper n 0 auxNeighbors nonTrivialBoundary s = Ok a /\ created a /\
  jacobian a <> None /\ (forall i, cached1 a i = cached1 s i).
Proof.
  intros (F1 & F2 & F3). unfold createMatrix. rewrite F1, map_tl_rows, F2, app_nil_l. unfold numTotalDof.
  rewrite Nat.add_0_r.
  assert (C : map (addressesOf intersections mapper n auxNeighbors (map nbsOf (seq 0 n))) (seq 0 n)
              = map (fun _ => Some true) (seq 0 n)).
  { apply map_ext_in. intros i I. apply in_seq in I. apply addresses_ok. lia. }
  rewrite C.
  assert (X : forall (f : option bool -> bool) l, f (Some true) = false ->
              existsb f (map (fun _ : nat => Some true) l) = false).
  { intros f l Hf. induction l; cbn; [reflexivity|]. now rewrite Hf. }
  rewrite !X by reflexivity. eexists. split; [reflexivity|]. split; [|split; [discriminate|reflexivity]].
  unfold created. cbn [neighborInfo boundaryInfo fullDomain jacobian]. split; [reflexivity|].
  split; [|split; [reflexivity|]].
  - unfold bdyOf. destruct nonTrivialBoundary; [|reflexivity]. rewrite !flat_map_concat_map. f_equal.
    apply map_ext_in. intros c I. apply in_seq in I. apply boundaryOf_cell. lia.
  - intros _ i j. unfold hasBlock. cbn [jacobian]. split.
    + intros (m & b & E & B). injection E as <-.
      destruct ((i <? n)%nat && inPattern intersections mapper n auxNeighbors i j)%bool eqn:Y; [|discriminate].
      apply andb_true_iff in Y. destruct Y as [Y1 Y2]. apply Nat.ltb_lt in Y1. split; [assumption|].
      now apply inPattern_iff.
    + intros (A & B). apply (inPattern_iff i j A) in B. apply Nat.ltb_lt in A.
      eexists. eexists. split; [reflexivity|]. cbv beta. rewrite A, B. reflexivity.
Qed.

Lemma created_same a s : created s -> sameTables a s -> (forall i j, hasBlock a i j <-> hasBlock s i j) -> created a.
Proof.
  intros (A & B & C & D) (T1 & T2 & T3 & T4) H. unfold created. rewrite T1, T2, T3.
  do 3 (split; [assumption|]). intros J i j. rewrite H. apply D. tauto.
Qed.

Lemma init_fresh s : fresh s -> exists a,
  initFirstIteration intersections mapper n 0 auxNeighbors nonTrivialBoundary s = Ok a /\ created a /\
  jacobian a <> None /\ (forall i, cached1 a i = cached1 s i).
Proof.
  intros F. destruct (create_fresh s F) as (a & E & C & J & O). unfold initFirstIteration. rewrite E.
  destruct (resetAll a) as [b| | | |] eqn:R; try (unfold resetAll in R; destruct (jacobian a); congruence).
  destruct (resetAll_result a b R) as (_ & B & _ & T & O'). exists b. split; [reflexivity|]. split.
  - eapply created_same; eauto.
  - split; [|intros; now rewrite O']. destruct T as (_ & _ & _ & T). tauto.
Qed.

(** Once the matrix is erased, it is not created again. *)
Lemma init_erased s : created s -> jacobian s = None ->
  initFirstIteration intersections mapper n 0 auxNeighbors nonTrivialBoundary s = NoMatrix.
Proof.
  intros (C & _) J. destruct G as (P & _). unfold initFirstIteration, createMatrix. rewrite C.
  destruct n as [|k]; [lia|]. cbn [seq map]. unfold resetAll. now rewrite J.
Qed.

(** The domains a user may give: different cells of the grid. *)
Definition domainOk (domain : option (list nat)) : Prop :=
  match domain with Some c => NoDup c /\ Forall (fun i => (i < n)%nat) c | None => True end.

Definition chosen (domain : option (list nat)) : list nat :=
  match domain with Some c => c | None => seq 0 n end.

Lemma chosen_ok domain : domainOk domain -> NoDup (chosen domain) /\ Forall (fun i => (i < n)%nat) (chosen domain).
Proof.
  destruct domain as [c|]; cbn; [auto|]. intros _. split; [apply seq_NoDup|].
  apply Forall_forall. intros i I. apply in_seq in I. lia.
Qed.

Lemma full_contains cells i : NoDup cells -> Forall (fun i => (i < n)%nat) cells -> length cells = n ->
  (i < n)%nat -> In i cells.
Proof.
  intros D F L H. assert (I : incl (seq 0 n) cells).
  { apply NoDup_length_incl; [assumption|rewrite seq_length; lia|].
    intros x X. rewrite Forall_forall in F. apply in_seq. specialize (F x X). lia. }
  apply I. apply in_seq. lia.
Qed.

Lemma row_created s i : created s -> (i < n)%nat -> row s i = nbsOf i.
Proof.
  intros (C & _) H. unfold row. rewrite C.
  rewrite (nth_indep _ [] (nbsOf 0)) by (rewrite map_length, seq_length; assumption).
  rewrite map_nth, seq_nth by assumption. reflexivity.
Qed.

Lemma inside_ext E nbs nbs' st st' i e : nbs i = nbs' i -> st i e = st' i e ->
  inside E nbs st i e = inside E nbs' st' i e.
Proof. intros A B. unfold inside. now rewrite A, B. Qed.

Lemma otherBlock_own E i e p : (i < n)%nat -> otherBlock E nbsOf i i e p == 0.
Proof.
  intros H. unfold otherBlock. rewrite total_zero; [reflexivity|]. intros [k d] I. cbn [fst snd].
  destruct (Nat.eqb_spec d i) as [->|]; [|reflexivity]. exfalso.
  unfold numbered in I. apply in_combine_r in I. destruct G as (_ & _ & N). destruct (N i i H I) as (_ & A & _). congruence.
Qed.

(** A successful call. *)
Lemma linearize_ok E domain s : fresh s \/ (created s /\ jacobian s <> None) -> domainOk domain ->
  (recycle E || intQuantsCache E || storageCache E)%bool = true ->
  exists a, linearizeDomain intersections mapper n 0 auxNeighbors nonTrivialBoundary E domain s = Ok a.
Proof.
  intros S D R. unfold linearizeDomain.
  assert (I : exists b, match jacobian s with None => initFirstIteration intersections mapper n 0 auxNeighbors nonTrivialBoundary s
                        | Some _ => Ok s end = Ok b /\ created b /\ jacobian b <> None).
  { destruct S as [F|(C & J)].
    - destruct (init_fresh s F) as (b & E1 & C & J & _). destruct F as (_ & _ & ->). eauto.
    - destruct (jacobian s) eqn:X; [|congruence]. exists s. rewrite X. auto. }
  destruct I as (b & -> & C & J).
  assert (F : fullDomain b = seq 0 n) by apply C. rewrite F. fold (chosen domain).
  destruct (chosen_ok domain D) as (ND & FA).
  assert (X : exists d, (if (length (chosen domain) =? numTotalDof n 0)%nat then resetAll b else resetCells (chosen domain) b) = Ok d
                        /\ sameTables d b).
  { destruct (length (chosen domain) =? numTotalDof n 0)%nat.
    - destruct (resetAll b) as [d| | | |] eqn:R'; try (unfold resetAll in R'; destruct (jacobian b); congruence).
      exists d. split; [reflexivity|]. now apply resetAll_result in R'.
    - destruct (resetCells (chosen domain) b) as [d| | | |] eqn:R'; try (unfold resetCells in R'; destruct (jacobian b); congruence).
      exists d. split; [reflexivity|]. now apply resetCells_result in R'. }
  destruct X as (d & -> & T). unfold linearizeCells.
  destruct (recycle E), (intQuantsCache E), (storageCache E); try discriminate R; cbn [negb andb];
  (destruct (existsb _ (chosen domain)) eqn:Y; [exfalso|eauto]);
  apply existsb_exists in Y; destruct Y as (i & I1 & I2); apply Nat.leb_le in I2;
  rewrite Forall_forall in FA; specialize (FA i I1);
  destruct T as (T1 & _); rewrite T1 in I2; destruct C as (C1 & _); rewrite C1, map_length, seq_length in I2; lia.
Qed.

(** What a successful call does. *)
Lemma linearize_result E domain s a : fresh s \/ created s -> domainOk domain ->
  linearizeDomain intersections mapper n 0 auxNeighbors nonTrivialBoundary E domain s = Ok a ->
  created a /\ jacobian a <> None /\
  (forall i e, In i (chosen domain) ->
     residual a i e == balance E nbsOf bdyOf (startAmounts E (length (chosen domain) =? n)%nat (cached1 s)) i e) /\
  (forall i e p, In i (chosen domain) ->
     entryOf a i i e p == ownBlock E nbsOf i e p + extraBlock E bdyOf i e p) /\
  (forall i j e p, In i (chosen domain) -> i <> j ->
     entryOf a i j e p == if existsb (Nat.eqb j) (chosen domain) then otherBlock E nbsOf i j e p else 0) /\
  (jacobian s <> None -> forall i e, (i < n)%nat -> ~ In i (chosen domain) ->
     residual a i e == residual s i e + extraResidual E bdyOf i e) /\
  (jacobian s <> None -> forall i e p, (i < n)%nat -> ~ In i (chosen domain) ->
     entryOf a i i e p == entryOf s i i e p + extraBlock E bdyOf i e p) /\
  (jacobian s <> None -> forall i j e p, (i < n)%nat -> ~ In i (chosen domain) -> i <> j ->
     entryOf a i j e p == entryOf s i j e p
       + if existsb (Nat.eqb j) (chosen domain) then otherBlock E nbsOf i j e p else 0).
Proof.
  intros S D H. unfold linearizeDomain in H.
  assert (I : exists b, match jacobian s with None => initFirstIteration intersections mapper n 0 auxNeighbors nonTrivialBoundary s
                        | Some _ => Ok s end = Ok b /\ created b /\ jacobian b <> None /\
                        (forall i, cached1 b i = cached1 s i) /\ (jacobian s <> None -> b = s)).
  { destruct (jacobian s) eqn:J.
    - exists s. split; [reflexivity|]. destruct S as [(_ & _ & F)|C]; [congruence|].
      split; [assumption|]. split; [congruence|]. auto.
    - destruct S as [F|C].
      + destruct (init_fresh s F) as (b & E1 & C & J' & O). exists b. do 4 (split; [assumption|]). congruence.
      + rewrite (init_erased s C J) in H. discriminate. }
  destruct I as (b & Eb & Cb & Jb & Ob & Same). rewrite Eb in H.
  assert (F : fullDomain b = seq 0 n) by apply Cb. rewrite F in H. fold (chosen domain) in H.
  destruct (chosen_ok domain D) as (ND & FA). set (cells := chosen domain) in *.
  unfold numTotalDof in H. rewrite Nat.add_0_r in H.
  assert (X : exists d, (if (length cells =? n)%nat then resetAll b else resetCells cells b) = Ok d /\
    (forall i e, (i < n)%nat -> residual d i e = if existsb (Nat.eqb i) cells then 0 else residual b i e) /\
    (forall i j, hasBlock d i j <-> hasBlock b i j) /\
    (forall i j e p, (i < n)%nat -> entryOf d i j e p = if existsb (Nat.eqb i) cells then 0 else entryOf b i j e p) /\
    sameTables d b /\ (forall i, cached1 d i = cached1 b i)).
  { destruct (Nat.eqb_spec (length cells) n) as [L|L].
    - destruct (resetAll b) as [d| | | |] eqn:R'; try discriminate H. exists d. split; [reflexivity|].
      destruct (resetAll_result b d R') as (A1 & A2 & A3 & A4 & A5).
      split; [|split; [assumption|split; [|auto]]].
      + intros i e L'. rewrite A1, (proj1 (in_existsb i cells)); [reflexivity|]. now apply full_contains.
      + intros i j e p L'. rewrite A3, (proj1 (in_existsb i cells)); [reflexivity|]. now apply full_contains.
    - destruct (resetCells cells b) as [d| | | |] eqn:R'; try discriminate H. exists d. split; [reflexivity|].
      destruct (resetCells_result cells b d R') as (A1 & A2 & A3 & A4 & A5). auto 10. }
  destruct X as (d & Ed & Rd & Hd & Xd & Td & Od). rewrite Ed in H.
  assert (Cd : created d) by (eapply created_same; eauto).
  destruct (linearizeCells_result n 0 E cells d a ND H) as (Ra & Ha & Xa & Ta).
  rewrite Nat.add_0_r in Ra.
  assert (Ca : created a) by (eapply created_same; eauto).
  assert (Ja : jacobian a <> None) by (destruct Td as (_ & _ & _ & T), Ta as (_ & _ & _ & T'); tauto).
  assert (Jd : jacobian d <> None) by (destruct Td as (_ & _ & _ & T); tauto).
  assert (Bd : boundaryInfo d = bdyOf) by apply Cd.
  assert (BL : forall i j, hasBlock d i j <-> (i < n)%nat /\ (j = i \/ In j (nbsOf i) \/ In j (auxNeighbors i)))
    by (apply Cd; assumption).
  assert (IN : forall i, In i cells -> (i < n)%nat) by (rewrite Forall_forall in FA; auto).
  assert (ST : forall i e, startAmounts E (length cells =? n)%nat (cached1 d) i e
               = startAmounts E (length cells =? n)%nat (cached1 s) i e)
    by (intros; unfold startAmounts; now rewrite Od, Ob).
  (* any entry *)
  assert (EN : forall i j e p, (i < n)%nat -> entryOf a i j e p ==
     (if existsb (Nat.eqb i) cells then 0 else entryOf b i j e p)
     + (if existsb (Nat.eqb j) cells
        then (if (i =? j)%nat then ownBlock E nbsOf i e p else 0) + otherBlock E nbsOf i j e p else 0)
     + (if (i =? j)%nat then extraBlock E bdyOf i e p else 0)).
  { intros i j e p L.
    assert (OW : ownBlock E (row d) i e p = ownBlock E nbsOf i e p)
      by (unfold ownBlock; now rewrite (row_created d i Cd L)).
    assert (OT : (j < n)%nat -> otherBlock E (row d) i j e p = otherBlock E nbsOf i j e p)
      by (intros L'; unfold otherBlock; now rewrite (row_created d j Cd L')).
    destruct (hasBlock_dec d i j) as [B|B].
    - rewrite Xa by assumption. rewrite Xd by assumption. rewrite Bd, OW.
      destruct (existsb (Nat.eqb j) cells) eqn:X; [|reflexivity].
      rewrite OT; [reflexivity|]. apply IN. now apply in_existsb.
    - rewrite entry_none by now rewrite Ha.
      assert (N : j <> i /\ ~ In j (nbsOf i)) by (rewrite BL in B; tauto).
      destruct N as (N1 & N2). destruct (Nat.eqb_spec i j) as [->|N]; [congruence|].
      assert (Z : entryOf b i j e p = 0) by (apply entry_none; now rewrite <- Hd).
      rewrite Z. assert (O : existsb (Nat.eqb j) cells = true -> otherBlock E nbsOf i j e p == 0).
      { intros X. apply in_existsb, IN in X. unfold otherBlock. rewrite total_zero; [reflexivity|].
        intros [k c] I. cbn [fst snd]. destruct (Nat.eqb_spec c i) as [->|]; [|reflexivity]. exfalso.
        unfold numbered in I. apply in_combine_r in I. destruct G as (_ & _ & M).
        destruct (M j i X I) as (_ & _ & M'). now apply N2. }
      destruct (existsb (Nat.eqb i) cells), (existsb (Nat.eqb j) cells); try rewrite O by reflexivity; lra. }
  assert (RE : forall i e, (i < n)%nat -> residual a i e ==
     (if existsb (Nat.eqb i) cells then inside E nbsOf (startAmounts E (length cells =? n)%nat (cached1 s)) i e
      else residual b i e) + extraResidual E bdyOf i e).
  { intros i e L. rewrite Ra, Rd, Bd by assumption.
    rewrite (inside_ext E (row d) nbsOf _ (startAmounts E (length cells =? n)%nat (cached1 s)) i e (row_created d i Cd L) (ST i e)).
    destruct (existsb (Nat.eqb i) cells); lra. }
  split; [assumption|]. split; [assumption|]. split; [|split; [|split; [|split; [|split]]]].
  - intros i e I. rewrite RE by auto. rewrite (proj1 (in_existsb i cells) I). unfold inside, balance. lra.
  - intros i e p I. rewrite EN by auto. rewrite (proj1 (in_existsb i cells) I), Nat.eqb_refl.
    rewrite otherBlock_own by auto. lra.
  - intros i j e p I N. rewrite EN by auto. rewrite (proj1 (in_existsb i cells) I).
    apply Nat.eqb_neq in N. rewrite N. destruct (existsb (Nat.eqb j) cells); lra.
  - intros J i e L N. rewrite RE by auto. rewrite (proj1 (notin_existsb i cells) N), (Same J). reflexivity.
  - intros J i e p L N. rewrite EN by auto. rewrite (proj1 (notin_existsb i cells) N), (Same J), Nat.eqb_refl. lra.
  - intros J i j e p L N N'. rewrite EN by auto. rewrite (proj1 (notin_existsb i cells) N), (Same J).
    apply Nat.eqb_neq in N'. rewrite N'. destruct (existsb (Nat.eqb j) cells); lra.
Qed.

(** What a call leaves in the cache of the storage terms. *)
Lemma cells_cached1 E onFull cells s i : NoDup cells ->
  cached1 (fold_left exec (flat_map (cellStmts E onFull s) cells) s) i
  = if (storageCache E && existsb (Nat.eqb i) cells)%bool then startAmounts E onFull (cached1 s) i else cached1 s i.
Proof.
  intros D. rewrite cached1_exec.
  assert (F : flat_map (oldAt i) (flat_map (cellStmts E onFull s) cells)
              = if existsb (Nat.eqb i) cells then flat_map (oldAt i) (cellStmts E onFull s i) else []).
  { rewrite <- map_snd_flat. apply (inter_flat cells (cellStmts E onFull s)).
    - intros c. apply cell_ofCell.
    - intros c. apply part_of_flat. exact D.
    - intros d t T N. apply (other_old d); auto. }
  rewrite F. destruct (existsb (Nat.eqb i) cells) eqn:X; [|rewrite andb_false_r; reflexivity]. rewrite andb_true_r.
  unfold cellStmts. rewrite !flat_map_app.
  assert (Z : flat_map (oldAt i) (fluxStmts E i (nth i (neighborInfo s) [])) = []).
  { unfold fluxStmts. rewrite flat_flat. apply flat_nil. reflexivity. }
  rewrite Z. cbn [sourceStmts flat_map oldAt app]. rewrite app_nil_r.
  unfold storageStmts, startAmounts. destruct (storageCache E); cbn [negb]; [|reflexivity].
  destruct (iteration E) as [|k]; cbn [Nat.eqb Nat.ltb Nat.leb]; [|reflexivity].
  destruct (recycle E); cbn [negb]; [destruct onFull|]; cbn [app flat_map oldAt]; try rewrite Nat.eqb_refl; reflexivity.
Qed.
Lemma cells_cached0 E onFull cells s i : NoDup cells ->
  cached0 (fold_left exec (flat_map (cellStmts E onFull s) cells) s) i
  = if (storageCache E && existsb (Nat.eqb i) cells)%bool then val (storage E i) else cached0 s i.
Proof.
  intros D. rewrite cached0_exec.
  assert (F : flat_map (newAt i) (flat_map (cellStmts E onFull s) cells)
              = if existsb (Nat.eqb i) cells then flat_map (newAt i) (cellStmts E onFull s i) else []).
  { rewrite <- map_snd_flat. apply (inter_flat cells (cellStmts E onFull s)).
    - intros c. apply cell_ofCell.
    - intros c. apply part_of_flat. exact D.
    - intros d t T N. apply (other_new d); auto. }
  rewrite F. destruct (existsb (Nat.eqb i) cells) eqn:X; [|rewrite andb_false_r; reflexivity]. rewrite andb_true_r.
  unfold cellStmts. rewrite !flat_map_app.
  assert (Z : flat_map (newAt i) (fluxStmts E i (nth i (neighborInfo s) [])) = []).
  { unfold fluxStmts. rewrite flat_flat. apply flat_nil. reflexivity. }
  rewrite Z. cbn [sourceStmts flat_map newAt app]. rewrite app_nil_r.
  unfold storageStmts. destruct (storageCache E); [|reflexivity].
  destruct (iteration E) as [|k]; cbn [Nat.eqb];
    [destruct (recycle E); [destruct onFull|]|]; cbn [app flat_map newAt]; rewrite Nat.eqb_refl; reflexivity.
Qed.

Lemma linearize_caches E domain s a : fresh s \/ created s -> domainOk domain ->
  linearizeDomain intersections mapper n 0 auxNeighbors nonTrivialBoundary E domain s = Ok a ->
  forall i,
  cached1 a i = (if (storageCache E && existsb (Nat.eqb i) (chosen domain))%bool
                 then startAmounts E (length (chosen domain) =? n)%nat (cached1 s) i else cached1 s i) /\
  cached0 a i = (if (storageCache E && existsb (Nat.eqb i) (chosen domain))%bool then val (storage E i) else cached0 s i).
Proof.
  intros S D H i. unfold linearizeDomain in H.
  assert (I : exists b, match jacobian s with None => initFirstIteration intersections mapper n 0 auxNeighbors nonTrivialBoundary s
                        | Some _ => Ok s end = Ok b /\ created b /\ cached1 b = cached1 s /\ cached0 b = cached0 s).
  { destruct (jacobian s) eqn:J.
    - exists s. split; [reflexivity|]. destruct S as [(_ & _ & F)|C]; [congruence|]. auto.
    - destruct S as [F|C].
      + destruct (init_fresh s F) as (b & E1 & C & J' & _). exists b. split; [assumption|]. split; [assumption|].
        unfold initFirstIteration, createMatrix in E1. destruct (neighborInfo s).
        * destruct (existsb _ _); [discriminate|]. destruct (existsb _ _); [discriminate|].
          cbn [resetAll jacobian] in E1. injection E1 as <-. split; reflexivity.
        * unfold resetAll in E1. rewrite J in E1. discriminate.
      + rewrite (init_erased s C J) in H. discriminate. }
  destruct I as (b & Eb & Cb & O1 & O0). rewrite Eb in H.
  assert (F : fullDomain b = seq 0 n) by apply Cb. rewrite F in H. fold (chosen domain) in H.
  destruct (chosen_ok domain D) as (ND & FA). set (cells := chosen domain) in *.
  unfold numTotalDof in H. rewrite Nat.add_0_r in H.
  assert (X : exists d, (if (length cells =? n)%nat then resetAll b else resetCells cells b) = Ok d /\
    cached1 d = cached1 b /\ cached0 d = cached0 b).
  { destruct (length cells =? n)%nat.
    - unfold resetAll in *. destruct (jacobian b); [|discriminate]. eexists. split; [reflexivity|]. split; reflexivity.
    - unfold resetCells in *. destruct (jacobian b); [|discriminate]. eexists. split; [reflexivity|]. split; reflexivity. }
  destruct X as (d & Ed & D1 & D0). rewrite Ed in H. rewrite <- O1, <- O0, <- D1, <- D0. clear Ed D1 D0.
  unfold linearizeCells in H. destruct (negb _ && _ && _)%bool; [discriminate|]. destruct (existsb _ cells); [discriminate|].
  unfold numTotalDof in H. rewrite Nat.add_0_r in H. injection H as <-. rewrite loop_stmts by exact ND.
  set (s1 := fold_left exec _ d).
  assert (N1 : flat_map (oldAt i) (extraStmts E s1) = []).
  { unfold extraStmts. rewrite flat_map_app.
    match goal with |- ?x ++ _ = _ => assert (Z : x = []) end.
    { destruct (separateSources E); [|reflexivity]. rewrite flat_flat. apply flat_nil. reflexivity. }
    rewrite Z. rewrite flat_flat. apply flat_nil. intros x _. destruct (boundaryFlux E (fst x) (snd x)); reflexivity. }
  assert (N0 : flat_map (newAt i) (extraStmts E s1) = []).
  { unfold extraStmts. rewrite flat_map_app.
    match goal with |- ?x ++ _ = _ => assert (Z : x = []) end.
    { destruct (separateSources E); [|reflexivity]. rewrite flat_flat. apply flat_nil. reflexivity. }
    rewrite Z. rewrite flat_flat. apply flat_nil. intros x _. destruct (boundaryFlux E (fst x) (snd x)); reflexivity. }
  rewrite cached1_exec, cached0_exec, N1, N0. cbn [fold_left]. unfold s1.
  split; [apply cells_cached1|apply cells_cached0]; exact ND.
Qed.

(** The states a user can reach. *)
Definition usesOk (us : list use) : Prop :=
  Forall (fun u => match u with Linearize _ d => domainOk d | Erase => True end) us.

Lemma reached us : forall s o, usesOk us -> fresh s \/ created s ->
  reaches intersections mapper n 0 auxNeighbors nonTrivialBoundary s us o ->
  forall a, o = Ok a -> fresh a \/ created a.
Proof.
  induction us as [|u us IH]; intros s o U S R a ->.
  - inversion R; subst. assumption.
  - inversion U; subst. inversion R; subst.
    + apply (IH (eraseMatrix s) (Ok a) H2); [|eassumption|reflexivity]. destruct S as [(A & B & C)|(A & B & C & D)].
      * left. repeat split; auto.
      * right. do 3 (split; [assumption|]). cbn. congruence.
    + match goal with L : linearizeDomain _ _ _ _ _ _ _ _ _ = Ok _ |- _ =>
        destruct (linearize_result E d s s' S H1 L) as (C & _) end.
      apply (IH s' (Ok a)); auto.
    + exfalso. match goal with X : forall s', Ok ?b <> Ok s' |- _ => eapply X; reflexivity
                | X : forall s', ?b <> Ok s' |- _ => eapply X; eauto end.
Qed.
End Grid.

(* ----- derivatives ----- *)

Lemma derivative_ext f g a b : (forall h, f h == g h) -> a == b -> derivative f a -> derivative g b.
Proof.
  intros H A D eps P. destruct (D eps P) as (delta & Pd & B). exists delta. split; [assumption|].
  intros h L. rewrite <- !H, <- A. now apply B.
Qed.

Lemma derivative_const f : (forall h, f h == f 0) -> derivative f 0.
Proof.
  intros H eps P. exists 1. split; [lra|]. intros h _. rewrite H.
  setoid_replace (f 0 - f 0 - 0 * h) with 0 by lra. cbn.
  apply Qmult_le_0_compat; [lra|apply Qabs_nonneg].
Qed.

Lemma derivative_plus f g a b : derivative f a -> derivative g b -> derivative (fun h => f h + g h) (a + b).
Proof.
  intros F G eps P. assert (P2 : 0 < eps / 2) by (apply Qlt_shift_div_l; lra).
  destruct (F _ P2) as (d1 & D1 & B1), (G _ P2) as (d2 & D2 & B2).
  exists (Qmin d1 d2). split.
  - apply Q.min_glb_lt; assumption.
  - intros h L. assert (L1 : Qabs h < d1) by (eapply Qlt_le_trans; [exact L|apply Q.le_min_l]).
    assert (L2 : Qabs h < d2) by (eapply Qlt_le_trans; [exact L|apply Q.le_min_r]).
    specialize (B1 h L1). specialize (B2 h L2).
    setoid_replace (f h + g h - (f 0 + g 0) - (a + b) * h) with ((f h - f 0 - a * h) + (g h - g 0 - b * h)) by lra.
    eapply Qle_trans; [apply Qabs_triangle|].
    setoid_replace (eps * Qabs h) with (eps / 2 * Qabs h + eps / 2 * Qabs h) by field. lra.
Qed.

Lemma derivative_scale f a c : derivative f a -> derivative (fun h => c * f h) (c * a).
Proof.
  intros F eps P. assert (C : 0 < Qabs c + 1) by (pose proof (Qabs_nonneg c); lra).
  assert (Pe : 0 < eps / (Qabs c + 1)) by (apply Qlt_shift_div_l; lra).
  destruct (F _ Pe) as (d & D & B). exists d. split; [assumption|]. intros h L. specialize (B h L).
  setoid_replace (c * f h - c * f 0 - c * a * h) with (c * (f h - f 0 - a * h)) by lra.
  rewrite Qabs_Qmult.
  eapply Qle_trans with (Qabs c * (eps / (Qabs c + 1) * Qabs h)).
  - rewrite !(Qmult_comm (Qabs c)). apply Qmult_le_compat_r; [assumption|apply Qabs_nonneg].
  - rewrite Qmult_assoc. apply Qmult_le_compat_r; [|apply Qabs_nonneg].
    setoid_replace (Qabs c * (eps / (Qabs c + 1))) with ((Qabs c * eps) / (Qabs c + 1)) by (field; lra).
    apply Qle_shift_div_r; [assumption|]. pose proof (Qabs_nonneg c). lra.
Qed.

Lemma derivative_total {A} (f : A -> Q -> Q) (a : A -> Q) l :
  (forall x, In x l -> derivative (f x) (a x)) -> derivative (fun h => total (fun x => f x h) l) (total a l).
Proof.
  induction l as [|x l IH]; intros H.
  - apply derivative_const. reflexivity.
  - apply (derivative_plus (f x) _ (a x)); [apply H; now left|]. apply IH. intros y I. apply H. now right.
Qed.

(** The balance of a cell as a function of one variable of one cell. *)
Lemma balance_derivative nbs bdy (P : Q -> env) (st : Q -> nat -> vec) c e p :
  variation nbs bdy P c e p -> (forall h i, st h i e == st 0 i e) ->
  derivative (fun h => balance (P h) nbs bdy (st h) c e)
             (ownBlock (P 0) nbs c e p + extraBlock (P 0) bdy c e p).
Proof.
  intros V S.
  apply (derivative_ext
    (fun h => ((total (fun kj => val (flux (P h) c (fst kj) (snd kj)) e) (numbered (nbs c))
      + volume (P 0) c / dt (P 0) * val (storage (P h) c) e)
      + (- volume (P 0) c) * val (source (P h) c) e)
      + extraResidual (P h) bdy c e + (- st 0 c e * (volume (P 0) c / dt (P 0))))
    _ (((total (fun kj => der (flux (P 0) c (fst kj) (snd kj)) e p) (numbered (nbs c))
      + volume (P 0) c / dt (P 0) * der (storage (P 0) c) e p)
      + (- volume (P 0) c) * der (source (P 0) c) e p)
      + extraBlock (P 0) bdy c e p + 0)).
  - intros h. unfold balance. rewrite (far_volume _ _ _ _ _ _ V h c), (far_dt _ _ _ _ _ _ V h), (S h c). lra.
  - unfold ownBlock. lra.
  - apply derivative_plus; [|now apply derivative_const].
    apply derivative_plus; [|apply V]. apply derivative_plus; [|apply derivative_scale, V].
    apply derivative_plus; [|apply derivative_scale, V].
    apply (derivative_total (fun kj h => val (flux (P h) c (fst kj) (snd kj)) e)). intros [k j] I. now apply V.
Qed.

Lemma total_split {A} (b : A -> bool) (f : A -> Q) l :
  total f l == total (fun a => if b a then f a else 0) l + total (fun a => if b a then 0 else f a) l.
Proof.
  rewrite <- total_plus. apply total_ext. intros a _. destruct (b a); lra.
Qed.

Lemma balance_derivative_far nbs bdy (P : Q -> env) (st : Q -> nat -> vec) c i e p :
  variation nbs bdy P c e p -> (forall h i, st h i e == st 0 i e) -> i <> c ->
  derivative (fun h => balance (P h) nbs bdy (st h) i e) (otherBlock (P 0) nbs i c e p).
Proof.
  intros V S N.
  apply (derivative_ext
    (fun h => (-1) * total (fun kj => if (snd kj =? i)%nat then val (flux (P h) c (fst kj) i) e else 0) (numbered (nbs c))
      + (total (fun kj => if (snd kj =? c)%nat then 0 else val (flux (P 0) i (fst kj) (snd kj)) e) (numbered (nbs i))
         + (val (storage (P 0) i) e - st 0 i e) * (volume (P 0) i / dt (P 0))
         - volume (P 0) i * val (source (P 0) i) e + extraResidual (P 0) bdy i e))
    _ ((-1) * total (fun kj => if (snd kj =? i)%nat then der (flux (P 0) c (fst kj) i) e p else 0) (numbered (nbs c)) + 0)).
  - intros h. unfold balance.
    rewrite (far_volume _ _ _ _ _ _ V h i), (far_dt _ _ _ _ _ _ V h), (S h i), (far_storage _ _ _ _ _ _ V h i N),
      (far_source _ _ _ _ _ _ V h i N), (far_extra _ _ _ _ _ _ V h i N).
    rewrite (total_split (fun kj => (snd kj =? c)%nat) (fun kj => val (flux (P h) i (fst kj) (snd kj)) e)).
    rewrite (total_ext (fun a : nat * nat => if (snd a =? c)%nat then val (flux (P h) i (fst a) (snd a)) e else 0)
                       (fun kc => if (snd kc =? c)%nat then val (flux (P h) i (fst kc) c) e else 0)).
    + rewrite (equal_and_opposite _ _ _ _ _ _ V h i N).
      rewrite (total_ext (fun a : nat * nat => if (snd a =? c)%nat then 0 else val (flux (P h) i (fst a) (snd a)) e)
                         (fun kj => if (snd kj =? c)%nat then 0 else val (flux (P 0) i (fst kj) (snd kj)) e)).
      * lra.
      * intros [k j] I. cbn [fst snd]. destruct (Nat.eqb_spec j c) as [|M]; [reflexivity|].
        now apply (far_flux _ _ _ _ _ _ V).
    + intros [k j] _. cbn [fst snd]. destruct (Nat.eqb_spec j c) as [->|]; reflexivity.
  - unfold otherBlock. lra.
  - apply derivative_plus; [|now apply derivative_const]. apply derivative_scale.
    apply (derivative_total (fun kj h => if (snd kj =? i)%nat then val (flux (P h) c (fst kj) i) e else 0)).
    intros [k j] I. cbn [fst snd]. destruct (Nat.eqb_spec j i) as [->|]; [now apply V|now apply derivative_const].
Qed.
