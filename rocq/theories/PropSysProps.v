(** * Properties of the property system *)
From Verif Require Import PropSysModel PropSysSpec PropSysProofs.
From Coq Require Import Lia Relation_Operators Transitive_Closure.

(** ** C86: which specialization of a property a type tag gets *)
(** Instantiation ends exactly for hierarchies (of parents and splices) which are well-founded below the tag. *)
Theorem C86_ends_iff : forall E T, (exists fuel, getProp E fuel T <> TooDeep) <-> Acc (above E) T.
Proof.
  intros E T. split.
  - intros (fuel & H). apply (splices_acc E fuel [T]); [|now left]. intros F. apply H. unfold getProp. now rewrite F.
  - intros A. destruct (acc_visits1 (joined E) T (acc_joined E T A)) as (js & J).
    pose proof (splices_end E (length js) [T] js (length js) J eq_refl ltac:(discriminate) (le_n _)) as G.
    destruct (getSplices E (S (length js)) [T]) as [r| |] eqn:GS; [|exists (S (length js)); unfold getProp; rewrite GS; discriminate|contradiction].
    assert (AR : forall x, In x (T :: r) -> Acc (parent E) x).
    { intros x [<-|I]; [now apply acc_parent|]. apply acc_parent. apply (sees_acc E T); [exact A|].
      apply (splices_in E _ _ _ GS) in I as (t & u & [<-|[]] & S & I). eapply s_up; [exact S|]. now right. }
    destruct (acc_visits E (T :: r) AR) as (s & V). exists (S (length js) + S (length s)).
    unfold getProp. rewrite (more_splices E (S (length js)) _ [T]) by (try lia; rewrite GS; discriminate). rewrite GS.
    rewrite (getDefined_visits E s (T :: r)) by (try exact V; try discriminate; lia). unfold outcome.
    destruct (endsBad E s); [discriminate|]. destruct (find _ s); discriminate.
Qed.
Print Assumptions C86_ends_iff.
(** The property is found exactly if some tag which is inherited or spliced in has it, and what is found is that of such
    a tag; if there is none, the program does not compile. *)
Theorem C86_found_iff : forall E T, Acc (above E) T -> (forall u, sees E T u -> ~ emptyList E u) ->
  exists N, forall fuel, N <= fuel ->
    ((exists t, getProp E fuel T = Found t) <-> exists t, sees E T t /\ definedFor E t = true) /\
    (forall t, getProp E fuel T = Found t -> sees E T t /\ definedFor E t = true) /\
    ((forall t, sees E T t -> definedFor E t = false) -> getProp E fuel T = PropertyUndefined).
Proof.
  intros E T A B. destruct (getProp_exact E T A B) as (r & own & s & N & R & O & V & G). exists N. intros fuel F. rewrite (G fuel F).
  pose proof (visits_app E [T] r own s O V) as W. cbn [app] in W.
  assert (IN : forall x, In x (own ++ s) <-> sees E T x).
  { intros x. rewrite (visits_in E _ _ W x). split.
    - intros (t & [<-|I] & H); [now apply inherits_sees|]. apply R in I as (u & S & I). apply (sees_trans E T t); [|now apply inherits_sees].
      eapply s_up; [exact S|]. now right.
    - intros S. induction S as [|u p S IH [P|P]].
      + exists T. split; [now left|constructor].
      + destruct IH as (t & I & H). exists t. split; [exact I|]. eapply i_up; eauto.
      + exists p. split; [right; apply R; eauto|constructor]. }
  pose proof (find_first (definedFor E) (own ++ s)) as K. destruct (find (definedFor E) (own ++ s)) as [t|] eqn:FD.
  - assert (T0 : sees E T t /\ definedFor E t = true).
    { destruct K as (a & b & Q & D & _). split; [|exact D]. apply IN. rewrite Q. apply in_or_app. right. now left. }
    split; [split; eauto|]. split; [intros t' Q; injection Q as <-; exact T0|]. intros H. destruct T0 as (S & D). rewrite (H t S) in D. discriminate.
  - rewrite Forall_forall in K. split; [split; [intros (t & Q); discriminate|]|split; [discriminate|reflexivity]].
    intros (t & S & D). rewrite (K t) in D; [discriminate|]. now apply IN.
Qed.
Print Assumptions C86_found_iff.
(** The tag's own hierarchy comes first: if one of its tags has the property, the first in depth-first order, left to
    right, is taken, whatever the splices have. *)
Theorem C86_own_hierarchy_first : forall E T u, Acc (above E) T -> (forall u, sees E T u -> ~ emptyList E u) ->
  inherits E T u -> definedFor E u = true ->
  exists own t N, visits E [T] own /\ firstOf (definedFor E) t own /\ inherits E T t /\
    forall fuel, N <= fuel -> getProp E fuel T = Found t.
Proof.
  intros E T u A B I D. destruct (getProp_exact E T A B) as (r & own & s & N & R & O & V & G).
  assert (IO : forall x, In x own <-> inherits E T x).
  { intros x. rewrite (visits_in E _ _ O x). split; [intros (t & [<-|[]] & H); exact H|intros H; exists T; split; [now left|exact H]]. }
  pose proof (find_first (definedFor E) own) as K. destruct (find (definedFor E) own) as [t|] eqn:FD.
  - exists own, t, N. split; [exact O|]. split; [exact K|]. split.
    + apply IO. destruct K as (a & b & -> & _). apply in_or_app. right. now left.
    + intros fuel F. rewrite (G fuel F). rewrite (first_find (definedFor E) (own ++ s) t); [reflexivity|].
      destruct K as (a & b & -> & X & Y). exists a, (b ++ s). rewrite <- app_assoc. auto.
  - rewrite Forall_forall in K. rewrite (K u) in D; [discriminate|]. now apply IO.
Qed.
Print Assumptions C86_own_hierarchy_first.
(** A tag's own specialization wins over everything else. *)
Theorem C86_own_definition_wins : forall E T, Acc (above E) T -> (forall u, sees E T u -> ~ emptyList E u) ->
  definedFor E T = true -> exists N, forall fuel, N <= fuel -> getProp E fuel T = Found T.
Proof.
  intros E T A B D. destruct (getProp_exact E T A B) as (r & own & s & N & R & O & V & G). exists N. intros fuel F. rewrite (G fuel F).
  apply visits_step in O as (s' & -> & _). cbn [app find]. now rewrite D.
Qed.
Print Assumptions C86_own_definition_wins.
(** With single inheritance and no splices the nearest specialization is taken. *)
Lemma chain_tail E T own : (forall t ps, parents E t = Some ps -> length ps <= 1) -> visits E [T] own ->
  forall a t b, own = a ++ t :: b -> forall x, In x b -> inherits E t x.
Proof.
  intros C V a. revert T own V. induction a as [|y a IH]; intros T own V t b Q x I.
  - cbn in Q. subst own. apply visits_step in V as (s' & EQ & V). injection EQ as <- <-. rewrite app_nil_r in V.
    apply (visits_in E _ _ V) in I as (p & P & H). eapply inherits_trans; [|exact H]. eapply i_up; [constructor|]. now apply parent_ups.
  - apply visits_step in V as (s' & EQ & V). rewrite EQ in Q. injection Q as <- Q. rewrite app_nil_r in V. unfold ups in V.
    destruct (parents E T) as [ps|] eqn:EP; [|apply visits_nil in V; subst s'; destruct a; discriminate].
    specialize (C T ps EP). destruct ps as [|p [|p' ps]]; cbn in C; [apply visits_nil in V; subst s'; destruct a; discriminate| |lia].
    exact (IH p s' V t b Q x I).
Qed.
Lemma inherits_trans_parent E t u : inherits E t u -> t = u \/ clos_trans _ (parent E) u t.
Proof.
  induction 1 as [|v p H [->|K] P]; [now left|right; now constructor|right]. eapply t_trans; [constructor; exact P|exact K].
Qed.
Lemma acc_irrefl {A} (R : A -> A -> Prop) x : Acc R x -> ~ R x x.
Proof. induction 1 as [x _ IH]. intros H. exact (IH x H H). Qed.
Lemma acc_no_cycle E t u : Acc (parent E) t -> inherits E t u -> inherits E u t -> t = u.
Proof.
  intros A H1 H2. destruct (inherits_trans_parent E t u H1) as [K|K]; [exact K|]. destruct (inherits_trans_parent E u t H2) as [L|L]; [now symmetry|].
  exfalso. apply (acc_irrefl (clos_trans _ (parent E)) t); [now apply Acc_clos_trans|]. eapply t_trans; eauto.
Qed.
Theorem C86_nearest_in_chain : forall E T t fuel, Acc (above E) T -> (forall u, sees E T u -> ~ emptyList E u) ->
  (forall u ps, parents E u = Some ps -> length ps <= 1) -> (forall u, splices E u = []) ->
  getProp E fuel T = Found t -> forall u, inherits E T u -> inherits E u t -> u <> t -> definedFor E u = false.
Proof.
  intros E T t fuel A B C SP G u H1 H2 NE. destruct (getProp_exact E T A B) as (r & own & s & N & R & O & V & GE).
  assert (R0 : r = []).
  { destruct r as [|x r]; [reflexivity|]. destruct (proj1 (R x) (or_introl eq_refl)) as (v & _ & I). rewrite SP in I. destruct I. }
  subst r. apply visits_nil in V. subst s. rewrite app_nil_r in GE.
  assert (G' : getProp E (fuel + N) T = Found t).
  { unfold getProp in G |- *. destruct (getSplices E fuel [T]) as [r| |] eqn:GS; try discriminate.
    rewrite (more_splices E fuel _ [T]) by (try lia; rewrite GS; discriminate). rewrite GS.
    rewrite (more_defined E fuel (fuel + N)) by (try lia; destruct (getDefined E fuel (T :: r)); discriminate). exact G. }
  rewrite (GE (fuel + N) ltac:(lia)) in G'. destruct (find (definedFor E) own) as [t'|] eqn:FD; [|discriminate]. injection G' as ->.
  pose proof (find_first (definedFor E) own) as K. rewrite FD in K. destruct K as (a & b & Q & D & F). rewrite Forall_forall in F.
  assert (IU : In u own) by (apply (visits_in E _ _ O); exists T; split; [now left|exact H1]).
  rewrite Q in IU. apply in_app_or in IU as [I|[I|I]]; [now apply F|congruence|]. exfalso. apply NE.
  apply (acc_no_cycle E u t); [|exact H2|exact (chain_tail E T own C O a t b Q u I)].
  apply acc_parent. apply (sees_acc E T); [exact A|]. now apply inherits_sees.
Qed.
Print Assumptions C86_nearest_in_chain.
(** What a property is for a tag depends on the declarations for the tags it inherits or splices in, and on no others. *)
Theorem C86_local : forall E E' T fuel, (forall u, sees E T u -> sameAt E E' u) -> getProp E fuel T = getProp E' fuel T.
Proof.
  intros E E' T fuel H. unfold getProp. rewrite (getSplices_local E E' fuel [T]).
  - destruct (getSplices E' fuel [T]) as [r| |] eqn:GS; try reflexivity. rewrite (getDefined_local E E' fuel (T :: r)); [reflexivity|].
    rewrite <- (getSplices_local E E' fuel [T]) in GS by (intros t [<-|[]]; exact H).
    intros t [<-|I] u S; [apply H; now apply inherits_sees|]. apply H.
    apply (splices_in E _ _ _ GS) in I as (t0 & v & [<-|[]] & S0 & I). apply (sees_trans E T t); [eapply s_up; [exact S0|now right]|now apply inherits_sees].
  - intros t [<-|[]]. exact H.
Qed.
Print Assumptions C86_local.
(** GetSplicePropType: the tag's own hierarchy, then that of the splice; what either has is found. *)
Theorem C86_splice_property : forall E T s, Acc (parent E) T -> Acc (parent E) s ->
  (forall u, inherits E s u -> ~ emptyList E u) ->
  exists own other N, visits E [T] own /\ visits E [s] other /\ forall fuel, N <= fuel ->
    (forall t, getSpliceProp E fuel T s = Found t <-> firstOf (definedFor E) t (own ++ other)) /\
    (getSpliceProp E fuel T s = PropertyUndefined <-> forall t, inherits E T t \/ inherits E s t -> definedFor E t = false).
Proof.
  intros E T s AT AS B. destruct (acc_visits1 E T AT) as (own & O). destruct (acc_visits1 E s AS) as (other & V).
  pose proof (visits_app E [T] [s] own other O V) as W. cbn [app] in W.
  exists own, other, (S (length (own ++ other))). split; [exact O|]. split; [exact V|]. intros fuel F.
  unfold getSpliceProp. rewrite (getDefined_visits E _ _ fuel W) by (try discriminate; lia).
  unfold outcome. assert (NB : endsBad E (own ++ other) = false).
  { unfold endsBad. assert (NE : other <> []) by (apply (visits_nonempty E [s]); [exact V|discriminate]).
    assert (L : last (own ++ other) 0 = last other 0).
    { clear -NE. induction own as [|x own IH]; [reflexivity|]. cbn [app]. rewrite last_cons; [exact IH|]. destruct own; [exact NE|discriminate]. }
    rewrite L. pose proof (last_in other 0 NE) as I. apply (visits_in E _ _ V) in I as (x & [<-|[]] & I). specialize (B _ I). unfold emptyList in B.
    destruct (parents E (last other 0)) as [[|? ?]|]; congruence. }
  rewrite NB. pose proof (find_first (definedFor E) (own ++ other)) as K. destruct (find (definedFor E) (own ++ other)) as [t0|] eqn:FD.
  - split.
    + intros t. split; [intros Q; injection Q as <-; exact K|intros Q; apply first_find in Q; congruence].
    + split; [discriminate|]. intros H. exfalso. destruct K as (a & b & Q & D & _). rewrite H in D; [discriminate|].
      assert (I : In t0 (own ++ other)) by (rewrite Q; apply in_or_app; right; now left).
      apply (visits_in E _ _ W) in I as (x & [<-|[<-|[]]] & I); auto.
  - split.
    + intros t. split; [discriminate|]. intros Q. apply first_find in Q. congruence.
    + split; [|reflexivity]. intros _ t H. rewrite Forall_forall in K. apply K. apply (visits_in E _ _ W).
      destruct H as [H|H]; [exists T|exists s]; (split; [cbn; auto|exact H]).
Qed.
Print Assumptions C86_splice_property.
(** With two parents, a property of a base tag can hide that of a tag derived from it: 0 inherits from 1 and 2, both
    inherit from 3; 2 and 3 have the property, and 0 gets that of 3. *)
Definition diamond := mkTags (fun t => match t with 0 => Some [1; 2] | 1 => Some [3] | 2 => Some [3] | _ => None end)
                             (fun t => Nat.eqb t 2 || Nat.eqb t 3) (fun _ => []).
Theorem C86_diamond_refuted : ~ (forall E T, Acc (above E) T -> (forall u, sees E T u -> ~ emptyList E u) ->
  forall fuel t u, getProp E fuel T = Found t -> inherits E T u -> inherits E u t -> definedFor E u = true -> u = t).
Proof.
  intros H. assert (K : 2 = 3); [|discriminate].
  assert (A : Acc (above diamond) 0).
  { assert (A3 : Acc (above diamond) 3) by (constructor; intros y [(ps & Q & I)|I]; [discriminate|destruct I]).
    assert (A1 : Acc (above diamond) 1) by (constructor; intros y [(ps & Q & I)|I]; [injection Q as <-; destruct I as [<-|[]]; exact A3|destruct I]).
    assert (A2 : Acc (above diamond) 2) by (constructor; intros y [(ps & Q & I)|I]; [injection Q as <-; destruct I as [<-|[]]; exact A3|destruct I]).
    constructor; intros y [(ps & Q & I)|I]; [injection Q as <-; destruct I as [<-|[<-|[]]]; assumption|destruct I]. }
  assert (B : forall u, sees diamond 0 u -> ~ emptyList diamond u).
  { intros u _ F. unfold emptyList in F. destruct u as [|[|[|u]]]; cbn in F; discriminate. }
  apply (H diamond 0 A B 10 3 2); [reflexivity| | |reflexivity].
  - eapply i_up; [constructor|]. exists [1; 2]. split; [reflexivity|]. cbn; auto.
  - eapply i_up; [constructor|]. exists [3]. split; [reflexivity|]. cbn; auto.
Qed.
Print Assumptions C86_diamond_refuted.
(** A tag which declares to inherit from nothing cannot be used, even if it has the property itself. *)
Definition nothing := mkTags (fun _ => Some []) (fun _ => true) (fun _ => []).
Theorem C86_empty_inheritance_refuted : ~ (forall E T, Acc (above E) T -> definedFor E T = true ->
  exists fuel, getProp E fuel T = Found T).
Proof.
  intros H. destruct (H nothing 0) as (fuel & F); [constructor; intros y [(ps & Q & I)|I]; [injection Q as <-; destruct I|destruct I]|reflexivity|].
  destruct fuel as [|[|fuel]]; discriminate F.
Qed.
Print Assumptions C86_empty_inheritance_refuted.
(** Exactly when it fails: the last tag of the hierarchy in depth-first order declares an empty tuple. *)
Theorem C86_empty_inheritance_exact : forall E T own, visits E [T] own -> (forall u, inherits E T u -> splices E u = []) ->
  exists N, forall fuel, N <= fuel ->
    (getProp E fuel T = IncompleteType <-> exists x, lastOf x own /\ emptyList E x).
Proof.
  intros E T own V SP.
  assert (NE : own <> []) by (apply (visits_nonempty E [T]); [exact V|discriminate]).
  assert (L : (endsBad E own = true <-> exists x, lastOf x own /\ emptyList E x)).
  { unfold endsBad, emptyList. pose proof (app_removelast_last 0 NE) as Q. split.
    - intros H. exists (last own 0). split; [exists (removelast own); exact Q|]. destruct (parents E (last own 0)) as [[|? ?]|]; congruence.
    - intros (x & (l' & ->) & P). rewrite last_last, P. reflexivity. }
  exists (S (length own)). intros fuel F. unfold getProp.
  rewrite (getSplices_none E own [T] fuel V ltac:(discriminate)); [|intros t [<-|[]]; exact SP|lia].
  destruct (endsBad E own) eqn:EB.
  - split; [intros _; now apply L|reflexivity].
  - rewrite (getDefined_visits E own [T] fuel V) by (try discriminate; lia). unfold outcome. rewrite EB.
    split; [destruct (find _ own); discriminate|]. intros H. apply L in H. congruence.
Qed.
Print Assumptions C86_empty_inheritance_exact.

(** Examples. *)
Definition sample := mkTags (fun t => match t with 0 => Some [1] | 1 => Some [2] | 5 => Some [6] | _ => None end)
                            (fun t => Nat.eqb t 2 || Nat.eqb t 6) (fun t => match t with 1 => [5] | _ => [] end).
Example sample_own : getProp sample 10 0 = Found 2. Proof. reflexivity. Qed.
Example sample_spliced : getProp (mkTags (parents sample) (fun t => Nat.eqb t 6) (splices sample)) 10 0 = Found 6. Proof. reflexivity. Qed.
Example sample_none : getProp (mkTags (parents sample) (fun t => Nat.eqb t 9) (splices sample)) 10 0 = PropertyUndefined. Proof. reflexivity. Qed.
Example sample_splice : getSpliceProp sample 10 5 0 = Found 6 /\ getSpliceProp sample 10 0 5 = Found 2. Proof. split; reflexivity. Qed.
Example sample_cycle : getProp (mkTags (fun t => Some [t]) (fun _ => true) (fun _ => [])) 10 0 = TooDeep. Proof. reflexivity. Qed.
Example sample_acc : Acc (above sample) 0 /\ forall u, sees sample 0 u -> ~ emptyList sample u.
Proof.
  split.
  - assert (A2 : Acc (above sample) 2) by (constructor; intros y [(ps & Q & I)|I]; [discriminate|destruct I]).
    assert (A6 : Acc (above sample) 6) by (constructor; intros y [(ps & Q & I)|I]; [discriminate|destruct I]).
    assert (A5 : Acc (above sample) 5) by (constructor; intros y [(ps & Q & I)|I]; [injection Q as <-; destruct I as [<-|[]]; exact A6|destruct I]).
    assert (A1 : Acc (above sample) 1) by (constructor; intros y [(ps & Q & I)|I]; [injection Q as <-; destruct I as [<-|[]]; exact A2|destruct I as [<-|[]]; exact A5]).
    constructor; intros y [(ps & Q & I)|I]; [injection Q as <-; destruct I as [<-|[]]; exact A1|destruct I].
  - intros u _ F. unfold emptyList in F. do 6 (destruct u as [|u]; [cbn in F; discriminate|]). cbn in F. discriminate.
Qed.
Example sample_chain_hypotheses : exists E T t u, Acc (above E) T /\ (forall u, sees E T u -> ~ emptyList E u) /\
  (forall u ps, parents E u = Some ps -> length ps <= 1) /\ (forall u, splices E u = []) /\
  getProp E 10 T = Found t /\ inherits E T u /\ inherits E u t /\ u <> t.
Proof.
  exists (mkTags (fun t => match t with 0 => Some [1] | 1 => Some [2] | _ => None end) (Nat.eqb 2) (fun _ => [])), 0, 2, 1.
  set (E := mkTags _ _ _).
  assert (A2 : Acc (above E) 2) by (constructor; intros y [(ps & Q & I)|I]; [discriminate|destruct I]).
  assert (A1 : Acc (above E) 1) by (constructor; intros y [(ps & Q & I)|I]; [injection Q as <-; destruct I as [<-|[]]; exact A2|destruct I]).
  split; [constructor; intros y [(ps & Q & I)|I]; [injection Q as <-; destruct I as [<-|[]]; exact A1|destruct I]|].
  split; [intros u _ F; unfold emptyList in F; destruct u as [|[|u]]; cbn in F; discriminate|].
  split; [intros [|[|u]] ps Q; cbn in Q; try discriminate; injection Q as <-; cbn; lia|]. split; [reflexivity|]. split; [reflexivity|].
  split; [eapply i_up; [constructor|exists [1]; split; [reflexivity|now left]]|].
  split; [eapply i_up; [constructor|exists [2]; split; [reflexivity|now left]]|discriminate].
Qed.
