From Verif Require Import PropSysModel PropSysSpec.
From Coq Require Import Lia.

Definition ups (E : tags) (t : tag) : list tag := match parents E t with Some ps => ps | None => [] end.
Lemma visits_app E l1 l2 a b : visits E l1 a -> visits E l2 b -> visits E (l1 ++ l2) (a ++ b).
Proof.
  intros V W. induction V; cbn; [exact W|]. rewrite <- app_assoc. constructor; auto.
Qed.
Lemma visits_split E l1 l2 s : visits E (l1 ++ l2) s -> exists a b, s = a ++ b /\ visits E l1 a /\ visits E l2 b.
Proof.
  revert s. induction l1 as [|t r IH]; cbn; intros s V; [exists [], s; repeat split; [constructor|exact V]|].
  inversion V as [|t' r' a b V1 V2]; subst. destruct (IH b V2) as (a' & b' & -> & W1 & W2).
  exists (t :: a ++ a'), b'. repeat split; [cbn; now rewrite app_assoc|constructor; assumption|exact W2].
Qed.
Lemma visits_det E l s : visits E l s -> forall s', visits E l s' -> s = s'.
Proof.
  intros V. induction V; intros s' V'; inversion V'; subst; [reflexivity|]. f_equal. f_equal; auto.
Qed.
Lemma visits_step E t args s : visits E (t :: args) s <-> exists s', s = t :: s' /\ visits E (ups E t ++ args) s'.
Proof.
  split.
  - intros V. inversion V; subst. eexists. split; [reflexivity|]. now apply visits_app.
  - intros (s' & -> & V). apply visits_split in V as (a & b & -> & V1 & V2). now constructor.
Qed.
Lemma visits_nil E s : visits E [] s -> s = []. Proof. intros V. now inversion V. Qed.
Lemma visits_nonempty E l s : visits E l s -> l <> [] -> s <> [].
Proof. intros V N. destruct V; [contradiction|discriminate]. Qed.

(** What a finite traversal gives. *)
Definition endsBad (E : tags) (s : list tag) : bool :=
  match parents E (last s 0) with Some [] => true | _ => false end.
Definition outcome (E : tags) (s : list tag) : found :=
  if endsBad E s then Bad else match find (definedFor E) s with Some t => Def t | None => Undef end.
Lemma last_cons (t : tag) s : s <> [] -> last (t :: s) 0 = last s 0.
Proof. intros N. destruct s; [contradiction|reflexivity]. Qed.
Lemma getDefined_visits E s : forall l fuel, visits E l s -> l <> [] -> length s < fuel -> getDefined E fuel l = outcome E s.
Proof.
  induction s as [|t s IH]; intros l fuel V N L.
  - inversion V; subst; contradiction.
  - destruct l as [|t' args]; [contradiction|]. apply visits_step in V as (s' & EQ & V). injection EQ as <- <-.
    destruct fuel as [|n]; [lia|]. cbn [getDefined]. cbn [length] in L.
    destruct (list_eq_dec Nat.eq_dec (ups E t ++ args) []) as [Z|Z].
    + apply app_eq_nil in Z as (Z1 & ->). rewrite Z1 in V. cbn in V. apply visits_nil in V. subst s.
      unfold ups in Z1. unfold outcome, endsBad. cbn [last find]. destruct (parents E t) as [ps|] eqn:EP.
      * subst ps. cbn [app]. destruct n; [lia|]. reflexivity.
      * destruct (definedFor E t); reflexivity.
    + pose proof (visits_nonempty _ _ _ V Z) as NS.
      assert (R : match parents E t, args with
                  | Some ps, _ => getDefined E n (ps ++ args) | None, [] => Undef | None, _ => getDefined E n args end = outcome E s).
      { unfold ups in *. destruct (parents E t) as [ps|].
        - apply IH; auto. lia.
        - cbn [app] in *. destruct args as [|a args]; [contradiction|]. apply IH; auto. lia. }
      rewrite R. unfold outcome, endsBad. rewrite (last_cons t s NS). cbn [find].
      destruct (match parents E (last s 0) with Some [] => true | _ => false end); [reflexivity|].
      destruct (definedFor E t); [destruct (find _ s); reflexivity|]. destruct (find _ s); reflexivity.
Qed.
(** A traversal which ends is finite. *)
Lemma visits_of E : forall fuel l, l <> [] -> getDefined E fuel l <> Deep -> exists s, visits E l s.
Proof.
  induction fuel as [|n IH]; intros l N D; [contradiction|]. destruct l as [|t args]; [contradiction|]. cbn [getDefined] in D.
  destruct (list_eq_dec Nat.eq_dec (ups E t ++ args) []) as [Z|Z].
  - exists [t]. apply visits_step. exists []. split; [reflexivity|]. rewrite Z. constructor.
  - assert (R : getDefined E n (ups E t ++ args) <> Deep).
    { unfold ups in *. destruct (parents E t) as [ps|].
      - intros F. rewrite F in D. contradiction.
      - cbn [app] in *. destruct args as [|a args]; [contradiction|]. intros F. rewrite F in D. contradiction. }
    destruct (IH _ Z R) as (s & V). exists (t :: s). apply visits_step. eauto.
Qed.
Lemma inherits_trans E a b c : inherits E a b -> inherits E b c -> inherits E a c.
Proof. intros A B. induction B; [exact A|]. eapply i_up; eauto. Qed.
Lemma parent_ups E p t : parent E p t <-> In p (ups E t).
Proof.
  unfold parent, ups. split.
  - intros (ps & -> & I). exact I.
  - destruct (parents E t) as [ps|]; [eauto|intros []].
Qed.
Lemma visits_in E l s : visits E l s -> forall x, In x s <-> exists t, In t l /\ inherits E t x.
Proof.
  intros V. induction V as [|t r a b V1 IH1 V2 IH2]; intros x.
  - split; [intros []|intros (t & [] & _)].
  - cbn [In]. rewrite in_app_iff, IH1, IH2. change (match parents E t with Some ps => ps | None => [] end) with (ups E t). split.
    + intros [<-|[(p & I & H)|(u & I & H)]].
      * exists t. split; [now left|constructor].
      * exists t. split; [now left|]. apply (inherits_trans E t p x); [|exact H]. eapply i_up; [constructor|]. now apply parent_ups.
      * exists u. split; [now right|exact H].
    + intros (u & [<-|I] & H); [|right; right; eauto].
      assert (K : x = t \/ exists p, In p (ups E t) /\ inherits E p x).
      { clear -H. induction H as [|u p H IH P]; [now left|]. right. destruct IH as [->|(q & I & Q)].
        - exists p. split; [now apply parent_ups|constructor].
        - exists q. split; [exact I|]. eapply i_up; eauto. }
      destruct K as [->|K]; [now left|right; now left].
Qed.
Lemma visits_acc E l s : visits E l s -> forall t, In t l -> Acc (parent E) t.
Proof.
  intros V. induction V as [|t r a b V1 IH1 V2 IH2]; intros x I; [destruct I|]. destruct I as [<-|I]; [|now apply IH2].
  constructor. intros p P. apply IH1. now apply parent_ups.
Qed.
Lemma acc_visits1 E t : Acc (parent E) t -> exists s, visits E [t] s.
Proof.
  intros A. induction A as [t _ IH].
  assert (K : forall l, (forall p, In p l -> parent E p t) -> exists s, visits E l s).
  { induction l as [|p l IHl]; intros H; [exists []; constructor|].
    destruct (IH p (H p (or_introl eq_refl))) as (a & A). destruct IHl as (b & B); [intros q I; apply H; now right|].
    exists (a ++ b). exact (visits_app E [p] l a b A B). }
  destruct (K (ups E t)) as (a & A); [intros p; apply parent_ups|]. exists (t :: a ++ []). constructor; [exact A|constructor].
Qed.
Lemma acc_visits E l : (forall t, In t l -> Acc (parent E) t) -> exists s, visits E l s.
Proof.
  induction l as [|t l IH]; intros H; [exists []; constructor|].
  destruct (acc_visits1 E t (H t (or_introl eq_refl))) as (a & A). destruct IH as (b & B); [intros q I; apply H; now right|].
  exists (a ++ b). exact (visits_app E [t] l a b A B).
Qed.

(* ----- splices ----- *)
Lemma sees_trans E a b c : sees E a b -> sees E b c -> sees E a c.
Proof. intros A B. induction B; [exact A|]. eapply s_up; eauto. Qed.
Lemma inherits_sees E a b : inherits E a b -> sees E a b.
Proof. intros H. induction H; [constructor|]. eapply s_up; [eassumption|]. now left. Qed.
Lemma sees_first E t x : sees E t x -> x = t \/ exists p, above E p t /\ sees E p x.
Proof.
  intros H. induction H as [|u p H IH A]; [now left|]. right. destruct IH as [->|(q & Q & S)].
  - exists p. split; [exact A|constructor].
  - exists q. split; [exact Q|]. eapply s_up; eauto.
Qed.
Definition rest (E : tags) (t : tag) (args : list tag) : list tag := ups E t ++ args ++ splices E t.
Lemma splices_step E n t args : getSplices E (S n) (t :: args) =
  match (match parents E t, args ++ splices E t with None, [] => Tags [] | _, _ => getSplices E n (rest E t args) end) with
  | Tags r => Tags (match splices E t, args with [], _ => r | _, [] => r ++ splices E t | _, _ => splices E t ++ r end)
  | other => other
  end.
Proof.
  cbn [getSplices]. unfold rest, ups. destruct (parents E t) as [ps|].
  - destruct (getSplices E n (ps ++ args ++ splices E t)); reflexivity.
  - cbn [app]. destruct (args ++ splices E t) as [|z zs]; [reflexivity|]. destruct (getSplices E n (z :: zs)); reflexivity.
Qed.
(** What is gathered: the splices of everything seen. *)
Lemma splices_in E : forall n l r, getSplices E n l = Tags r ->
  forall x, In x r <-> exists t u, In t l /\ sees E t u /\ In x (splices E u).
Proof.
  induction n as [|n IH]; intros l r H x; [discriminate|]. destruct l as [|t args]; [discriminate|].
  rewrite splices_step in H.
  assert (K : exists r', (forall x, In x r' <-> exists t' u, In t' (rest E t args) /\ sees E t' u /\ In x (splices E u)) /\
    r = match splices E t, args with [], _ => r' | _, [] => r' ++ splices E t | _, _ => splices E t ++ r' end).
  { destruct (list_eq_dec Nat.eq_dec (args ++ splices E t) []) as [Z|Z].
    - rewrite Z in H. destruct (parents E t) as [ps|] eqn:EP.
      + destruct (getSplices E n (rest E t args)) as [r'| |] eqn:G; try discriminate. injection H as <-. exists r'. split; [|reflexivity].
        intros y. exact (IH _ _ G y).
      + injection H as <-. exists []. split; [|reflexivity]. intros y. unfold rest, ups. rewrite EP, Z. split; [intros []|intros (t' & u & [] & _)].
    - assert (G : exists r', getSplices E n (rest E t args) = Tags r' /\ r = match splices E t, args with [], _ => r' | _, [] => r' ++ splices E t | _, _ => splices E t ++ r' end).
      { destruct (parents E t), (args ++ splices E t) as [|z zs]; try contradiction;
          destruct (getSplices E n (rest E t args)) as [r'| |]; try discriminate; injection H as <-; eauto. }
      destruct G as (r' & G & ->). exists r'. split; [|reflexivity]. intros y. exact (IH _ _ G y). }
  destruct K as (r' & R & ->).
  assert (M : In x (match splices E t, args with [], _ => r' | _, [] => r' ++ splices E t | _, _ => splices E t ++ r' end) <-> In x r' \/ In x (splices E t)).
  { destruct (splices E t) as [|z zs]; [cbn; tauto|]. destruct args; rewrite in_app_iff; tauto. }
  rewrite M, R. unfold rest. split.
  - intros [(t' & u & I & S & X)|X]; [|exists t, t; split; [now left|split; [constructor|exact X]]].
    rewrite !in_app_iff in I. destruct I as [I|[I|I]].
    + exists t, u. split; [now left|]. split; [|exact X]. apply (sees_trans E t t' u); [|exact S]. eapply s_up; [constructor|]. left. now apply parent_ups.
    + exists t', u. split; [now right|auto].
    + exists t, u. split; [now left|]. split; [|exact X]. apply (sees_trans E t t' u); [|exact S]. eapply s_up; [constructor|]. now right.
  - intros (t' & u & [<-|I] & S & X).
    + destruct (sees_first E t u S) as [->|(p & A & S')]; [now right|]. left. exists p, u. split; [|auto].
      rewrite !in_app_iff. destruct A as [A|A]; [left; now apply parent_ups|right; now right].
    + left. exists t', u. split; [|auto]. rewrite !in_app_iff. right. now left.
Qed.
(** Whether gathering ends: the tags with parents and splices as a hierarchy of their own. *)
Definition joined (E : tags) : tags := mkTags (fun t => match parents E t, splices E t with None, [] => None | _, s => Some (ups E t ++ s) end) (definedFor E) (fun _ => []).
Lemma above_joined E p t : above E p t <-> parent (joined E) p t.
Proof.
  unfold above. rewrite !parent_ups. unfold ups at 2. cbn [joined parents]. unfold ups.
  destruct (parents E t) as [ps|], (splices E t) as [|z zs]; rewrite ?in_app_iff; cbn; tauto.
Qed.

Lemma joined_ups E t : ups (joined E) t = ups E t ++ splices E t.
Proof. unfold ups at 1. cbn [joined parents]. unfold ups. destruct (parents E t), (splices E t); reflexivity. Qed.
Lemma acc_joined E t : Acc (above E) t -> Acc (parent (joined E)) t.
Proof. intros A. induction A as [t _ IH]. constructor. intros p P. apply IH. now apply above_joined. Qed.
Lemma splices_end E : forall k l s fuel, visits (joined E) l s -> length s = k -> l <> [] -> k <= fuel -> getSplices E (S fuel) l <> DeepSplice.
Proof.
  induction k as [|k IH]; intros l s fuel V L N F.
  - destruct V; [contradiction|discriminate].
  - destruct l as [|t args]; [contradiction|]. rewrite splices_step. inversion V as [|t' r' a b V1 V2]; subst.
    change (match parents (joined E) t with Some ps => ps | None => [] end) with (ups (joined E) t) in V1. rewrite joined_ups in V1.
    apply visits_split in V1 as (a1 & a2 & -> & W1 & W2).
    assert (V3 : visits (joined E) (rest E t args) (a1 ++ b ++ a2)) by (unfold rest; repeat apply visits_app; assumption).
    assert (L3 : length (a1 ++ b ++ a2) = k) by (cbn [length] in L; rewrite !app_length in *; lia).
    destruct (list_eq_dec Nat.eq_dec (rest E t args) []) as [Z|Z].
    + unfold rest in Z. apply app_eq_nil in Z as (Z1 & Z2). rewrite Z2. unfold ups in Z1. destruct (parents E t) as [ps|] eqn:EP; [|discriminate].
      subst ps. unfold rest, ups. rewrite EP, Z2. cbn [app]. destruct fuel as [|fuel]; [lia|]. cbn [getSplices]. discriminate.
    + destruct fuel as [|fuel]; [lia|]. pose proof (IH _ _ fuel V3 L3 Z ltac:(lia)) as G.
      destruct (parents E t) as [ps|]; destruct (args ++ splices E t) as [|z zs]; try discriminate;
        destruct (getSplices E (S fuel) (rest E t args)); try discriminate; contradiction.
Qed.
Lemma splices_acc E : forall fuel l, getSplices E fuel l <> DeepSplice -> forall t, In t l -> Acc (above E) t.
Proof.
  induction fuel as [|n IH]; intros l D t I; [contradiction|]. destruct l as [|u args]; [destruct I|]. rewrite splices_step in D.
  assert (K : forall x, In x (rest E u args) -> Acc (above E) x).
  { destruct (parents E u) as [ps|] eqn:EP, (args ++ splices E u) as [|z zs] eqn:EZ.
    1,2,4: apply IH; intros F; apply D; now rewrite F.
    intros x X. unfold rest, ups in X. rewrite EP, EZ in X. destruct X. }
  destruct I as [<-|I].
  - constructor. intros p A. apply K. unfold rest. rewrite !in_app_iff. destruct A as [A|A]; [left; now apply parent_ups|auto].
  - apply K. unfold rest. rewrite !in_app_iff. auto.
Qed.
Lemma splices_good E : forall fuel l, l <> [] -> (forall t u, In t l -> sees E t u -> ~ emptyList E u) -> getSplices E fuel l <> BadSplice.
Proof.
  induction fuel as [|n IH]; intros l N B; [discriminate|]. destruct l as [|t args]; [contradiction|]. rewrite splices_step.
  assert (K : rest E t args <> [] -> getSplices E n (rest E t args) <> BadSplice).
  { intros NZ. apply IH; [exact NZ|]. intros t' u I S. unfold rest in I. rewrite !in_app_iff in I. destruct I as [I|[I|I]].
    - apply (B t u); [now left|]. apply (sees_trans E t t' u); [|exact S]. eapply s_up; [constructor|]. left. now apply parent_ups.
    - apply (B t' u); [now right|exact S].
    - apply (B t u); [now left|]. apply (sees_trans E t t' u); [|exact S]. eapply s_up; [constructor|]. now right. }
  pose proof (B t t (or_introl eq_refl) (s_self _ _)) as NB. unfold emptyList in NB.
  assert (K' : (parents E t = None /\ args ++ splices E t = []) \/ rest E t args <> []).
  { unfold rest, ups. destruct (parents E t) as [[|p ps]|]; [contradiction|right; discriminate|].
    destruct (args ++ splices E t); [left; auto|right; discriminate]. }
  destruct K' as [(-> & ->)|Z]; [discriminate|]. specialize (K Z).
  destruct (parents E t), (args ++ splices E t); try discriminate; destruct (getSplices E n (rest E t args)); try discriminate; contradiction.
Qed.
Lemma more_splices E : forall n m l, n <= m -> getSplices E n l <> DeepSplice -> getSplices E m l = getSplices E n l.
Proof.
  induction n as [|n IH]; intros m l L D; [contradiction|]. destruct m as [|m]; [lia|]. destruct l as [|t args]; [reflexivity|].
  rewrite !splices_step in *. destruct (parents E t), (args ++ splices E t); try reflexivity;
    (rewrite (IH m (rest E t args)); [reflexivity|lia|]; intros F; rewrite F in D; contradiction).
Qed.
Lemma sees_acc E t u : Acc (above E) t -> sees E t u -> Acc (above E) u.
Proof. intros A S. induction S as [|v p S IH AB]; [exact A|]. destruct (IH) as [K]. now apply K. Qed.
Lemma acc_parent E t : Acc (above E) t -> Acc (parent E) t.
Proof. intros A. induction A as [t _ IH]. constructor. intros p P. apply IH. now left. Qed.
Lemma last_in (l : list tag) d : l <> [] -> In (last l d) l.
Proof. intros N. destruct (exists_last N) as (l' & x & ->). rewrite last_last. apply in_or_app. right. now left. Qed.
Lemma find_first f (l : list tag) : match find f l with Some x => firstOf f x l | None => Forall (fun y => f y = false) l end.
Proof.
  induction l as [|y l IH]; cbn; [constructor|]. destruct (f y) eqn:F; [exists [], l; repeat split; [exact F|constructor]|].
  destruct (find f l) as [x|]; [|now constructor]. destruct IH as (a & b & -> & X & A). exists (y :: a), b. repeat split; [exact X|now constructor].
Qed.
Lemma first_find f (l : list tag) x : firstOf f x l -> find f l = Some x.
Proof.
  intros (a & b & -> & X & A). induction A as [|y a F A IH]; cbn; [now rewrite X|]. now rewrite F.
Qed.

(** The whole look-up. *)
Lemma getProp_exact E T : Acc (above E) T -> (forall u, sees E T u -> ~ emptyList E u) ->
  exists r own s N, (forall x, In x r <-> exists u, sees E T u /\ In x (splices E u)) /\ visits E [T] own /\ visits E r s /\
    forall fuel, N <= fuel -> getProp E fuel T = match find (definedFor E) (own ++ s) with Some t => Found t | None => PropertyUndefined end.
Proof.
  intros A B. destruct (acc_visits1 (joined E) T (acc_joined E T A)) as (js & J).
  pose proof (splices_end E (length js) [T] js (length js) J eq_refl ltac:(discriminate) (le_n _)) as G.
  pose proof (splices_good E (S (length js)) [T] ltac:(discriminate) (fun t u I S => B u (match I with or_introl e => eq_rect_r (fun t => sees E t u -> sees E T u) (fun s => s) (eq_sym e) S | or_intror f => match f with end end))) as G'.
  destruct (getSplices E (S (length js)) [T]) as [r| |] eqn:GS; [|contradiction|contradiction].
  assert (R : forall x, In x r <-> exists u, sees E T u /\ In x (splices E u)).
  { intros x. rewrite (splices_in E _ _ _ GS x). split; [intros (t & u & [<-|[]] & K); eauto|intros (u & K); exists T, u; split; [now left|exact K]]. }
  assert (AR : forall x, In x r -> Acc (parent E) x).
  { intros x I. apply acc_parent. apply (sees_acc E T); [exact A|]. apply R in I as (u & S & I). eapply s_up; [exact S|]. now right. }
  destruct (acc_visits1 E T (acc_parent E T A)) as (own & O). destruct (acc_visits E r AR) as (s & V).
  exists r, own, s, (S (length js) + S (length (own ++ s))). split; [exact R|]. split; [exact O|]. split; [exact V|].
  intros fuel F. unfold getProp. rewrite (more_splices E (S (length js)) fuel [T]) by (try lia; rewrite GS; discriminate). rewrite GS.
  pose proof (visits_app E [T] r own s O V) as W. cbn [app] in W.
  rewrite (getDefined_visits E (own ++ s) (T :: r) fuel W) by (try discriminate; lia). unfold outcome, endsBad.
  assert (NE : own ++ s <> []) by (apply (visits_nonempty E (T :: r)); [exact W|discriminate]).
  pose proof (last_in (own ++ s) 0 NE) as LI. apply (visits_in E (T :: r) _ W) in LI as (t & I & H).
  assert (SL : sees E T (last (own ++ s) 0)).
  { destruct I as [<-|I]; [now apply inherits_sees|]. apply R in I as (u & S & I). apply (sees_trans E T t); [|now apply inherits_sees].
    eapply s_up; [exact S|]. now right. }
  pose proof (B _ SL) as NB. unfold emptyList in NB. destruct (parents E (last (own ++ s) 0)) as [[|p ps]|]; [contradiction|..];
    destruct (find (definedFor E) (own ++ s)); reflexivity.
Qed.
Lemma more_defined E : forall n m l, n <= m -> getDefined E n l <> Deep -> getDefined E m l = getDefined E n l.
Proof.
  induction n as [|n IH]; intros m l L H; [contradiction H; reflexivity|]. destruct m as [|m]; [lia|]. cbn [getDefined] in *.
  destruct l as [|t args]; [reflexivity|].
  assert (K : match parents E t, args with Some ps, _ => getDefined E m (ps ++ args) | None, [] => Undef | None, _ => getDefined E m args end =
              match parents E t, args with Some ps, _ => getDefined E n (ps ++ args) | None, [] => Undef | None, _ => getDefined E n args end).
  { destruct (parents E t) as [ps|]; [apply IH; [lia|]|destruct args; [reflexivity|apply IH; [lia|]]]; intros F; rewrite F in H; now apply H. }
  rewrite K. reflexivity.
Qed.
Lemma getDefined_local E E' : forall fuel l, (forall t, In t l -> forall u, inherits E t u -> sameAt E E' u) -> getDefined E fuel l = getDefined E' fuel l.
Proof.
  induction fuel as [|n IH]; intros l H; [reflexivity|]. destruct l as [|t args]; [reflexivity|]. cbn [getDefined].
  destruct (H t (or_introl eq_refl) t (i_self _ _)) as (P & D & _). rewrite <- P, <- D.
  assert (K : match parents E t, args with Some ps, _ => getDefined E n (ps ++ args) | None, [] => Undef | None, _ => getDefined E n args end =
              match parents E t, args with Some ps, _ => getDefined E' n (ps ++ args) | None, [] => Undef | None, _ => getDefined E' n args end).
  { destruct (parents E t) as [ps|] eqn:EP.
    - apply IH. intros p I u S. apply in_app_or in I as [I|I]; [|apply (H p); [now right|exact S]].
      apply (H t (or_introl eq_refl)). apply (inherits_trans E t p u); [|exact S]. eapply i_up; [constructor|]. exists ps. now split.
    - destruct args as [|x args]; [reflexivity|]. apply IH. intros p I. apply H. now right. }
  rewrite K. reflexivity.
Qed.
Lemma getSplices_local E E' : forall fuel l, (forall t, In t l -> forall u, sees E t u -> sameAt E E' u) -> getSplices E fuel l = getSplices E' fuel l.
Proof.
  induction fuel as [|n IH]; intros l H; [reflexivity|]. destruct l as [|t args]; [reflexivity|]. cbn [getSplices].
  destruct (H t (or_introl eq_refl) t (s_self _ _)) as (P & _ & D). rewrite <- P, <- D.
  assert (R : forall p, In p (args ++ splices E t) -> forall u, sees E p u -> sameAt E E' u).
  { intros p I u S. apply in_app_or in I as [I|I]; [apply (H p); [now right|exact S]|].
    apply (H t (or_introl eq_refl)). apply (sees_trans E t p u); [|exact S]. eapply s_up; [constructor|]. now right. }
  assert (K : match parents E t, args ++ splices E t with Some ps, rest => getSplices E n (ps ++ rest) | None, [] => Tags [] | None, rest => getSplices E n rest end =
              match parents E t, args ++ splices E t with Some ps, rest => getSplices E' n (ps ++ rest) | None, [] => Tags [] | None, rest => getSplices E' n rest end).
  { destruct (parents E t) as [ps|] eqn:EP.
    - apply IH. intros p I u S. apply in_app_or in I as [I|I]; [|exact (R p I u S)].
      apply (H t (or_introl eq_refl)). apply (sees_trans E t p u); [|exact S]. eapply s_up; [constructor|]. left. exists ps. now split.
    - destruct (args ++ splices E t) as [|x r]; [reflexivity|]. apply IH. exact R. }
  rewrite K. reflexivity.
Qed.
Lemma getSplices_none E : forall s l fuel, visits E l s -> l <> [] -> (forall t, In t l -> forall u, inherits E t u -> splices E u = []) ->
  length s < fuel -> getSplices E fuel l = if endsBad E s then BadSplice else Tags [].
Proof.
  induction s as [|x s IH]; intros l fuel V NE H F.
  - exfalso. apply (visits_nonempty E l [] V NE eq_refl).
  - destruct l as [|t args]; [contradiction|]. destruct fuel as [|n]; [cbn in F; lia|]. cbn [getSplices].
    apply visits_step in V as (s' & Q & V). injection Q as -> <-. pose proof (H t (or_introl eq_refl) t (i_self _ _)) as SP. rewrite SP.
    rewrite app_nil_r. cbn [length] in F.
    assert (R : forall p, In p (ups E t ++ args) -> forall u, inherits E p u -> splices E u = []).
    { intros p I u S. apply in_app_or in I as [I|I]; [|apply (H p); [now right|exact S]]. apply (H t (or_introl eq_refl)).
      apply (inherits_trans E t p u); [|exact S]. eapply i_up; [constructor|]. now apply parent_ups. }
    assert (LN : s <> [] -> endsBad E (t :: s) = endsBad E s) by (intros NS; unfold endsBad; now rewrite last_cons).
    unfold ups in V, R. destruct (parents E t) as [ps|] eqn:EP.
    + destruct (ps ++ args) as [|p l'] eqn:Q.
      * apply visits_nil in V. subst s. unfold endsBad. cbn [last]. rewrite EP. destruct ps; [|discriminate Q]. destruct n; [cbn in F; lia|]. reflexivity.
      * rewrite LN by (apply (visits_nonempty E _ _ V); discriminate). rewrite (IH (p :: l') n V) by (try discriminate; try exact R; lia).
        destruct (endsBad E s); reflexivity.
    + cbn [app] in V, R. destruct args as [|p l'].
      * apply visits_nil in V. subst s. unfold endsBad. cbn [last]. rewrite EP. reflexivity.
      * rewrite LN by (apply (visits_nonempty E _ _ V); discriminate). rewrite (IH (p :: l') n V) by (try discriminate; try exact R; lia).
        destruct (endsBad E s); reflexivity.
Qed.
