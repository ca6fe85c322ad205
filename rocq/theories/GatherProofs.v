From Coq Require Import Arith NArith ZArith List Bool Ascii Lia.
From Verif Require Import MpiModel MpiSpec MpiProofs MpiLemmas GatherModel GatherSpec.
Import ListNotations.

(* ----- packing ----- *)

Lemma N_byte : forall n, N_of_ascii (ascii_of_N (n mod 256)) = (n mod 256)%N.
Proof. intros n. apply N_ascii_embedding. apply N.mod_lt. discriminate. Qed.

Lemma unpack4_pack4 : forall n r, (n < 4294967296)%N -> unpack4 (pack4 n ++ r) = n.
Proof.
  intros n r H. unfold pack4, unpack4. cbn [app]. rewrite !N_byte.
  replace (n / 16777216)%N with (n / 256 / 256 / 256)%N
    by (rewrite !N.div_div by discriminate; reflexivity).
  replace (n / 65536)%N with (n / 256 / 256)%N
    by (rewrite !N.div_div by discriminate; reflexivity).
  pose proof (N.div_mod n 256 ltac:(discriminate)) as E0.
  pose proof (N.div_mod (n / 256) 256 ltac:(discriminate)) as E1.
  pose proof (N.div_mod (n / 256 / 256) 256 ltac:(discriminate)) as E2.
  assert (E3 : (n / 256 / 256 / 256 < 256)%N).
  { rewrite !N.div_div by discriminate. apply N.div_lt_upper_bound; [discriminate|exact H]. }
  rewrite (N.mod_small _ _ E3).
  generalize dependent (n mod 256)%N. generalize dependent (n / 256 mod 256)%N.
  generalize dependent (n / 256 / 256 mod 256)%N. intros. lia.
Qed.

Lemma pack4_length : forall n, length (pack4 n) = 4.
Proof. reflexivity. Qed.

Lemma pack_length : forall s, length (pack s) = packSize s.
Proof. intros. unfold pack, packSize. now rewrite app_length. Qed.

Arguments pack4 : simpl never.
Arguments unpack4 : simpl never.

Lemma skipn_length_app : forall A (a b : list A) n, length a = n -> skipn n (a ++ b) = b.
Proof. intros A a b n <-. rewrite skipn_app, skipn_all, Nat.sub_diag. reflexivity. Qed.

Lemma firstn_length_app : forall A (a b : list A) n, length a = n -> firstn n (a ++ b) = a.
Proof.
  intros A a b n <-. rewrite firstn_app, firstn_all, Nat.sub_diag. cbn. apply app_nil_r.
Qed.

Lemma unpack_pack : forall pre s post, (N.of_nat (length s) < 4294967296)%N ->
  fst (unpack (pre ++ pack s ++ post) (length pre)) = s.
Proof.
  intros pre s post H. unfold unpack. cbn [fst].
  rewrite (skipn_length_app _ pre) by reflexivity.
  unfold pack. rewrite <- app_assoc. rewrite unpack4_pack4 by auto. rewrite Nnat.Nat2N.id.
  rewrite (app_assoc pre). rewrite (skipn_length_app _ (pre ++ pack4 (N.of_nat (length s)))).
  - apply firstn_length_app. reflexivity.
  - rewrite app_length. reflexivity.
Qed.

(* ----- displacements ----- *)

Lemma displacements_last : forall sizes d x,
  last (displacements d sizes) x = d + list_sum sizes.
Proof.
  induction sizes as [|n sizes IH]; intros d x; cbn [displacements list_sum].
  - cbn. lia.
  - replace (list_sum (n :: sizes)) with (n + list_sum sizes) by reflexivity.
    destruct (displacements (d + n) sizes) eqn:E.
    + destruct sizes; discriminate.
    + change (last (d :: n0 :: l) x) with (last (n0 :: l) x). rewrite <- E, IH. lia.
Qed.

Lemma writeAll_spec : forall datas pre junk,
  length junk = list_sum (map (@length ascii) datas) ->
  writeAll (pre ++ junk) (displacements (length pre) (map (@length ascii) datas)) datas
  = pre ++ concat datas.
Proof.
  induction datas as [|d datas IH]; intros pre junk H.
  - cbn in H. destruct junk; [|discriminate]. cbn. now rewrite !app_nil_r.
  - cbn [map displacements writeAll concat].
    change (list_sum (map (@length ascii) (d :: datas)))
      with (length d + list_sum (map (@length ascii) datas)) in H.
    assert (E : write (pre ++ junk) (length pre) d = (pre ++ d) ++ skipn (length d) junk).
    { unfold write. rewrite firstn_length_app by reflexivity.
      rewrite <- app_assoc. f_equal. f_equal.
      rewrite <- (firstn_skipn (length d) junk) at 1.
      rewrite app_assoc. apply skipn_length_app. rewrite app_length, firstn_length. lia. }
    rewrite E. replace (length pre + length d) with (length (pre ++ d))
      by (rewrite app_length; reflexivity).
    rewrite IH.
    + now rewrite <- app_assoc.
    + rewrite skipn_length. lia.
Qed.

Lemma unpackAll_spec : forall strs pre post,
  (forall s, In s strs -> (N.of_nat (length s) < 4294967296)%N) ->
  unpackAll (pre ++ concat (map pack strs) ++ post)
    (displacements (length pre) (map packSize strs)) (length strs)
  = filter nonEmpty strs.
Proof.
  induction strs as [|s strs IH]; intros pre post H.
  - reflexivity.
  - cbn [map concat displacements unpackAll length filter].
    rewrite <- (app_assoc (pack s)).
    rewrite unpack_pack by (apply H; left; auto).
    assert (E : unpackAll (pre ++ pack s ++ concat (map pack strs) ++ post)
                  (displacements (length pre + packSize s) (map packSize strs)) (length strs)
                = filter nonEmpty strs).
    { rewrite app_assoc.
      replace (length pre + packSize s) with (length (pre ++ pack s))
        by (rewrite app_length, pack_length; reflexivity).
      apply IH. intros; apply H; right; auto. }
    rewrite E. destruct s; reflexivity.
Qed.

(* ----- gatherStrings ----- *)

Lemma sum_ge : forall (f : nat -> nat) xs p, In p xs -> f p <= list_sum (map f xs).
Proof.
  induction xs as [|x xs IH]; intros p H; [destruct H|].
  cbn [map]. change (list_sum (f x :: map f xs)) with (f x + list_sum (map f xs)).
  destruct H as [->|H]; [lia|]. specialize (IH _ H). lia.
Qed.

Lemma fit_each : forall N str p, fit N str -> p < N ->
  (N.of_nat (packSize (str p)) < intLimit)%N.
Proof.
  intros N str p H Hp. unfold fit in H. unfold intLimit, packSize.
  pose proof (sum_ge (fun p => 4 + length (str p)) (seq 0 N) p ltac:(apply in_seq; lia)) as G.
  cbn beta in G. lia.
Qed.

Lemma map_asInt : forall A (f : A -> nat) xs, map asInt (map (fun x => MInt (f x)) xs) = map f xs.
Proof. intros. rewrite map_map. reflexivity. Qed.

Lemma map_asBytes : forall A (f : A -> bytes) xs,
  map asBytes (map (fun x => MBytes (f x)) xs) = map f xs.
Proof. intros. rewrite map_map. reflexivity. Qed.

Lemma gather_run : forall N str C, 0 < N -> fit N str ->
  assuredRun (cfg N (fun p => gatherStrings (str p)) C)
             (cfg N (fun _ => Ret (Gathered (inRankOrder N str))) C).
Proof.
  intros N str C HN Hf.
  set (k1 := fun p (ms : list cmsg) =>
      let message_sizes := map asInt ms in
      let displ := displacements 0 message_sizes in
      if fitsInt (last displ 0) then
        Coll tagAllgatherv (MBytes (pack (str p))) (fun bs =>
          let recv_buffer := writeAll (repeat zero (last displ 0)) displ (map asBytes bs) in
          Ret (Gathered (unpackAll recv_buffer displ (length ms))))
      else Ret TooLong).
  econstructor.
  { apply (cfg_coll _ N _ C tagAllgather (fun p => MInt (packSize (str p))) k1 HN).
    intros p Hp. unfold gatherStrings.
    assert (E : fitsInt (packSize (str p)) = true).
    { apply N.ltb_lt. apply (fit_each N); auto. }
    rewrite E. reflexivity. }
  unfold k1. rewrite (map_asInt nat (fun p => packSize (str p)) (seq 0 N)).
  assert (Es : map (fun p => packSize (str p)) (seq 0 N) = map packSize (map str (seq 0 N)))
    by (now rewrite map_map).
  set (displ := displacements 0 (map (fun p => packSize (str p)) (seq 0 N))).
  assert (El : last displ 0 = list_sum (map packSize (map str (seq 0 N)))).
  { unfold displ. rewrite displacements_last, Es. reflexivity. }
  assert (Efit : fitsInt (last displ 0) = true).
  { apply N.ltb_lt. rewrite El. rewrite map_map. exact Hf. }
  cbv zeta. rewrite Efit.
  econstructor.
  { apply (cfg_coll _ N _ C tagAllgatherv (fun p => MBytes (pack (str p)))
            (fun _ bs => Ret (Gathered (unpackAll
               (writeAll (repeat zero (last displ 0)) displ (map asBytes bs)) displ
               (length (map (fun p => MInt (packSize (str p))) (seq 0 N)))))) HN).
    intros p Hp. reflexivity. }
  erewrite cfg_ext; [constructor| |apply chanEq_refl].
  intros p Hp. cbn beta. f_equal. f_equal.
  rewrite map_asBytes, map_length, seq_length.
  unfold inRankOrder.
  pose proof (writeAll_spec (map pack (map str (seq 0 N))) [] (repeat zero (last displ 0))) as W.
  cbn [app length] in W.
  assert (Ed : map (@length ascii) (map pack (map str (seq 0 N))) = map packSize (map str (seq 0 N))).
  { rewrite !map_map. apply map_ext. intros a. apply pack_length. }
  rewrite Ed in W. rewrite <- Es in W. fold displ in W.
  rewrite map_map in W. cbn beta in W. rewrite W.
  2:{ rewrite repeat_length, El, map_map, Es. now rewrite map_map. }
  pose proof (unpackAll_spec (map str (seq 0 N)) [] []) as U.
  cbn [app length] in U. rewrite <- Es in U. fold displ in U.
  rewrite map_length, seq_length, app_nil_r, map_map in U. apply U.
  intros s Hs. apply in_map_iff in Hs. destruct Hs as (p' & <- & Hp').
  apply in_seq in Hp'.
  pose proof (fit_each N str p' Hf ltac:(lia)) as G. unfold intLimit, packSize in G. lia.
Qed.

(* ----- exceptions ----- *)

Lemma fold_max_pos : forall (f : nat -> nat) xs,
  (0 <? fold_right Nat.max 0 (map f xs)) = existsb (fun p => 0 <? f p) xs.
Proof.
  induction xs as [|x xs IH]; cbn [map fold_right existsb]; [reflexivity|].
  rewrite <- IH.
  destruct (Nat.ltb_spec 0 (Nat.max (f x) (fold_right Nat.max 0 (map f xs)))),
    (Nat.ltb_spec 0 (f x)), (Nat.ltb_spec 0 (fold_right Nat.max 0 (map f xs))); auto; lia.
Qed.

Lemma fold_min_pos : forall (ok : nat -> bool) xs,
  (0 <? fold_right Nat.min 1 (map (fun p => if ok p then 1 else 0) xs)) = forallb ok xs.
Proof.
  induction xs as [|x xs IH]; [reflexivity|].
  cbn [map fold_right forallb]. rewrite <- IH.
  destruct (ok x); cbn [andb].
  - destruct (Nat.ltb_spec 0 (Nat.min 1 (fold_right Nat.min 1 (map (fun p => if ok p then 1 else 0) xs)))),
      (Nat.ltb_spec 0 (fold_right Nat.min 1 (map (fun p => if ok p then 1 else 0) xs))); auto; lia.
  - reflexivity.
Qed.

Definition thrownFlag (o : stepResult) : nat := match o with StdException _ => 1 | _ => 0 end.

Lemma step_run : forall N steps i outcome prefix C T, 0 < N ->
  (forall p, p < N -> outcome p i <> OtherException) ->
  fit N (report N outcome i) ->
  (existsb (fun p => 0 <? thrownFlag (outcome p i)) (seq 0 N) = true ->
   match inRankOrder N (report N outcome i) with
   | w :: _ => assuredRun (cfg N (fun _ => Ret (Threw (prefix ++ w))) C) T
   | [] => assuredRun (cfg N (fun _ => Ret Undefined) C) T
   end) ->
  (existsb (fun p => 0 <? thrownFlag (outcome p i)) (seq 0 N) = false ->
   assuredRun (cfg N (fun p => setUp N p steps (S i) (outcome p)) C) T) ->
  assuredRun (cfg N (fun p => setUp N p (prefix :: steps) i (outcome p)) C) T.
Proof.
  intros N steps i outcome prefix C T HN Ho Hf Ht He.
  assert (Ep : forall p, p < N ->
    setUp N p (prefix :: steps) i (outcome p)
    = checkParallelException prefix (thrownFlag (outcome p i)) (report N outcome i p)
        (setUp N p steps (S i) (outcome p))).
  { intros p Hp. cbn [setUp]. unfold report, thrownFlag.
    destruct (outcome p i) eqn:E; auto. exfalso. apply (Ho p Hp E). }
  rewrite (cfg_ext _ N _ (fun p => checkParallelException prefix (thrownFlag (outcome p i))
             (report N outcome i p) (setUp N p steps (S i) (outcome p))) C C)
    by (auto; intros; reflexivity).
  econstructor.
  { apply (cfg_coll _ N _ C tagMax (fun p => MInt (thrownFlag (outcome p i)))
      (fun p ms => if 0 <? fold_right Nat.max 0 (map asInt ms)
        then bind (gatherStrings (report N outcome i p)) (fun g =>
           match g with
           | Gathered (w :: _) => Ret (Threw (prefix ++ w))
           | _ => Ret Undefined
           end)
        else setUp N p steps (S i) (outcome p)) HN).
    intros p Hp. reflexivity. }
  rewrite (map_asInt nat (fun p => thrownFlag (outcome p i)) (seq 0 N)).
  rewrite fold_max_pos.
  destruct (existsb (fun p => 0 <? thrownFlag (outcome p i)) (seq 0 N)) eqn:E.
  - eapply (phases _ _ N (fun p => gatherStrings (report N outcome i p))
              (fun _ g => match g with
                          | Gathered (w :: _) => Ret (Threw (prefix ++ w))
                          | _ => Ret Undefined end)).
    + apply (gather_run N _ C HN Hf).
    + specialize (Ht eq_refl). cbn beta iota.
      destruct (inRankOrder N (report N outcome i)); exact Ht.
  - apply He; auto.
Qed.

Lemma decimal_nonempty : forall n, decimal n <> [].
Proof.
  intros n. unfold decimal. cbn [decimalAux]. destruct (n <? 10); [discriminate|].
  intros H. apply app_eq_nil in H. destruct H; discriminate.
Qed.

Lemma describe_nonempty : forall N p w, 1 < N \/ w <> [] -> describe N p w <> [].
Proof.
  intros N p w H. unfold describe.
  destruct (Nat.ltb_spec 1 N).
  - intros E. apply app_eq_nil in E. destruct E as [_ E].
    apply app_eq_nil in E. destruct E as [E _]. discriminate E.
  - destruct H; [lia|auto].
Qed.

Lemma head_inRankOrder : forall N str p, p < N -> str p <> [] ->
  (forall p', p' < p -> str p' = []) -> exists l, inRankOrder N str = str p :: l.
Proof.
  intros N str p Hp Hs Hl. unfold inRankOrder.
  replace N with (p + S (N - S p)) by lia.
  rewrite seq_app, map_app, filter_app.
  assert (G : forall xs, (forall x, In x xs -> str x = []) ->
                filter nonEmpty (map str xs) = []).
  { induction xs as [|x xs IH]; intros H; cbn; auto.
    rewrite H by (left; auto). cbn. apply IH. intros; apply H; right; auto. }
  rewrite G.
  - cbn [app seq map filter Nat.add].
    destruct (str p) as [|a l]; [congruence|]. cbn [nonEmpty]. eauto.
  - intros x Hx. apply in_seq in Hx. apply Hl. lia.
Qed.

Lemma thrown_false : forall N outcome i,
  (forall p, p < N -> ~ fails outcome p i) ->
  existsb (fun p => 0 <? thrownFlag (outcome p i)) (seq 0 N) = false.
Proof.
  intros N outcome i H. destruct (existsb _ _) eqn:E; [|reflexivity].
  apply existsb_exists in E. destruct E as (p & Hp & E). apply in_seq in Hp.
  exfalso. apply (H p ltac:(lia)). unfold thrownFlag in E. unfold fails.
  destruct (outcome p i); try discriminate. eauto.
Qed.

Lemma setUp_throws : forall N outcome steps i0 i p prefix C, 0 < N ->
  (forall p i, outcome p i <> OtherException) ->
  (forall i, fit N (report N outcome i)) ->
  p < N -> fails outcome p (i0 + i) ->
  (forall i' p', i' < i -> p' < N -> ~ fails outcome p' (i0 + i')) ->
  (forall p', p' < p -> ~ fails outcome p' (i0 + i)) ->
  (1 < N \/ report N outcome (i0 + i) p <> []) ->
  nth_error steps i = Some prefix ->
  assuredRun (cfg N (fun q => setUp N q steps i0 (outcome q)) C)
             (cfg N (fun _ => Ret (Threw (prefix ++ report N outcome (i0 + i) p))) C).
Proof.
  intros N outcome. induction steps as [|pf steps IH];
    intros i0 i p prefix C HN Ho Hf Hp Hfail Hi Hlow Hne Hn.
  - destruct i; discriminate.
  - destruct i as [|i].
    + cbn in Hn. injection Hn as ->. rewrite Nat.add_0_r in *.
      apply step_run; auto.
      * intros _.
        destruct (head_inRankOrder N (report N outcome i0) p Hp) as (l & ->).
        { destruct Hfail as (w & Hw). destruct Hne as [Hne|Hne]; auto.
          unfold report. rewrite Hw. apply describe_nonempty. auto. }
        { intros p' Hp'. unfold report. specialize (Hlow p' Hp').
          destruct (outcome p' i0) eqn:E; auto. exfalso. apply Hlow. exists what. auto. }
        constructor.
      * intros E. exfalso.
        assert (Hx : existsb (fun p => 0 <? thrownFlag (outcome p i0)) (seq 0 N) = true).
        { apply existsb_exists. exists p. split; [apply in_seq; lia|].
          destruct Hfail as (w & ->). reflexivity. }
        congruence.
    + cbn in Hn. apply step_run; auto.
      * intros E. rewrite thrown_false in E; [discriminate|].
        intros p' Hp'. replace i0 with (i0 + 0) by lia. apply Hi; lia.
      * intros _. replace (i0 + S i) with (S i0 + i) in * by lia.
        apply IH; auto. intros i' p' Hi' Hp'.
        replace (S i0 + i') with (i0 + S i') by lia. apply Hi; lia.
Qed.

Lemma setUp_fine : forall N outcome steps i0 C, 0 < N ->
  (forall p i, p < N -> outcome p i = Fine) ->
  (forall i, fit N (report N outcome i)) ->
  assuredRun (cfg N (fun q => setUp N q steps i0 (outcome q)) C)
             (cfg N (fun _ => Ret Constructed) C).
Proof.
  intros N outcome. induction steps as [|pf steps IH]; intros i0 C HN Ho Hf.
  - cbn. constructor.
  - apply step_run; auto.
    + intros p Hp. rewrite Ho by auto. discriminate.
    + intros E. rewrite thrown_false in E; [discriminate|].
      intros p Hp (w & Hw). rewrite Ho in Hw by auto. discriminate.
Qed.

Lemma catchFatal_run : forall N outcome, 0 < N ->
  assuredRun (start N (fun p => catchFatal (outcome p)))
             (done N (fun _ => existsb (fun p => match outcome p with Fine => false | _ => true end)
                                 (seq 0 N))).
Proof.
  intros N outcome HN. unfold done. rewrite !start_cfg.
  econstructor.
  { apply (cfg_coll _ N _ noMsg tagMax
      (fun p => MInt (match outcome p with Fine => 0 | _ => 1 end))
      (fun _ ms => Ret (0 <? fold_right Nat.max 0 (map asInt ms))) HN).
    intros p Hp. reflexivity. }
  rewrite (map_asInt nat (fun p => match outcome p with Fine => 0 | _ => 1 end)).
  rewrite fold_max_pos.
  assert (E : forall xs,
    existsb (fun p => 0 <? match outcome p with Fine => 0 | _ => 1 end) xs
    = existsb (fun p => match outcome p with Fine => false | _ => true end) xs).
  { induction xs as [|x xs IH]; [reflexivity|].
    cbn [existsb]. rewrite IH. destruct (outcome x); reflexivity. }
  rewrite E. constructor.
Qed.

Lemma pre_run : forall N ok, 0 < N ->
  assuredRun (start N (fun p => preconditionerPre (ok p)))
             (done N (fun _ => if forallb ok (seq 0 N) then Applied else Failed)).
Proof.
  intros N ok HN. unfold done. rewrite !start_cfg.
  econstructor.
  { apply (cfg_coll _ N _ noMsg tagMin (fun p => MInt (if ok p then 1 else 0))
      (fun _ ms => Ret (if 0 <? fold_right Nat.min 1 (map asInt ms) then Applied else Failed)) HN).
    intros p Hp. reflexivity. }
  rewrite (map_asInt nat (fun p => if ok p then 1 else 0)).
  rewrite fold_min_pos. constructor.
Qed.
