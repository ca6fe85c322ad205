(** C58: the converter of ART grid files. *)
From Coq Require Import List Bool Arith ZArith QArith String Ascii Lia Lqa.
Import ListNotations.
From Verif Require Import Num ParamModel ArtModel ArtSpec ArtProofs.
Local Close Scope string_scope.
Open Scope nat_scope.

(** For every file with the three sections, whose lines may be indented, commented or empty: if
    the edges join vertices of the file and the elements are triangles made of edges of the
    file, the converter works exactly if no triangle is flat.  It then writes the vertices in
    their order, every triangle once, in its place and with counter-clockwise corners, and marks
    exactly the vertices of the fractures, if there are any. *)
Theorem C58_triangles_once_and_counter_clockwise readVertex readEdge readElement text vs es ts es' :
  artFile text vs es ts -> Forall2 (edgeOf readEdge (List.length vs)) es es' ->
  Forall (fun t => exists x y z, triangleOf readElement (map snd es') t x y z) ts ->
  let pos := map readVertex vs in
  let good := Forall (fun t => forall x y z, triangleOf readElement (map snd es') t x y z ->
                                 ~ flat pos x y z) ts in
  (good -> exists V T,
     convert readVertex readEdge readElement text = Some (V, T) /\ map fst V = pos /\
     (forall v p m, nth_error V v = Some (p, m) ->
        (Forall (fun e => (0 <= fst e)%Z) es' -> m = None) /\
        (~ Forall (fun e => (0 <= fst e)%Z) es' -> exists b, m = Some b /\ (b = true <-> onFracture es' v))) /\
     Forall2 (fun t tri => exists x y z, tri = [x; y; z] /\ triangleOf readElement (map snd es') t x y z /\
                             counterClockwise pos x y z) ts T) /\
  (convert readVertex readEdge readElement text <> None -> good).
Proof. apply convert_result. Qed.
Print Assumptions C58_triangles_once_and_counter_clockwise.

(** An edge which does not join two vertices of the file is never converted silently. *)
Theorem C58_faulty_edges_are_reported readVertex readEdge readElement text vs es ts :
  artFile text vs es ts -> (forall es', ~ Forall2 (edgeOf readEdge (List.length vs)) es es') ->
  convert readVertex readEdge readElement text = None.
Proof. intros A N. exact (proj2 (convert_file readVertex readEdge readElement text vs es ts A) N). Qed.
Print Assumptions C58_faulty_edges_are_reported.

(** The end marks that are recognised: a line with a content other than the lone dollar sign
    ends no section, so without such a line everything is a vertex. *)
Theorem C58_without_a_mark_everything_is_a_vertex readVertex readEdge readElement text :
  Forall (fun l => ~ contentOf l ["$"%char]) (lines_of text) ->
  exists V, convert readVertex readEdge readElement text = Some (V, []) /\
            Forall (fun v => snd v = None) V.
Proof.
  intros H. unfold convert.
  assert (H' : Forall (fun l => ~ contentOf l ["$"%char]) (rounds text)).
  { unfold rounds. destruct (last (lines_of text) []) as [|x r] eqn:L; [exact H|].
    apply Forall_app. split; [exact H|]. constructor; [|constructor]. intros C.
    apply clean_content in C. rewrite clean_idem in C.
    assert (I : In (x :: r) (lines_of text)).
    { rewrite <- L. destruct (lines_of text) as [|y ls] eqn:E; [discriminate L|].
      destruct (@exists_last _ (y :: ls) ltac:(discriminate)) as (B & z & ->).
      rewrite last_last. apply in_or_app. right. left. reflexivity. }
    rewrite Forall_forall in H. apply (H _ I). rewrite <- C. apply content_clean. }
  destruct (no_marks readVertex readEdge readElement _ newConv eq_refl H') as (new & ->).
  cbn. eexists. split; [reflexivity|]. apply Forall_forall. intros v Hv.
  apply in_map_iff in Hv. destruct Hv as (w & <- & _). reflexivity.
Qed.
Print Assumptions C58_without_a_mark_everything_is_a_vertex.

(** ** Readers of decimal numbers, for the examples. *)
Definition digit (c : ascii) : nat := N.to_nat (N_of_ascii c - 48).
Fixpoint words (l : str) : list str :=
  match l with
  | [] => []
  | c :: r => if isspace c then [] :: words r
              else match words r with [] => [[c]] | w :: ws => (c :: w) :: ws end
  end.
Definition tokens (l : str) : list str := filter (fun w => negb (str_eqb w [])) (words l).
Definition natOf (w : str) : nat := fold_left (fun n c => 10 * n + digit c) w 0.
Definition intOf (w : str) : Z :=
  match w with c :: r => if ceq c "-"%char then (- Z.of_nat (natOf r))%Z else Z.of_nat (natOf w) | [] => 0%Z end.
Definition readV (l : str) : position :=
  match tokens l with
  | a :: b :: _ => (inject_Z (intOf a), inject_Z (intOf b)) | [a] => (inject_Z (intOf a), 0%Q) | [] => (0%Q, 0%Q)
  end.
Definition readE (l : str) : option (Z * list nat) :=
  match tokens l with
  | d :: s :: r => if str_eqb s [":"%char] then Some (intOf d, map natOf r) else None | _ => None
  end.
Definition readT (l : str) : option (list nat) := option_map snd (readE l).
Notation conv0 := (convert readV readE readT).
Notation txt := list_ascii_of_string.

(** A file with two triangles, the second one given clockwise, and one fracture. *)
Definition twoTriangles : str := txt "% a square
  0 0 0
1 0 0
1 1 0 % corner

0 1 0
 $% end of vertices
0 : 0 1
0 : 1 2
-3 : 2 0
0 : 2 3
0 : 0 3
$
0 : 0 1 2
1 : 2 4 3
$".

Example two_triangles_converted :
  conv0 twoTriangles =
    Some ([((0, 0)%Q, Some true); ((1, 0)%Q, Some false); ((1, 1)%Q, Some true); ((0, 1)%Q, Some false)],
          [[0; 1; 2]; [2; 3; 0]]).
Proof. vm_compute. reflexivity. Qed.

Tactic Notation "content" constr(b) constr(r) := exists (txt b), (txt r);
  split; [reflexivity|]; split; [repeat constructor|]; split; [first [left; reflexivity|right; eexists; reflexivity]|];
  split; [intros c t' H; first [discriminate H|injection H as <- _; reflexivity]
         |intros H; cbn in H; repeat (destruct H as [H|H]; [discriminate H|]); exact H].
Tactic Notation "empty" constr(b) constr(r) := apply SSkip; [content b r|].
Tactic Notation "line" constr(b) constr(r) := apply SLine; [content b r|discriminate|discriminate|].

(** The hypotheses of the theorem hold for it. *)
Example two_triangles_file :
  artFile twoTriangles [txt "0 0 0"; txt "1 0 0"; txt "1 1 0 "; txt "0 1 0"]%string
    [txt "0 : 0 1"; txt "0 : 1 2"; txt "-3 : 2 0"; txt "0 : 2 3"; txt "0 : 0 3"]%string
    [txt "0 : 0 1 2"; txt "1 : 2 4 3"]%string.
Proof.
  exists [txt "% a square"; txt "  0 0 0"; txt "1 0 0"; txt "1 1 0 % corner"; []; txt "0 1 0"]%string,
    (txt " $% end of vertices")%string,
    [txt "0 : 0 1"; txt "0 : 1 2"; txt "-3 : 2 0"; txt "0 : 2 3"; txt "0 : 0 3"]%string,
    (txt "$"), [txt "0 : 0 1 2"; txt "1 : 2 4 3"]%string, (txt "$"), [].
  split; [vm_compute; reflexivity|].
  split; [empty ""%string "% a square"%string; line "  "%string ""%string; line ""%string ""%string; line ""%string "% corner"%string;
          empty ""%string ""%string; line ""%string ""%string; constructor|].
  split; [repeat line ""%string ""%string; constructor|]. split; [repeat line ""%string ""%string; constructor|].
  split; [constructor|]. split; [content " "%string "% end of vertices"%string|].
  split; [content ""%string ""%string|content ""%string ""%string].
Qed.

Definition twoEdges : list (Z * (nat * nat)) :=
  [(0%Z, (0, 1)); (0%Z, (1, 2)); ((-3)%Z, (2, 0)); (0%Z, (2, 3)); (0%Z, (0, 3))].

Example two_triangles_edges :
  Forall2 (edgeOf readE 4)
    [txt "0 : 0 1"; txt "0 : 1 2"; txt "-3 : 2 0"; txt "0 : 2 3"; txt "0 : 0 3"]%string twoEdges.
Proof. repeat constructor; vm_compute; reflexivity. Qed.

Example two_triangles_elements :
  Forall (fun t => exists x y z, triangleOf readT (map snd twoEdges) t x y z)
    [txt "0 : 0 1 2"; txt "1 : 2 4 3"]%string.
Proof.
  constructor; [|constructor; [|constructor]].
  - exists 0, 1, 2, 0, 1, 2, (0, 1), (1, 2), (2, 0). repeat (split; [vm_compute; congruence|]).
    intros v. unfold isEnd. cbn. lia.
  - exists 0, 2, 3, 2, 4, 3, (2, 0), (0, 3), (2, 3). repeat (split; [vm_compute; congruence|]).
    intros v. unfold isEnd. cbn. lia.
Qed.

(** None of the two is flat: the converter works. *)
Example two_triangles_work : conv0 twoTriangles <> None.
Proof. rewrite two_triangles_converted. discriminate. Qed.

(** ** Where the property fails. *)

(** A blank behind the end mark: the square with "$ " for "$".  No mark is recognised, all lines
    are taken for vertices, and no triangle is written. *)
Definition markOf (m : string) : str :=
  (txt "0 0
1 0
1 1
" ++ txt m ++ txt "
0 : 0 1
0 : 1 2
0 : 2 0
" ++ txt m ++ txt "
0 : 0 1 2
" ++ txt m ++ txt "
")%list.

Theorem C58_marks_with_a_trailing_blank_refuted :
  (exists V, conv0 (markOf "$") = Some (V, [[0; 1; 2]]) /\ List.length V = 3) /\
  (exists V, conv0 (markOf "$ ") = Some (V, []) /\ List.length V = 10) /\
  (exists V, conv0 (markOf "$ % end") = Some (V, []) /\ List.length V = 10).
Proof.
  split; [|split]; eexists; (split; [vm_compute; reflexivity|reflexivity]).
Qed.
Print Assumptions C58_marks_with_a_trailing_blank_refuted.

(** The fracture edges themselves are not written: a triangle with two fractures and one with
    three give the same output. *)
Definition triangleWith (d : string) : str :=
  (txt "0 0
1 0
1 1
$
-1 : 0 1
-1 : 1 2
" ++ txt d ++ txt " : 2 0
$
0 : 0 1 2
$
")%list.

Lemma fracture_file d :
  d = "0"%string \/ d = "-1"%string ->
  artFile (triangleWith d) [txt "0 0"; txt "1 0"; txt "1 1"]%string
    [txt "-1 : 0 1"; txt "-1 : 1 2"; (txt d ++ txt " : 2 0")%list]%string [txt "0 : 0 1 2"]%string.
Proof.
  intros D. exists [txt "0 0"; txt "1 0"; txt "1 1"]%string, (txt "$"),
    [txt "-1 : 0 1"; txt "-1 : 1 2"; (txt d ++ txt " : 2 0")%list]%string, (txt "$"),
    [txt "0 : 0 1 2"]%string, (txt "$"), [[]].
  destruct D as [->| ->].
  - split; [vm_compute; reflexivity|]. split; [repeat line ""%string ""%string; constructor|].
    split; [repeat line ""%string ""%string; constructor|]. split; [repeat line ""%string ""%string; constructor|].
    split; [empty ""%string ""%string; constructor|]. split; [content ""%string ""%string|]. split; [content ""%string ""%string|content ""%string ""%string].
  - split; [vm_compute; reflexivity|]. split; [repeat line ""%string ""%string; constructor|].
    split; [repeat line ""%string ""%string; constructor|]. split; [repeat line ""%string ""%string; constructor|].
    split; [empty ""%string ""%string; constructor|]. split; [content ""%string ""%string|]. split; [content ""%string ""%string|content ""%string ""%string].
Qed.

Theorem C58_fracture_edges_are_written_refuted :
  exists t1 t2 vs es1 es2 ts e1 e2,
    artFile t1 vs es1 ts /\ artFile t2 vs es2 ts /\
    Forall2 (edgeOf readE (List.length vs)) es1 e1 /\ Forall2 (edgeOf readE (List.length vs)) es2 e2 /\
    (exists e, In e (map snd (filter (fun x => (fst x <? 0)%Z) e2)) /\
               ~ In e (map snd (filter (fun x => (fst x <? 0)%Z) e1))) /\
    conv0 t1 = conv0 t2 /\ conv0 t1 <> None.
Proof.
  exists (triangleWith "0"), (triangleWith "-1"), [txt "0 0"; txt "1 0"; txt "1 1"]%string,
    [txt "-1 : 0 1"; txt "-1 : 1 2"; (txt "0" ++ txt " : 2 0")%list]%string,
    [txt "-1 : 0 1"; txt "-1 : 1 2"; (txt "-1" ++ txt " : 2 0")%list]%string,
    [txt "0 : 0 1 2"]%string,
    [((-1)%Z, (0, 1)); ((-1)%Z, (1, 2)); (0%Z, (2, 0))],
    [((-1)%Z, (0, 1)); ((-1)%Z, (1, 2)); ((-1)%Z, (2, 0))].
  split; [apply fracture_file; auto|]. split; [apply fracture_file; auto|].
  split; [repeat constructor; vm_compute; reflexivity|].
  split; [repeat constructor; vm_compute; reflexivity|].
  split. { exists (2, 0). split; [cbn; auto|]. cbn. intros [H|[H|[]]]; discriminate H. }
  split; [vm_compute; reflexivity|]. vm_compute. discriminate.
Qed.
Print Assumptions C58_fracture_edges_are_written_refuted.

(** A file which ends with its last triangle, without a mark and without a line end: the triangle
    is written twice. *)
Definition noLineEnd : str := txt "0 0
1 0
1 1
$
0 : 0 1
0 : 1 2
0 : 2 0
$
0 : 0 1 2".

Theorem C58_last_triangle_once_refuted :
  exists text V, conv0 (text ++ [newline]) = Some (V, [[0; 1; 2]]) /\
    conv0 text = Some (V, [[0; 1; 2]; [0; 1; 2]]).
Proof.
  exists noLineEnd. eexists. split; vm_compute; reflexivity.
Qed.
Print Assumptions C58_last_triangle_once_refuted.
