(** What an ART grid file describes (C58). *)
From Coq Require Import List Bool Arith ZArith QArith String Ascii.
Import ListNotations.
From Verif Require Import ParamModel ArtModel.
Local Close Scope string_scope.
Open Scope nat_scope.

(** A line consists of blanks, its content, and a comment behind a percent sign. *)
Definition blanks (b : str) : Prop := Forall (fun c => isspace c = true) b.
Definition comment (r : str) : Prop := r = [] \/ exists r', r = "%"%char :: r'.
Definition contentOf (l t : str) : Prop :=
  exists b r, l = b ++ t ++ r /\ blanks b /\ comment r /\
              (forall c t', t = c :: t' -> isspace c = false) /\ ~ In "%"%char t.

(** The lines of a section with their contents: lines without content count for nothing, and no
    line is an end mark. *)
Inductive sectionOf : list str -> list str -> Prop :=
| SNil : sectionOf [] []
| SSkip l ls ts : contentOf l [] -> sectionOf ls ts -> sectionOf (l :: ls) ts
| SLine l ls t ts : contentOf l t -> t <> [] -> t <> ["$"%char] -> sectionOf ls ts ->
                    sectionOf (l :: ls) (t :: ts).

(** A file with vertices [vs], edges [es] and elements [ts]. *)
Definition artFile (text : str) (vs es ts : list str) : Prop :=
  exists V m1 E m2 T m3 B,
    lines_of text = V ++ m1 :: E ++ m2 :: T ++ m3 :: B /\
    sectionOf V vs /\ sectionOf E es /\ sectionOf T ts /\ sectionOf B [] /\
    contentOf m1 ["$"%char] /\ contentOf m2 ["$"%char] /\ contentOf m3 ["$"%char].

(** An edge with its number, which is negative for a fracture. *)
Definition edgeOf (readEdge : str -> option (Z * list nat)) (n : nat) (t : str)
                  (e : Z * (nat * nat)) : Prop :=
  readEdge t = Some (fst e, [fst (snd e); snd (snd e)]) /\ fst (snd e) < n /\ snd (snd e) < n.

Definition isEnd (v : nat) (e : nat * nat) : Prop := v = fst e \/ v = snd e.

(** Twice the signed area of a triangle: positive if its corners are counter-clockwise. *)
Definition area2 (a b c : position) : Q :=
  ((fst b - fst a) * (snd c - snd a) - (fst c - fst a) * (snd b - snd a))%Q.

(** The element [t] of the file is the triangle with the corners [a], [b], [c]. *)
Definition triangleOf (readElement : str -> option (list nat)) (es : list (nat * nat)) (t : str)
                      (a b c : nat) : Prop :=
  exists i j k e1 e2 e3,
    readElement t = Some [i; j; k] /\
    nth_error es i = Some e1 /\ nth_error es j = Some e2 /\ nth_error es k = Some e3 /\
    a <> b /\ b <> c /\ a <> c /\
    (forall v, isEnd v e1 \/ isEnd v e2 \/ isEnd v e3 <-> v = a \/ v = b \/ v = c).

Definition counterClockwise (pos : list position) (a b c : nat) : Prop :=
  exists p q r, nth_error pos a = Some p /\ nth_error pos b = Some q /\ nth_error pos c = Some r /\
                (0 < area2 p q r)%Q.

(** The corners do not lie on a line, with the tolerance of the converter. *)
Definition flat (pos : list position) (a b c : nat) : Prop :=
  forall p q r, nth_error pos a = Some p -> nth_error pos b = Some q -> nth_error pos c = Some r ->
    (- (1 / inject_Z (10 ^ 50)) <= area2 p q r <= 1 / inject_Z (10 ^ 50))%Q.

(** A vertex of a fracture. *)
Definition onFracture (es : list (Z * (nat * nat))) (v : nat) : Prop :=
  exists d e, In (d, e) es /\ (d < 0)%Z /\ isEnd v e.
