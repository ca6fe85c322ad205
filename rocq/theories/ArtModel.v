(** The converter of ART grid files to DGF files (art2dgf/art2dgf.cc:49-261).

    Simplifications.  Coordinates are exact rationals, and reading the numbers of a line is a
    function of the line.  A failing assertion and what happens in its place if assertions are
    switched off are one outcome, [Fails].  The output is described by its contents; the fixed
    text around it (218-223, 256-260) and the formatting of the numbers are left out. *)
From Coq Require Import List Bool Arith ZArith QArith String Ascii.
Import ListNotations.
From Verif Require Import Num ParamModel.
Local Close Scope string_scope.
Open Scope nat_scope.

Definition position := (Q * Q)%type.
Inductive parseMode := Vertex | Edge | Element | Finished.

(** The local variables of [convert] (56-66): vertices with their mark, edges, fracture edges,
    elements. *)
Record conv := mkConv {
  mode : parseMode;
  vertexPos : list (position * bool);
  edges : list (nat * nat);
  fractureEdges : list (nat * nat);
  elements : list (list nat)
}.
Definition newConv : conv := mkConv Vertex [] [] [] [].

Inductive artOutcome := Works (c : conv) | Fails.

(** Comments (70-74). *)
Fixpoint beforePercent (l : str) : str :=
  match l with
  | [] => []
  | c :: r => if ceq c "%"%char then [] else c :: beforePercent r
  end.

(** Trailing white space (84-89): the character behind the end of a string is zero. *)
Fixpoint trailing (fuel n : nat) (l : str) : nat :=
  match fuel with
  | 0 => n
  | S f => if (n <? List.length l) && isspace (nth (List.length l - n) l zero) then trailing f (S n) l else n
  end.
Definition withoutTrailing (l : str) : str :=
  firstn (List.length l - trailing (S (List.length l)) 0 l) l.

(** A line without comment and white space (70-89). *)
Definition clean (l : str) : str := withoutTrailing (remove_leading_space (beforePercent l)).

Definition mark : str := ["$"%char].

(** [vertIndices] (173-197): both ends of an edge unless they are there already. *)
Definition addVertex (l : list nat) (v : nat) : list nat :=
  if existsb (Nat.eqb v) l then l else l ++ [v].
Definition addEdge (l : list nat) (e : nat * nat) : list nat := addVertex (addVertex l (fst e)) (snd e).

(** The determinant of the two sides at the first vertex (202-206). *)
Definition determinant (a b c : position) : Q :=
  ((fst b - fst a) * (snd c - snd a) - (snd b - snd a) * (fst c - fst a))%Q.
Definition tiny : Q := (1 / inject_Z (10 ^ 50))%Q.
Definition Qabs_ (x : Q) : Q := if Qltb x 0 then (- x)%Q else x.

Fixpoint setNth {A} (l : list A) (i : nat) (x : A) : list A :=
  match l, i with
  | [], _ => []
  | _ :: r, 0 => x :: r
  | y :: r, S j => y :: setNth r j x
  end.

Section Numbers.
Variable readVertex : str -> position.                 (* 107-112 *)
Variable readEdge : str -> option (Z * list nat).      (* 118-135: None if there is no colon *)
Variable readElement : str -> option (list nat).       (* 151-168 *)

Definition at1 (c : conv) (i : nat) : option position := option_map fst (nth_error (vertexPos c) i).

(** The mark of a vertex is set (146-147). *)
Definition markVertex (l : list (position * bool)) (i : nat) : list (position * bool) :=
  match nth_error l i with Some (p, _) => setNth l i (p, true) | None => l end.

(** One line which is neither empty nor a mark (106-215). *)
Definition vertexLine (l : str) (c : conv) : artOutcome :=
  Works (mkConv (mode c) (vertexPos c ++ [(readVertex l, false)]) (edges c) (fractureEdges c) (elements c)).

Definition edgeLine (l : str) (c : conv) : artOutcome :=
  match readEdge l with
  | Some (data, [a; b]) =>
      if (a <? List.length (vertexPos c)) && (b <? List.length (vertexPos c)) then
        if (data <? 0)%Z
        then Works (mkConv (mode c) (markVertex (markVertex (vertexPos c) a) b) (edges c ++ [(a, b)])
                           (fractureEdges c ++ [(a, b)]) (elements c))
        else Works (mkConv (mode c) (vertexPos c) (edges c ++ [(a, b)]) (fractureEdges c) (elements c))
      else Fails
  | _ => Fails
  end.

Definition swap12 (l : list nat) : list nat :=
  match l with a :: b :: c :: r => a :: c :: b :: r | _ => l end.

Definition elementLine (l : str) (c : conv) : artOutcome :=
  match readElement l with
  | Some [i; j; k] =>
      match nth_error (edges c) i, nth_error (edges c) j, nth_error (edges c) k with
      | Some e1, Some e2, Some e3 =>
          let vs := addEdge (addEdge (addEdge [] e1) e2) e3 in
          match nth_error vs 0, nth_error vs 1, nth_error vs 2 with
          | Some v0, Some v1, Some v2 =>
              match at1 c v0, at1 c v1, at1 c v2 with
              | Some p0, Some p1, Some p2 =>
                  let det := determinant p0 p1 p2 in
                  if Qltb tiny (Qabs_ det)
                  then Works (mkConv (mode c) (vertexPos c) (edges c) (fractureEdges c)
                                (elements c ++ [if Qltb det 0 then swap12 vs else vs]))
                  else Fails
              | _, _, _ => Fails
              end
          | _, _, _ => Fails
          end
      | _, _, _ => Fails
      end
  | _ => Fails
  end.

Definition setMode (m : parseMode) (c : conv) : conv :=
  mkConv m (vertexPos c) (edges c) (fractureEdges c) (elements c).

(** One round of the loop (70-215) with [l] in [curLine]. *)
Definition oneLine (l : str) (c : conv) : artOutcome :=
  let l := clean l in
  if str_eqb l mark then
    Works (setMode match mode c with Vertex => Edge | Edge => Element | _ => Finished end c)
  else match l with
       | [] => Works c
       | _ => match mode c with
              | Vertex => vertexLine l c
              | Edge => edgeLine l c
              | Element => elementLine l c
              | Finished => Fails
              end
       end.

Fixpoint lineLoop (ls : list str) (c : conv) : artOutcome :=
  match ls with
  | [] => Works c
  | l :: r => match oneLine l c with Works c' => lineLoop r c' | Fails => Fails end
  end.

(** What [curLine] holds in the rounds of the loop (67-68).  If the text ends with a line end,
    the last round gets an empty line.  Otherwise the last line is read up to the end of the
    file, the stream is still usable, and the next [getline] fails without changing [curLine],
    which is then still the last line, cleaned. *)
Definition rounds (text : str) : list str :=
  let ls := lines_of text in
  match last ls [] with
  | [] => ls
  | l => ls ++ [clean l]
  end.

(** The contents of the output file (225-254): the vertices, with their marks if there is a
    fracture edge, and the elements. *)
Definition convert (text : str) : option (list (position * option bool) * list (list nat)) :=
  match lineLoop (rounds text) newConv with
  | Fails => None
  | Works c =>
      let hasFractures := 0 <? List.length (fractureEdges c) in
      Some (map (fun v => (fst v, if hasFractures then Some (snd v) else None)) (vertexPos c),
            elements c)
  end.
End Numbers.
