(** * The prefetch friendly grid vector

    Models opm/models/utils/pffgridvector.hh.  The heap is a set of blocks; a freed block is
    gone.  Elements are given in the order of the loop over the grid, each by its index in
    the element mapper and the number of degrees of freedom of its stencil; the mapper does
    not change.  [prefetch] has no effect on values and is not modelled. *)
From Coq Require Import List Arith Bool.
Import ListNotations.

Section Pff.
Variable D : Type.
(** What the default constructor of the data gives. *)
Variable dflt : D.

Definition address := (nat * nat)%type.
Record heap := mkHeap { h_block : nat -> option (list D); h_next : nat }.
(** pffgridvector.hh:118-122: [data_] (its block, if it has one, and its capacity) and
    [elemData_]; a null pointer is [None]. *)
Record object := mkObject { o_block : option nat; o_cap : nat; o_ptr : list (option address) }.
Record element := mkElement { el_idx : nat; el_dofs : nat }.

(** pffgridvector.hh:54-58, the constructor: empty vectors. *)
Definition construct : object := mkObject None 0 [].

Definition setBlock (h : heap) (b : nat) (c : option (list D)) : heap :=
  mkHeap (fun x => if Nat.eqb x b then c else h_block h x) (h_next h).
Definition contentOf (h : heap) (o : object) : list D :=
  match o_block o with Some b => match h_block h b with Some c => c | None => [] end | None => [] end.
Definition freeBlock (h : heap) (o : object) : heap :=
  match o_block o with Some b => setBlock h b None | None => h end.
(** [n] elements, the first ones from [c]. *)
Definition resized (c : list D) (n : nat) : list D := firstn n c ++ repeat dflt (n - length c).
(** [std::vector::resize]: a new block if the capacity does not suffice. *)
Definition resizeData (h : heap) (o : object) (n : nat) : heap * object :=
  let c := resized (contentOf h o) n in
  if n <=? o_cap o then
    (match o_block o with Some b => setBlock h b (Some c) | None => h end, o)
  else
    let h1 := freeBlock h o in
    (mkHeap (fun x => if Nat.eqb x (h_next h1) then Some c else h_block h1 x) (S (h_next h1)),
     mkObject (Some (h_next h1)) n (o_ptr o)).
(** [elemData_.resize]. *)
Definition resizePtr (o : object) (n : nat) : object :=
  mkObject (o_block o) (o_cap o) (firstn n (o_ptr o) ++ repeat None (n - length (o_ptr o))).

(** pffgridvector.hh:103-116. *)
Definition computeNumLocalDofs (es : list element) : nat := fold_left (fun r e => r + el_dofs e) es 0.

Fixpoint setNth {A : Type} (n : nat) (x : A) (l : list A) : list A :=
  match l, n with
  | [], _ => []
  | _ :: l, O => x :: l
  | y :: l, S n => y :: setNth n x l
  end.

Variable dist : nat -> nat -> D -> D.
(** pffgridvector.hh:78-80: the function gets a reference to the entry and changes it. *)
Fixpoint fill (idx k n cur : nat) (c : list D) : list D :=
  match n with
  | O => c
  | S n => fill idx (S k) n cur (setNth (cur + k) (dist idx k (nth (cur + k) c dflt)) c)
  end.
(** pffgridvector.hh:72-85: the loop over the elements; [None]: a write past the end of
    [elemData_]. *)
Fixpoint loop (b : nat) (es : list element) (cur : nat) (c : list D) (ptr : list (option address))
  : option (list D * list (option address)) :=
  match es with
  | [] => Some (c, ptr)
  | e :: es =>
      if el_idx e <? length ptr then
        loop b es (cur + el_dofs e) (fill (el_idx e) 0 (el_dofs e) cur c) (setNth (el_idx e) (Some (b, cur)) ptr)
      else None
  end.
(** pffgridvector.hh:60-87.  [None]: undefined behaviour, among others [&data_[0]] of an empty
    vector (line 71). *)
Definition update (h : heap) (o : object) (es : list element) : option (heap * object) :=
  let total := computeNumLocalDofs es in
  let o1 := resizePtr o (length es) in
  let '(h2, o2) := resizeData h o1 total in
  if total =? 0 then None
  else match o_block o2 with
       | None => None
       | Some b =>
           match loop b es 0 (contentOf h2 o2) (o_ptr o2) with
           | Some (c, ptr) => Some (setBlock h2 b (Some c), mkObject (Some b) (o_cap o2) ptr)
           | None => None
           end
       end.
End Pff.

Section Get.
Variable D : Type.
(** pffgridvector.hh:98-102.  [None]: a null or dangling pointer, or behind the block. *)
Definition get (h : heap D) (o : object) (idx k : nat) : option D :=
  match nth_error (o_ptr o) idx with
  | Some (Some (b, a)) => match h_block D h b with Some c => nth_error c (a + k) | None => None end
  | _ => None
  end.
(** The implicit copy constructor: a copy of [data_] in a block of its own, and a copy of the
    pointers. *)
Definition copy (h : heap D) (o : object) : heap D * object :=
  match o_block o with
  | None => (h, mkObject None 0 (o_ptr o))
  | Some _ =>
      let c := contentOf D h o in
      (mkHeap D (fun x => if Nat.eqb x (h_next D h) then Some c else h_block D h x) (S (h_next D h)),
       mkObject (Some (h_next D h)) (length c) (o_ptr o))
  end.
(** The destructor of [data_]. *)
Definition destroy (h : heap D) (o : object) : heap D := freeBlock D h o.
End Get.
