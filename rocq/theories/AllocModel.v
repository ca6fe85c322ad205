(** Model of opm/models/utils/alignedallocator.hh for a platform with 64-bit sizes and
    pointers. *)
From Coq Require Export ZArith Lia Bool Znumtheory.
Open Scope Z_scope.

(** [std::size_t] arithmetic. *)
Definition size_max : Z := 2 ^ 64.
Definition wrap (x : Z) : Z := x mod size_max.

(** is_alignment and is_alignment_constant, alignedallocator.hh:52-60. *)
Definition is_alignment (v : Z) : bool := (0 <? v) && (Z.land v (v - 1) =? 0).

(** The size of [struct { char offset; T object; }] for a type of the given size and (true)
    alignment: the object starts at the first multiple of the alignment after the first byte,
    and the whole is padded to a multiple of the alignment; alignedallocator.hh:67-72. *)
Definition round_up (x a : Z) : Z := (x + a - 1) / a * a.
Definition offset_object_size (size align : Z) : Z := round_up (round_up 1 align + size) align.

(** alignment_of, alignedallocator.hh:74-77: min of size and the difference. *)
Definition alignment_of (size align : Z) : Z :=
  let d := wrap (offset_object_size size align - size) in if size <? d then size else d.

(** max_align, alignedallocator.hh:79-82. *)
Definition max_align (a b : Z) : Z := if b <? a then a else b.

(** max_count_of, alignedallocator.hh:84-87. *)
Definition max_size (size : Z) : Z := (size_max - 1) / size.

(** The system: [mem a s] is the address of a new block of [s] bytes aligned to [a], or
    nothing if there is no memory.  posix_memalign itself rejects alignments which are not
    powers of two or not multiples of the size of a pointer. *)
Definition posix_memalign (mem : Z -> Z -> option Z) (a s : Z) : option Z :=
  if is_alignment a && (a mod 8 =? 0) then mem a s else None.

(** aligned_alloc, alignedallocator.hh:92-104; a null pointer is [0]. *)
Definition aligned_alloc (mem : Z -> Z -> option Z) (a s : Z) : Z :=
  match posix_memalign mem (if a <? 8 then 8 else a) s with Some p => p | None => 0 end.

(** allocate, alignedallocator.hh:154-162: the block and its length in bytes. *)
Inductive result := BadAlloc | Block (address bytes : Z).
Definition allocate (mem : Z -> Z -> option Z) (Alignment size align n : Z) : result :=
  let bytes := wrap (size * n) in
  let p := aligned_alloc mem (max_align Alignment (alignment_of size align)) bytes in
  if (p =? 0) && (0 <? n) then BadAlloc else Block p bytes.
