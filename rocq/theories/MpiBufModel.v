(** Model of the memory management of opm/models/parallel/mpibuffer.hh: buffers and the
    blocks of memory they point to.  Assignment of buffers is not modelled (the code base does
    not use it). *)
From Coq Require Export List Bool Arith Lia.
Export ListNotations.

(** [data_] (a block number, or null), [dataSize_], and whether the object exists;
    mpibuffer.hh:192-193. *)
Record buffer := mkBuffer { b_data : option nat; b_size : nat; b_alive : bool }.

(** All buffers ever made, the number of blocks allocated so far and the blocks freed. *)
Record world := mkWorld { buffers : list buffer; blocks : nat; freed : list nat }.
Definition empty : world := mkWorld [] 0 [].

Inductive op :=
| Default               (* mpibuffer.hh:48-55 *)
| Sized (n : nat)       (* :57-64 *)
| Copy (from : nat)     (* :66, also used for moves: there is no move constructor *)
| Resize (i n : nat)    (* :74-80 *)
| Destroy (i : nat).    (* :68-69 *)

Inductive result := Fine (w : world) | DoubleFree | Impossible.

(** [delete[] p]: nothing for a null pointer. *)
Definition delete (p : option nat) (l : list nat) : option (list nat) :=
  match p with
  | None => Some l
  | Some b => if existsb (Nat.eqb b) l then None else Some (b :: l)
  end.

Definition set (i : nat) (b : buffer) (l : list buffer) : list buffer := firstn i l ++ b :: skipn (S i) l.

Definition apply (o : op) (w : world) : result :=
  match o with
  | Default => Fine (mkWorld (buffers w ++ [mkBuffer None 0 true]) (blocks w) (freed w))
  | Sized n => Fine (mkWorld (buffers w ++ [mkBuffer (Some (blocks w)) n true]) (S (blocks w)) (freed w))
  | Copy i =>
      match nth_error (buffers w) i with
      | Some b => if b_alive b then Fine (mkWorld (buffers w ++ [b]) (blocks w) (freed w)) else Impossible
      | None => Impossible
      end
  | Resize i n =>
      match nth_error (buffers w) i with
      | Some b => if b_alive b then
                    match delete (b_data b) (freed w) with
                    | Some f => Fine (mkWorld (set i (mkBuffer (Some (blocks w)) n true) (buffers w)) (S (blocks w)) f)
                    | None => DoubleFree
                    end
                  else Impossible
      | None => Impossible
      end
  | Destroy i =>
      match nth_error (buffers w) i with
      | Some b => if b_alive b then
                    match delete (b_data b) (freed w) with
                    | Some f => Fine (mkWorld (set i (mkBuffer (b_data b) (b_size b) false) (buffers w)) (blocks w) f)
                    | None => DoubleFree
                    end
                  else Impossible
      | None => Impossible
      end
  end.

Fixpoint run (l : list op) (w : world) : result :=
  match l with
  | [] => Fine w
  | o :: l => match apply o w with Fine w' => run l w' | r => r end
  end.
