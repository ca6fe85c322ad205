(** Model of opm/models/utils/genericguard.hh. *)
From Coq Require Export List Bool Arith Lia.
Export ListNotations.

(** A guard object: the action it refers to (its number), [isEnabled_], and whether the object
    still exists; genericguard.hh:81-82. *)
Record guard := mkGuard { g_action : nat; g_enabled : bool; g_alive : bool }.

(** All guard objects ever made, and the actions run so far. *)
Record world := mkWorld { guards : list guard; ran : list nat }.

(** The operations on guard objects, which are numbered in the order of their creation. *)
Inductive op :=
| Make (action : nat)            (* constructor and make_guard, genericguard.hh:44-47 and 86-87 *)
| Move (from : nat)              (* move constructor, :50-55 *)
| SetEnabled (i : nat) (b : bool)(* setEnabled, :72-73 *)
| Destroy (i : nat).             (* destructor, :60-64 *)

Definition update (i : nat) (f : guard -> guard) (l : list guard) : list guard :=
  match nth_error l i with
  | Some g => firstn i l ++ f g :: skipn (S i) l
  | None => l
  end.
Definition enable (b : bool) (g : guard) : guard := mkGuard (g_action g) b (g_alive g).
Definition kill (g : guard) : guard := mkGuard (g_action g) (g_enabled g) false.

(** An operation on an object that does not exist is not possible: [None]. *)
Definition apply (o : op) (w : world) : option world :=
  match o with
  | Make a => Some (mkWorld (guards w ++ [mkGuard a true true]) (ran w))
  | Move i =>
      match nth_error (guards w) i with
      | Some g => if g_alive g
                  then Some (mkWorld (update i (enable false) (guards w) ++ [mkGuard (g_action g) (g_enabled g) true]) (ran w))
                  else None
      | None => None
      end
  | SetEnabled i b =>
      match nth_error (guards w) i with
      | Some g => if g_alive g then Some (mkWorld (update i (enable b) (guards w)) (ran w)) else None
      | None => None
      end
  | Destroy i =>
      match nth_error (guards w) i with
      | Some g => if g_alive g
                  then Some (mkWorld (update i kill (guards w)) (if g_enabled g then g_action g :: ran w else ran w))
                  else None
      | None => None
      end
  end.

Fixpoint run (l : list op) (w : world) : option world :=
  match l with
  | [] => Some w
  | o :: l => match apply o w with Some w' => run l w' | None => None end
  end.
Definition empty : world := mkWorld [] [].
