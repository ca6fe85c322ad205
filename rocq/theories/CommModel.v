(** * Communication over the entities of a distributed grid

    Model of the data handles of /repo/opm/models/parallel/gridcommhandles.hh and of the
    classes which find the border lists
    (/repo/opm/simulators/linalg/vertexborderlistfromgrid.hh,
    /repo/opm/simulators/linalg/elementborderlistfromgrid.hh). *)

From Coq Require Import Arith List Bool QArith.
From Verif Require Import GlobalIndexModel ForeignModel PipelineModel.
Import ListNotations.
Local Open Scope nat_scope.

(* ----- the grid, which is given by DUNE ----- *)

(** Dune::PartitionType. *)
Inductive partitionType : Type :=
| InteriorEntity | BorderEntity | OverlapEntity | FrontEntity | GhostEntity.

(** The entities of one codimension on one process: their number, which entity of the
    global grid each of them is, their partition type, and for elements the neighbors over
    the intersections.  Entities are given by the index which the mapper assigns to them. *)
Record part : Type := mkPart {
  numEnt : nat;
  ident : nat -> nat;
  kind : nat -> partitionType;
  adjacent : nat -> list nat
}.

(** The two ends of the communication interfaces which are used here:
    InteriorBorder_InteriorBorder_Interface and InteriorBorder_All_Interface. *)
Definition interiorBorder (k : partitionType) : bool :=
  match k with InteriorEntity | BorderEntity => true | _ => false end.
Definition anyEntity (_ : partitionType) : bool := true.

(** A data handle: [gather] writes items for an entity, [scatter] reads items from the
    buffer, as many as it likes; [None] if it reads behind the end.  The state of a process
    is everything the handle refers to. *)
Record handle (S D : Type) : Type := mkHandle {
  gather : S -> nat -> list D;
  scatter : nat -> list D -> S -> option (S * list D)
}.
Arguments mkHandle {S D} _ _.
Arguments gather {S D} _ _ _.
Arguments scatter {S D} _ _ _ _.

Section Communicate.
Context {S D : Type}.
Variable h : handle S D.

(** [GridView::communicate], modelled after YaspGrid: between two processes, the sending
    one gathers the entities of the interface one after the other into one buffer, and
    the receiving one scatters the same sequence of entities.  [plan p q] is this
    sequence: the pairs of the index on p and the one on q.  All processes gather before
    anything is scattered.  Only handles with a fixed size exist in the code. *)
Definition message (st : S) (pairs : list (nat * nat)) : list D :=
  flat_map (fun ij => gather h st (fst ij)) pairs.

Fixpoint unpack (pairs : list (nat * nat)) (buf : list D) (st : S) : option S :=
  match pairs with
  | [] => Some st
  | (_, j) :: rest =>
      match scatter h j buf st with
      | Some (st', buf') => unpack rest buf' st'
      | None => None
      end
  end.

Fixpoint receiveFrom (plan : nat -> nat -> list (nat * nat)) (st0 : nat -> S) (q : nat)
    (senders : list nat) (st : S) : option S :=
  match senders with
  | [] => Some st
  | p :: rest =>
      match unpack (plan p q) (message (st0 p) (plan p q)) st with
      | Some st' => receiveFrom plan st0 q rest st'
      | None => None
      end
  end.

(** What becomes of the state of process q; the messages are scattered in the order
    [order q] of their senders. *)
Definition communicate (plan : nat -> nat -> list (nat * nat)) (order : nat -> list nat)
    (st0 : nat -> S) (q : nat) : option S :=
  receiveFrom plan st0 q (order q) (st0 q).

End Communicate.

(* ----- gridcommhandles.hh ----- *)

Definition setNth {A} (k : nat) (x : A) (l : list A) : list A :=
  firstn k l ++ match skipn k l with [] => [] | _ :: r => x :: r end.

Section Containers.
Variable A : Type.
Variable zero : A.

(** gridcommhandles.hh:76-81, 136-141, 197-202, 261-266. *)
Definition gatherValue (c : list A) (i : nat) : list A := [nth i c zero].

(** [GridCommHandleSum::scatter], gridcommhandles.hh:83-91. *)
Definition scatterSum (add : A -> A -> A) (j : nat) (buf : list A) (c : list A) : option (list A * list A) :=
  match buf with
  | [] => None
  | tmp :: buf' => Some (setNth j (add (nth j c zero) tmp) c, buf')
  end.

(** [GridCommHandleGhostSync::scatter], gridcommhandles.hh:143-148. *)
Definition scatterGhost (j : nat) (buf : list A) (c : list A) : option (list A * list A) :=
  match buf with
  | [] => None
  | tmp :: buf' => Some (setNth j tmp c, buf')
  end.

(** [GridCommHandleMax::scatter], gridcommhandles.hh:204-211; std::max(a, b) is b if
    a < b. *)
Definition scatterMax (ltb : A -> A -> bool) (j : nat) (buf : list A) (c : list A) : option (list A * list A) :=
  match buf with
  | [] => None
  | tmp :: buf' => Some (setNth j (if ltb (nth j c zero) tmp then tmp else nth j c zero) c, buf')
  end.

(** [GridCommHandleMin::scatter], gridcommhandles.hh:268-275; std::min(a, b) is b if
    b < a. *)
Definition scatterMin (ltb : A -> A -> bool) (j : nat) (buf : list A) (c : list A) : option (list A * list A) :=
  match buf with
  | [] => None
  | tmp :: buf' => Some (setNth j (if ltb tmp (nth j c zero) then tmp else nth j c zero) c, buf')
  end.

Definition handleSum (add : A -> A -> A) : handle (list A) A := mkHandle gatherValue (scatterSum add).
Definition handleGhost : handle (list A) A := mkHandle gatherValue scatterGhost.
Definition handleMax (ltb : A -> A -> bool) : handle (list A) A := mkHandle gatherValue (scatterMax ltb).
Definition handleMin (ltb : A -> A -> bool) : handle (list A) A := mkHandle gatherValue (scatterMin ltb).

End Containers.

Definition Qless (a b : Q) : bool := negb (Qle_bool b a).

(* ----- the border list of the vertices ----- *)

(** The handle writes the rank and the index; the state is (rank, border list).
    vertexborderlistfromgrid.hh:90-95. *)
Definition gatherIndex {S} (rankOf : S -> nat) (st : S) (i : nat) : list nat := [rankOf st; i].

(** vertexborderlistfromgrid.hh:97-115. *)
Definition scatterVertex (j : nat) (buf : list nat) (st : nat * list borderIndex)
  : option ((nat * list borderIndex) * list nat) :=
  match buf with
  | rank :: idx :: buf' => Some ((fst st, snd st ++ [mkBorder j idx rank 0]), buf')
  | _ => None
  end.

Definition handleVertex : handle (nat * list borderIndex) nat :=
  mkHandle (gatherIndex fst) scatterVertex.

(** The constructor, vertexborderlistfromgrid.hh:56-73: the border list (over
    InteriorBorder_InteriorBorder_Interface) and the black list. *)
Definition vertexBorderList (plan : nat -> nat -> list (nat * nat)) (order : nat -> list nat) (q : nat)
  : option (list borderIndex) :=
  option_map snd (communicate handleVertex plan order (fun p => (p, [])) q).

Definition vertexBlackListed (g : part) (i : nat) : bool :=
  match kind g i with InteriorEntity | BorderEntity => false | _ => true end.

(* ----- the border list of the elements ----- *)

(** The members of [BorderListHandle_], elementborderlistfromgrid.hh:150-155. *)
Record borderState : Type := mkBorderState {
  bsRank : nat;
  bsPeers : list nat;               (* peerSet_, ascending *)
  bsBorder : list borderIndex
}.

(** elementborderlistfromgrid.hh:106-118: does the element have an interior neighbor? *)
Definition hasInteriorNeighbor (g : part) (j : nat) : bool :=
  existsb (fun k => match kind g k with InteriorEntity => true | _ => false end) (adjacent g j).

(** [BorderListHandle_::scatter], elementborderlistfromgrid.hh:100-137.  Without an interior
    neighbor it returns before anything is read. *)
Definition scatterElement (g : part) (j : nat) (buf : list nat) (st : borderState)
  : option (borderState * list nat) :=
  if negb (hasInteriorNeighbor g j) then Some (st, buf)
  else match buf with
       | rank :: idx :: buf' =>
           Some (mkBorderState (bsRank st) (setInsert rank (bsPeers st))
                   (bsBorder st ++ [mkBorder j idx rank 1]), buf')
       | _ => None
       end.

Definition handleElement (g : part) : handle borderState nat :=
  mkHandle (gatherIndex bsRank) (scatterElement g).

(** std::map::operator[] and push_back. *)
Fixpoint pushBack (q : nat) (e : nat * nat) (m : peerBlackLists) : peerBlackLists :=
  match m with
  | [] => [(q, [e])]
  | (q', v) :: m' => if Nat.eqb q q' then (q', v ++ [e]) :: m' else (q', v) :: pushBack q e m'
  end.

Fixpoint hasPeer (q : nat) (m : peerBlackLists) : bool :=
  match m with
  | [] => false
  | (q', _) :: m' => Nat.eqb q q' || hasPeer q m'
  end.

(** [PeerBlackListHandle_::scatter], elementborderlistfromgrid.hh:191-208. *)
Definition scatterBlack (j : nat) (buf : list nat) (st : nat * peerBlackLists)
  : option ((nat * peerBlackLists) * list nat) :=
  match buf with
  | rank :: idx :: buf' => Some ((fst st, pushBack rank (idx, j) (snd st)), buf')
  | _ => None
  end.

Definition handleBlack : handle (nat * peerBlackLists) nat := mkHandle (gatherIndex fst) scatterBlack.

(** elementborderlistfromgrid.hh:68-73. *)
Definition elementBlackListed (g : part) (i : nat) : bool :=
  match kind g i with InteriorEntity => false | _ => true end.

(** What the constructor makes: the border list and the peer lists of the black list. *)
Inductive elementResult : Type :=
| ElementLists (b : list borderIndex) (pb : peerBlackLists)
| ReadsBehindEnd                    (* of the message *)
| NoPeerList.                       (* std::map::at throws *)

Fixpoint peerListsOf (peers : list nat) (m : peerBlackLists) : option peerBlackLists :=
  match peers with
  | [] => Some []
  | q :: rest =>
      if hasPeer q m then option_map (cons (q, bget q m)) (peerListsOf rest m) else None
  end.

(** The constructor, elementborderlistfromgrid.hh:221-240: two communications over
    InteriorBorder_All_Interface backwards, that is, from all entities to the interior and
    border ones.  [plan2], [order2]: those of the second one. *)
Definition elementBorderList (g : nat -> part) (plan : nat -> nat -> list (nat * nat)) (order : nat -> list nat)
    (plan2 : nat -> nat -> list (nat * nat)) (order2 : nat -> list nat) (q : nat) : elementResult :=
  match communicate (handleElement (g q)) plan order (fun p => mkBorderState p [] []) q with
  | None => ReadsBehindEnd
  | Some st =>
      match communicate handleBlack plan2 order2 (fun p => (p, [])) q with
      | None => ReadsBehindEnd
      | Some st2 =>
          match peerListsOf (bsPeers st) (snd st2) with
          | Some pb => ElementLists (bsBorder st) pb
          | None => NoPeerList
          end
      end
  end.
