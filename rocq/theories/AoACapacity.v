(** Model of ArrayOfArraysView::capacity() in a debug build, and the specification of the capacities of
    m_sizes and m_offsets. *)
From Coq Require Import List Arith ZArith Lia Bool.
From Verif Require Import Base Mem BufferManip AoA AoS.
Import ListNotations.
Set Implicit Arguments.

(** ArrayOfArraysView.hpp:366-374 capacity; [dbg]: LVARRAY_ASSERT is compiled in (Macros.hpp:156-160, 184, NDEBUG
    not defined), the failing assertion aborts. [AoA.aoa_capacity] is the value returned. *)
Definition capacity_of {V W} (dbg : bool) (a : aoa V W) : outcome nat :=
  _ <- check_if dbg (negb (BufferManip.capacity (szs a) <? BufferManip.capacity (offs a))) ;;
  Ok (aoa_capacity a).

(** * Specification: numbers only

    The number of arrays, the number of slots of m_sizes and the number of slots of m_offsets. *)
Record room : Type := mkRoom { arrays : nat; size_slots : nat; offset_slots : nat }.

(** Growth on demand: nothing while there is room, otherwise twice what is needed. *)
Definition twice_if_needed (have need : nat) : nat := if need <=? have then have else 2 * need.

Definition one_more (r : room) : room :=
  mkRoom (arrays r + 1) (twice_if_needed (size_slots r) (arrays r + 1)) (twice_if_needed (offset_slots r) (arrays r + 2)).
Definition at_least (n m : nat) (r : room) : room :=
  mkRoom n (Nat.max (size_slots r) m) (Nat.max (offset_slots r) (m + 1)).

Definition room_after {V} (c : acall V) (r : room) : room :=
  match c with
  | AResize n _ => at_least n n r
  | AResizeFromCapacities caps => at_least (length caps) (length caps) r
  | AReserve m => at_least (arrays r) m r
  | AAppend _ | AAppendFrom _ | AInsertArray _ _ => one_more r
  | AEraseArray _ => mkRoom (arrays r - 1) (size_slots r) (offset_slots r)
  | _ => r
  end.
Fixpoint rooms {V} (h : list (acall V)) (r : room) : room :=
  match h with [] => r | c :: h' => rooms h' (room_after c r) end.

(** The same for the calls of ArrayOfSets *)
Definition room_after_set {V} (c : tcall V) (r : room) : room :=
  match c with
  | TResize n _ => at_least n n r
  | TResizeFromCapacities caps => at_least (length caps) (length caps) r
  | TReserve m => at_least (arrays r) m r
  | TAppendSet _ | TInsertSet _ _ => one_more r
  | TEraseSet _ => mkRoom (arrays r - 1) (size_slots r) (offset_slots r)
  | _ => r
  end.
Fixpoint rooms_sets {V} (h : list (tcall V)) (r : room) : room :=
  match h with [] => r | c :: h' => rooms_sets h' (room_after_set c r) end.

(** Neither block is replaced by a larger one. *)
Definition same_blocks (r r' : room) : Prop := size_slots r' = size_slots r /\ offset_slots r' = offset_slots r.
(** [k] further (empty) arrays *)
Fixpoint more (k : nat) (r : room) : room := match k with O => r | S k' => one_more (more k' r) end.
(** What the documentation of capacity() describes: the number [c] such that arrays can be added without any
    reallocation exactly as long as there are no more than [c] of them. *)
Definition documented_capacity (r : room) (c : nat) : Prop :=
  forall k, k <> 0 -> (same_blocks r (more k r) <-> arrays r + k <= c).

(** Calls which do not add a single array *)
Definition no_single {V} (c : acall V) : bool :=
  match c with AAppend _ | AAppendFrom _ | AInsertArray _ _ => false | _ => true end.
(** Calls which do not ask for more outer capacity than [m], whatever the state *)
Definition asks_at_most {V} (m : nat) (c : acall V) : bool :=
  match c with AReserve k => k <=? m | _ => true end.
(** At every moment of the history there are at most [m] arrays. *)
Fixpoint at_most {V} (m : nat) (h : list (acall V)) (r : room) : bool :=
  (arrays r <=? m) && match h with [] => true | c :: h' => asks_at_most m c && at_most m h' (room_after c r) end.
