(** Model of src/arrayManipulation.hpp. A pointer is a buffer plus a base offset [p]. Sizes and
    positions are non-negative here; negative arguments are handled where the API receives them.
    [chk] is LVARRAY_BOUNDS_CHECK. LVARRAY_ASSERT (debug only) is not modelled. *)
From Coq Require Import List Arith ZArith Lia Bool.
From Verif Require Import Base Mem.
Import ListNotations.
Set Implicit Arguments.

Section AM.
Variable V : Type.
Variable chk triv : bool.
Notation buf := (buf V).

(** arrayManipulation.hpp:151-163 destroy. For a trivially destructible T the loop is skipped, which
    is what [destroy1] does slot by slot. *)
Definition destroy (b : buf) (p size : nat) : outcome buf :=
  for_up size (fun i b => destroy1 triv b (p + i)) 0 b.

(** arrayManipulation.hpp:176-188 uninitializedCopy; the input range is the list of its values. *)
Fixpoint uninitializedCopy (vs : list V) (b : buf) (p : nat) : outcome buf :=
  match vs with
  | [] => Ok b
  | v :: vs' => b' <- construct triv b p v ;; uninitializedCopy vs' b' (p + 1)
  end.

(** arrayManipulation.hpp:200-212 uninitializedMove between two buffers: returns (dst, src). *)
Definition uninitializedMove (dst : buf) (pd size : nat) (src : buf) (ps : nat) : outcome (buf * buf) :=
  for_up size (fun i ds => let '(d, s) := ds in
                '(c, s') <- take triv s (ps + i) ;;
                d' <- place triv d (pd + i) c ;;
                Ok (d', s')) 0 (dst, src).

(** arrayManipulation.hpp:224-240 uninitializedShiftDown *)
Definition uninitializedShiftDown (b : buf) (p size amount : nat) : outcome buf :=
  if amount =? 0 then Ok b else
  for_up size (fun j b =>
    d <- sub_ix (p + j) amount ;;
    b1 <- mconstruct triv b d (p + j) ;;
    destroy1 triv b1 (p + j)) 0 b.

(** arrayManipulation.hpp:252-268 uninitializedShiftUp *)
Definition uninitializedShiftUp (b : buf) (p size amount : nat) : outcome buf :=
  if amount =? 0 then Ok b else
  for_down size (fun j b =>
    b1 <- mconstruct triv b (p + amount + j) (p + j) ;;
    destroy1 triv b1 (p + j)) b.

(** arrayManipulation.hpp:282-309 resize; [v] is the value of T( args... ), or of zeroed memory when
    there are no arguments and T is trivially default constructible. *)
Definition resize (b : buf) (p size newSize : nat) (v : V) : outcome buf :=
  b1 <- destroy b (p + newSize) (size - newSize) ;;
  for_up (newSize - size) (fun i b => construct triv b (p + i) v) size b1.

(** arrayManipulation.hpp:32-50 ARRAYMANIPULATION_CHECK_INSERT_BOUNDS / CHECK_BOUNDS *)
Definition check_insert_bounds (size index : nat) : outcome unit := check_if chk (size <? index).
Definition check_bounds (size index : nat) : outcome unit := check_if chk (size <=? index).

(** arrayManipulation.hpp:323-346 shiftUp *)
Definition shiftUp (b : buf) (p size index n : nat) : outcome buf :=
  _ <- check_insert_bounds size index ;;
  if n =? 0 then Ok b else
  b1 <- for_down (size - index) (fun k b => mconstruct triv b (p + (index + k) + n) (p + (index + k))) b ;;
  let bounds := if index + n <? size then index + n else size in
  destroy b1 (p + index) (bounds - index).

(** arrayManipulation.hpp:360-379 shiftDown *)
Definition shiftDown (b : buf) (p size index n : nat) : outcome buf :=
  _ <- check_insert_bounds size index ;;
  if n =? 0 then Ok b else
  for_up (size - index) (fun i b => d <- sub_ix (p + i) n ;; massign triv b d (p + i)) index b.

(** arrayManipulation.hpp:393-409 erase *)
Definition erase (b : buf) (p size index n : nat) : outcome buf :=
  if n =? 0 then Ok b else
  _ <- check_bounds size index ;;
  _ <- check_bounds size (index + n - 1) ;;
  b1 <- shiftDown b p size (index + n) n ;;
  d <- sub_ix (p + size) n ;;
  destroy b1 d n.

(** arrayManipulation.hpp:422-429 emplaceBack *)
Definition emplaceBack (b : buf) (p size : nat) (v : V) : outcome buf :=
  construct triv b (p + size) v.

(** arrayManipulation.hpp:444-461 append: returns the number of values appended. *)
Fixpoint append_loop (b : buf) (p size i : nat) (vs : list V) : outcome (buf * nat) :=
  match vs with
  | [] => Ok (b, i)
  | v :: vs' => b' <- construct triv b (p + size + i) v ;; append_loop b' p size (i + 1) vs'
  end.
Definition append (b : buf) (p size : nat) (vs : list V) : outcome (buf * nat) :=
  append_loop b p size 0 vs.

(** arrayManipulation.hpp:475-487 emplace *)
Definition emplace (b : buf) (p size index : nat) (v : V) : outcome buf :=
  _ <- check_insert_bounds size index ;;
  b1 <- shiftUp b p size index 1 ;;
  construct triv b1 (p + index) v.

(** The same call when the argument is a reference to element [i] of the array: it is read by the
    constructor, after the shift. *)
Definition emplaceSelf (b : buf) (p size index i : nat) : outcome buf :=
  _ <- check_insert_bounds size index ;;
  b1 <- shiftUp b p size index 1 ;;
  v <- rd b1 (p + i) ;;
  construct triv b1 (p + index) v.

(** arrayManipulation.hpp:502-519 insert; the n values starting at the iterator are the list [vs]. *)
Definition insert (b : buf) (p size index : nat) (vs : list V) : outcome buf :=
  _ <- check_insert_bounds size index ;;
  b1 <- shiftUp b p size index (length vs) ;;
  uninitializedCopy vs b1 (p + index).

(** arrayManipulation.hpp:530-536 popBack *)
Definition popBack (b : buf) (p size : nat) : outcome buf :=
  i <- sub_ix (p + size) 1 ;;
  destroy1 triv b i.

End AM.
