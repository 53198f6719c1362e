(** Model of src/bufferManipulation.hpp together with the buffer classes src/MallocBuffer.hpp and
    src/StackBuffer.hpp. The memory space argument is always the host here (ChaiBuffer is modelled
    separately in Chai.v). *)
From Coq Require Import List Arith ZArith Lia Bool.
From Verif Require Import Base Mem.
From Verif Require ArrayManip.
Import ListNotations.
Set Implicit Arguments.

(** Which buffer class: MallocBuffer.hpp:29 or StackBuffer.hpp:40 (with its LENGTH). *)
Inductive bkind : Type := BMalloc | BStack (len : nat).

Section BM.
Variable V : Type.
Variable chk triv : bool.
Variable kind : bkind.
Notation buf := (buf V).

(** MallocBuffer.hpp:160 / StackBuffer.hpp:105 capacity *)
Definition capacity (b : buf) : nat := length b.

(** Constructors: MallocBuffer.hpp:51 (null, capacity 0), StackBuffer.hpp:56 (LENGTH slots). *)
Definition empty_buf : buf := match kind with BMalloc => [] | BStack n => repeat Raw n end.

(** std::free of a block; releasing a block that still holds objects of a non-trivial type leaks
    them, which the model reports. *)
Definition is_raw (c : cell V) : bool := match c with Raw => true | _ => false end.
Definition release (b : buf) : outcome unit :=
  if (triv || forallb is_raw b)%bool then Ok tt else Fault FLeak.

(** MallocBuffer.hpp:128-142 reallocate; StackBuffer.hpp:87-92 reallocate. std::malloc is assumed
    to succeed. *)
Definition reallocate (b : buf) (size newCapacity : nat) : outcome buf :=
  match kind with
  | BMalloc =>
      let newb := repeat Raw newCapacity in
      let overlapAmount := Nat.min newCapacity size in
      '(newb1, b1) <- ArrayManip.uninitializedMove triv newb 0 overlapAmount b 0 ;;
      b2 <- ArrayManip.destroy triv b1 0 size ;;
      _ <- release b2 ;;
      Ok newb1
  | BStack len => _ <- error_if (len <? newCapacity) ;; Ok b
  end.

(** bufferManipulation.hpp:144-154 check (only under LVARRAY_BOUNDS_CHECK) *)
Definition check (b : buf) (size : nat) : outcome unit := check_if chk (capacity b <? size).

(** bufferManipulation.hpp:166-177 checkInsert; the position is signed. *)
Definition checkInsert (b : buf) (size : nat) (pos : Z) : outcome unit :=
  _ <- check b size ;;
  _ <- check_if chk (pos <? 0)%Z ;;
  check_if chk (Z.of_nat size <? pos)%Z.

(** bufferManipulation.hpp:188-201 free, with MallocBuffer.hpp:149-154 / StackBuffer.hpp:98 free *)
Definition free (b : buf) (size : nat) : outcome buf :=
  _ <- check b size ;;
  b1 <- ArrayManip.destroy triv b 0 size ;;
  match kind with
  | BMalloc => _ <- release b1 ;; Ok []
  | BStack _ => Ok b1
  end.

(** bufferManipulation.hpp:214-218 setCapacity *)
Definition setCapacity (b : buf) (size newCapacity : nat) : outcome buf :=
  _ <- check b size ;; reallocate b size newCapacity.

(** bufferManipulation.hpp:230-238 reserve *)
Definition reserve (b : buf) (size newCapacity : nat) : outcome buf :=
  _ <- check b size ;;
  if capacity b <? newCapacity then setCapacity b size newCapacity else Ok b.

(** bufferManipulation.hpp:251-259 dynamicReserve *)
Definition dynamicReserve (b : buf) (size newCapacity : nat) : outcome buf :=
  _ <- check b size ;;
  if capacity b <? newCapacity then setCapacity b size (2 * newCapacity) else Ok b.

(** bufferManipulation.hpp:272-286 resize (registerTouch is a no-op for these buffers) *)
Definition resize (b : buf) (size newSize : nat) (v : V) : outcome buf :=
  _ <- check b size ;;
  b1 <- reserve b size newSize ;;
  ArrayManip.resize triv b1 0 size newSize v.

(** bufferManipulation.hpp:297-303 emplaceBack *)
Definition emplaceBack (b : buf) (size : nat) (v : V) : outcome buf :=
  _ <- check b size ;;
  b1 <- dynamicReserve b size (size + 1) ;;
  ArrayManip.emplaceBack triv b1 0 size v.

(** The same call when the argument is a reference to element [i] of the same buffer: it is read by
    the constructor, i.e. after dynamicReserve. *)
Definition emplaceBackSelf (b : buf) (size i : nat) : outcome buf :=
  _ <- check b size ;;
  b1 <- dynamicReserve b size (size + 1) ;;
  v <- (if capacity b <? size + 1
        then match kind with BMalloc => Fault FDangling | BStack _ => rd b1 i end
        else rd b1 i) ;;
  ArrayManip.emplaceBack triv b1 0 size v.

(** bufferManipulation.hpp:315-324 emplace *)
Definition emplace (b : buf) (size : nat) (pos : Z) (v : V) : outcome buf :=
  _ <- checkInsert b size pos ;;
  b1 <- dynamicReserve b size (size + 1) ;;
  p <- to_ix pos ;;
  ArrayManip.emplace chk triv b1 0 size p v.

(** The same call when the argument is a reference to element [i] of the same buffer. *)
Definition emplaceSelf (b : buf) (size : nat) (pos : Z) (i : nat) : outcome buf :=
  _ <- checkInsert b size pos ;;
  b1 <- dynamicReserve b size (size + 1) ;;
  p <- to_ix pos ;;
  _ <- (if capacity b <? size + 1
        then match kind with BMalloc => Fault FDangling | BStack _ => Ok tt end else Ok tt) ;;
  ArrayManip.emplaceSelf chk triv b1 0 size p i.

(** bufferManipulation.hpp:338-350 insert; returns the number of values too. *)
Definition insert (b : buf) (size : nat) (pos : Z) (vs : list V) : outcome (buf * nat) :=
  _ <- checkInsert b size pos ;;
  let nVals := length vs in
  b1 <- dynamicReserve b size (size + nVals) ;;
  p <- to_ix pos ;;
  b2 <- ArrayManip.insert chk triv b1 0 size p vs ;;
  Ok (b2, nVals).

(** bufferManipulation.hpp:359-363 popBack *)
Definition popBack (b : buf) (size : nat) : outcome buf :=
  _ <- check b size ;;
  ArrayManip.popBack triv b 0 size.

(** bufferManipulation.hpp:373-379 erase; arrayManipulation::erase repeats the position check under
    LVARRAY_BOUNDS_CHECK (that is where a negative position is caught). *)
Definition erase (b : buf) (size : nat) (pos : Z) : outcome buf :=
  _ <- check b size ;;
  _ <- error_if (Z.of_nat size <=? pos)%Z ;;
  _ <- check_if chk (pos <? 0)%Z ;;
  p <- to_ix pos ;;
  ArrayManip.erase chk triv b 0 size p 1.

(** bufferManipulation.hpp:393-411 copyInto; [d] is the default value used by resize. *)
Definition copyInto (dst : buf) (dstSize : nat) (src : buf) (srcSize : nat) (d : V) : outcome buf :=
  _ <- check dst dstSize ;;
  _ <- check src srcSize ;;
  dst1 <- resize dst dstSize srcSize d ;;
  for_up srcSize (fun i b => v <- rd src i ;; assign triv b i v) 0 dst1.

End BM.
