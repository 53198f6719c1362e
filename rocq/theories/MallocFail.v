(** MallocBuffer when std::malloc may fail: bufferManipulation.hpp and the one dimensional Array over a MallocBuffer,
    every allocation being told whether it succeeds. A history is a list of calls, each with the answer std::malloc
    gives in it (a call allocates at most once). The buffer is its m_capacity and its block; the null pointer is
    the empty block, whatever m_capacity says (MallocBuffer.hpp:140-141 stores both without a check). An
    access through the null pointer is an access outside the block. *)
From Coq Require Import List Arith ZArith Bool.
From Verif Require Import Base Mem Debug.
From Verif Require ArrayManip BufferManip Array Indexing.
Import ListNotations.
Set Implicit Arguments.

Section Fail.
(** [dbg]: a debug build (the LVARRAY_ASSERTs); [chk]: LVARRAY_BOUNDS_CHECK; [triv]: T is trivial *)
Variables dbg chk : bool.
Variable V : Type.
Variable triv : bool.
Variable dflt : V.
Notation buf := (buf V).
(** MallocBuffer.hpp:175-179 m_capacity and m_data *)
Definition mbuf : Type := nat * buf.

(** MallocBuffer.hpp:128-142 reallocate; [ok]: std::malloc does not return the null pointer *)
Definition m_reallocate (ok : bool) (s : mbuf) (size newCapacity : nat) : outcome mbuf :=
  let newb := if ok then repeat Raw newCapacity else [] in
  let overlapAmount := Nat.min newCapacity size in
  '(newb1, b1) <- d_uninitializedMove dbg BufferManip.BMalloc triv newb 0 overlapAmount (snd s) 0 ;;
  b2 <- d_destroy dbg BufferManip.BMalloc triv b1 0 size ;;
  _ <- BufferManip.release triv b2 ;;
  Ok (newCapacity, newb1).

(** bufferManipulation.hpp:144-154 check; it looks at m_capacity *)
Definition m_check (s : mbuf) (size : nat) : outcome unit := check_if chk (fst s <? size).
(** 166-177 checkInsert *)
Definition m_checkInsert (s : mbuf) (size : nat) (pos : Z) : outcome unit :=
  _ <- m_check s size ;;
  _ <- check_if chk (pos <? 0)%Z ;;
  check_if chk (Z.of_nat size <? pos)%Z.
(** 188-201 free *)
Definition m_free (s : mbuf) (size : nat) : outcome mbuf :=
  _ <- m_check s size ;;
  b1 <- d_destroy dbg BufferManip.BMalloc triv (snd s) 0 size ;;
  _ <- BufferManip.release triv b1 ;;
  Ok (0, []).
(** 214-218 setCapacity *)
Definition m_setCapacity (ok : bool) (s : mbuf) (size newCapacity : nat) : outcome mbuf :=
  _ <- m_check s size ;; m_reallocate ok s size newCapacity.
(** 230-238 reserve *)
Definition m_reserve (ok : bool) (s : mbuf) (size newCapacity : nat) : outcome mbuf :=
  _ <- m_check s size ;;
  if fst s <? newCapacity then m_setCapacity ok s size newCapacity else Ok s.
(** 251-259 dynamicReserve *)
Definition m_dynamicReserve (ok : bool) (s : mbuf) (size newCapacity : nat) : outcome mbuf :=
  _ <- m_check s size ;;
  if fst s <? newCapacity then m_setCapacity ok s size (2 * newCapacity) else Ok s.
(** 272-286 resize *)
Definition m_resize (ok : bool) (s : mbuf) (size newSize : nat) (v : V) : outcome mbuf :=
  _ <- m_check s size ;;
  s1 <- m_reserve ok s size newSize ;;
  b <- d_resize dbg BufferManip.BMalloc triv (snd s1) 0 size newSize v ;;
  Ok (fst s1, b).
(** 297-303 emplaceBack *)
Definition m_emplaceBack (ok : bool) (s : mbuf) (size : nat) (v : V) : outcome mbuf :=
  _ <- m_check s size ;;
  s1 <- m_dynamicReserve ok s size (size + 1) ;;
  b <- d_emplaceBack dbg BufferManip.BMalloc triv (snd s1) 0 size v ;;
  Ok (fst s1, b).
(** 315-324 emplace *)
Definition m_emplace (ok : bool) (s : mbuf) (size : nat) (pos : Z) (v : V) : outcome mbuf :=
  _ <- m_checkInsert s size pos ;;
  s1 <- m_dynamicReserve ok s size (size + 1) ;;
  p <- to_ix pos ;;
  b <- d_emplace dbg chk BufferManip.BMalloc triv (snd s1) 0 size p v ;;
  Ok (fst s1, b).
(** 338-350 insert *)
Definition m_insert (ok : bool) (s : mbuf) (size : nat) (pos : Z) (vs : list V) : outcome (mbuf * nat) :=
  _ <- m_checkInsert s size pos ;;
  s1 <- m_dynamicReserve ok s size (size + length vs) ;;
  p <- to_ix pos ;;
  b <- d_insert dbg chk BufferManip.BMalloc triv (snd s1) 0 size p vs ;;
  Ok ((fst s1, b), length vs).
(** 359-363 popBack *)
Definition m_popBack (s : mbuf) (size : nat) : outcome mbuf :=
  _ <- m_check s size ;;
  b <- d_popBack dbg BufferManip.BMalloc triv (snd s) 0 size ;;
  Ok (fst s, b).
(** 373-379 erase *)
Definition m_erase (s : mbuf) (size : nat) (pos : Z) : outcome mbuf :=
  _ <- m_check s size ;;
  _ <- error_if (Z.of_nat size <=? pos)%Z ;;
  _ <- check_if chk (pos <? 0)%Z ;;
  p <- to_ix pos ;;
  b <- d_erase dbg chk BufferManip.BMalloc triv (snd s) 0 size p 1 ;;
  Ok (fst s, b).

(** A one dimensional Array: m_capacity of its buffer beside the model of the members (Array.v), whose block is
    the block of the buffer. *)
Definition marray : Type := nat * Array.array V.
Definition m_of (a : marray) : mbuf := (fst a, Array.a_buf (snd a)).
(** Array.hpp:86-99 default constructor *)
Definition m_new : marray := (0, Array.new_array V BufferManip.BMalloc [0]).
(** ArrayView.hpp:436 capacity *)
Definition m_capacity (a : marray) : nat := fst a.
(** Array.hpp:163-166 destructor *)
Definition m_dtor (a : marray) : outcome unit :=
  _ <- m_free (m_of a) (Array.size (snd a)) ;; Ok tt.
(** Array.hpp:590-605 resizeDefaultDimension of a one dimensional array *)
Definition m_resizeDefault (ok : bool) (a : marray) (n : Z) (v : V) : outcome marray :=
  _ <- error_if (n <? 0)%Z ;;
  let dims := upd (Array.a_dims (snd a)) (Array.a_rix (snd a)) (Z.to_nat n) in
  s <- m_resize ok (m_of a) (Array.size (snd a)) (Indexing.multiplyAll dims) v ;;
  Ok (fst s, Array.set_shape [0] (snd a) dims (snd s)).
(** "m_dims[ 0 ]" changed beside the buffer: Array.hpp:496, 512, 528, 539, 553 *)
Definition m_dim0 (a : marray) (n : nat) (s : mbuf) : marray := (fst s, Array.set_dim0 (snd a) n (snd s)).

(** Array.hpp:441-556, the calls of the one dimensional interface; [ok] answers the allocation of the call *)
Definition m_step (ok : bool) (c : Array.vcall V) (a : marray) : outcome marray :=
  let size := Array.size (snd a) in
  let d := nth 0 (Array.a_dims (snd a)) 0 in
  match c with
  | Array.VEmplaceBack v => s <- m_emplaceBack ok (m_of a) size v ;; Ok (m_dim0 a (d + 1) s)
  | Array.VEmplace pos v => s <- m_emplace ok (m_of a) size pos v ;; Ok (m_dim0 a (d + 1) s)
  | Array.VInsert pos vs => '(s, n) <- m_insert ok (m_of a) size pos vs ;; Ok (m_dim0 a (d + n) s)
  | Array.VPopBack => s <- m_popBack (m_of a) size ;; Ok (m_dim0 a (d - 1) s)
  | Array.VErase pos => s <- m_erase (m_of a) size pos ;; Ok (m_dim0 a (d - 1) s)
  | Array.VResize n => m_resizeDefault ok a n dflt
  | Array.VResizeDefault n v => m_resizeDefault ok a n v
  | Array.VReserve n =>
      s <- m_reserve ok (m_of a) size (Z.to_nat n) ;;
      Ok (fst s, Array.mkArray (Array.a_dims (snd a)) (Array.a_strides (snd a)) (Array.a_rix (snd a)) (snd s))
  | Array.VClear =>
      s <- m_resize ok (m_of a) size 0 dflt ;;
      Ok (fst s, Array.set_shape [0] (snd a) (upd (Array.a_dims (snd a)) (Array.a_rix (snd a)) 0) (snd s))
  | Array.VSet i v => a' <- Array.set_ chk triv [0] (snd a) [i] v ;; Ok (fst a, a')
  end.

(** calls, each with the answer of std::malloc *)
Fixpoint m_run (h : list (Array.vcall V * bool)) (a : marray) : outcome marray :=
  match h with
  | [] => Ok a
  | (c, ok) :: h' => a' <- m_step ok c a ;; m_run h' a'
  end.

(** Array.hpp:590-680 resizeDefaultDimension of an array with permutation [perm], as a_resizeDefaultDimension (Debug.v) *)
Definition m_resizeDefaultDimension (perm : list nat) (ok : bool) (a : marray) (newDim : Z) (v : V) : outcome marray :=
  _ <- error_if (newDim <? 0)%Z ;;
  let n := Z.to_nat newDim in
  let arr := snd a in
  let dims := upd (Array.a_dims arr) (Array.a_rix arr) n in
  if ((length perm =? 1) || (nth 0 perm 0 =? Array.a_rix arr))%bool then
    s <- m_resize ok (m_of a) (Array.size arr) (Indexing.multiplyAll dims) v ;;
    Ok (fst s, Array.set_shape perm arr dims (snd s))
  else
    let curDimLength := nth (Array.a_rix arr) (Array.a_dims arr) 0 in
    let curDimStride := nth (Array.a_rix arr) (Array.a_strides arr) 0 in
    let curSize := Array.size arr in
    let newSize := Indexing.multiplyAll dims in
    if newSize =? curSize then Ok (fst a, Array.set_shape perm arr dims (Array.a_buf arr))
    else if curDimLength <? n then
      s <- m_reserve ok (m_of a) curSize newSize ;;
      let toAdd := curDimStride * (n - curDimLength) in
      let toShift := curDimStride * curDimLength in
      let iters := (newSize - curSize) / toAdd in
      b' <- for_down iters (fun i b =>
              let left := toAdd * i in
              b1 <- d_shiftUp dbg chk BufferManip.BMalloc triv b (toShift * i) toShift 0 left ;;
              for_up toAdd (fun j b => construct triv b (toShift * i + toShift + left + j) v) 0 b1) (snd s) ;;
      Ok (fst s, Array.set_shape perm arr dims b')
    else
      let toRemove := curDimStride * (curDimLength - n) in
      let toShift := curDimStride * n in
      let iters := (curSize - newSize) / toRemove in
      b <- for_up (iters - 1) (fun i b =>
             let amount := toRemove * i in
             d_shiftDown dbg chk BufferManip.BMalloc triv b (toShift * i) (toShift + amount) amount amount) 1 (Array.a_buf arr) ;;
      let total := toRemove * iters in
      b' <- for_up total (fun i b => destroy1 triv b (newSize + i)) 0 b ;;
      Ok (fst a, Array.set_shape perm arr dims b').
End Fail.
