(** Model of a debug build: the functions of src/arrayManipulation.hpp, src/bufferManipulation.hpp, src/Array.hpp and
    src/ArrayOfArrays.hpp with their LVARRAY_ASSERTs (Macros.hpp:156-160, 184), which exist when NDEBUG is not
    defined ([dbg]). Each definition is that of ArrayManip.v, BufferManip.v, Array.v, AoA.v with the assertions
    added where the source has them. Assertions that a size, an amount or a capacity is not negative hold
    because the model uses natural numbers there, and are left out. *)
From Coq Require Import List Arith ZArith Lia Bool.
From Verif Require Import Base Mem BufferManip.
From Verif Require ArrayManip Array AoA.
Import ListNotations.
Set Implicit Arguments.

Section Debug.
(** [dbg]: NDEBUG not defined; [chk]: LVARRAY_BOUNDS_CHECK; [kind]: BUFFER_TYPE *)
Variable dbg chk : bool.
Variable kind : bkind.

Definition assert_ (c : bool) : outcome unit := check_if dbg (negb c).

Section AM.
Variable V : Type.
Variable triv : bool.
Notation buf := (buf V).
(** "ptr != nullptr" for the pointer [p] slots into the block [b]. A MallocBuffer has the null pointer iff its
    capacity is zero: std::malloc is only called with a capacity larger than the present one and is assumed
    to succeed. A StackBuffer is never null. *)
Definition nonnull (b : buf) (p : nat) : bool :=
  match kind with BMalloc => negb ((length b =? 0) && (p =? 0)) | BStack _ => true end.

(** arrayManipulation.hpp:151-163 destroy; the size may be negative there, and the assertion is about that size *)
Definition d_destroy (b : buf) (p size : nat) : outcome buf :=
  _ <- assert_ (nonnull b p || (size =? 0)) ;; ArrayManip.destroy triv b p size.
(** 176-188 uninitializedCopy *)
Definition d_uninitializedCopy (vs : list V) (b : buf) (p : nat) : outcome buf :=
  _ <- assert_ (nonnull b p || match vs with [] => true | _ => false end) ;; ArrayManip.uninitializedCopy triv vs b p.
(** 198-213 uninitializedMove *)
Definition d_uninitializedMove (dst : buf) (pd size : nat) (src : buf) (ps : nat) : outcome (buf * buf) :=
  _ <- assert_ (nonnull dst pd || (size =? 0)) ;;
  _ <- assert_ (nonnull src ps || (size =? 0)) ;; ArrayManip.uninitializedMove triv dst pd size src ps.
(** 224-242 uninitializedShiftDown *)
Definition d_uninitializedShiftDown (b : buf) (p size amount : nat) : outcome buf :=
  _ <- assert_ (nonnull b p || (size =? 0)) ;; ArrayManip.uninitializedShiftDown triv b p size amount.
(** 252-270 uninitializedShiftUp *)
Definition d_uninitializedShiftUp (b : buf) (p size amount : nat) : outcome buf :=
  _ <- assert_ (nonnull b p || (size =? 0)) ;; ArrayManip.uninitializedShiftUp triv b p size amount.
(** 282-312 resize. The size handed to destroy is negative when the array grows; the assertion of destroy then
    still asks whether it is zero. *)
Definition d_resize (b : buf) (p size newSize : nat) (v : V) : outcome buf :=
  _ <- assert_ (nonnull b p || ((size =? 0) && (newSize =? 0))) ;;
  _ <- assert_ (nonnull b (p + newSize) || (size =? newSize)) ;;
  b1 <- ArrayManip.destroy triv b (p + newSize) (size - newSize) ;;
  for_up (newSize - size) (fun i b => construct triv b (p + i) v) size b1.
(** 323-346 shiftUp *)
Definition d_shiftUp (b : buf) (p size index n : nat) : outcome buf :=
  _ <- assert_ (nonnull b p || ((size =? 0) && (n =? 0))) ;;
  _ <- ArrayManip.check_insert_bounds chk size index ;;
  if n =? 0 then Ok b else
  b1 <- for_down (size - index) (fun k b => mconstruct triv b (p + (index + k) + n) (p + (index + k))) b ;;
  let bounds := if index + n <? size then index + n else size in
  d_destroy b1 (p + index) (bounds - index).
(** 360-378 shiftDown *)
Definition d_shiftDown (b : buf) (p size index n : nat) : outcome buf :=
  _ <- ArrayManip.check_insert_bounds chk size index ;;
  _ <- assert_ (nonnull b p || ((size =? 0) && (n =? 0))) ;;
  _ <- assert_ (n <=? index) ;;
  if n =? 0 then Ok b else
  for_up (size - index) (fun i b => d <- sub_ix (p + i) n ;; massign triv b d (p + i)) index b.
(** 393-409 erase *)
Definition d_erase (b : buf) (p size index n : nat) : outcome buf :=
  if n =? 0 then Ok b else
  _ <- ArrayManip.check_bounds chk size index ;;
  _ <- ArrayManip.check_bounds chk size (index + n - 1) ;;
  b1 <- d_shiftDown b p size (index + n) n ;;
  d <- sub_ix (p + size) n ;;
  d_destroy b1 d n.
(** 422-429 emplaceBack *)
Definition d_emplaceBack (b : buf) (p size : nat) (v : V) : outcome buf :=
  _ <- assert_ (nonnull b p) ;; ArrayManip.emplaceBack triv b p size v.
(** 444-461 append *)
Definition d_append (b : buf) (p size : nat) (vs : list V) : outcome (buf * nat) :=
  _ <- assert_ (nonnull b p || ((size =? 0) && match vs with [] => true | _ => false end)) ;;
  ArrayManip.append triv b p size vs.
(** 475-487 emplace *)
Definition d_emplace (b : buf) (p size index : nat) (v : V) : outcome buf :=
  _ <- assert_ (nonnull b p) ;;
  _ <- ArrayManip.check_insert_bounds chk size index ;;
  b1 <- d_shiftUp b p size index 1 ;;
  construct triv b1 (p + index) v.
(** 500-519 insert; its own loop copies the values *)
Definition d_insert (b : buf) (p size index : nat) (vs : list V) : outcome buf :=
  _ <- assert_ (nonnull b p) ;;
  _ <- ArrayManip.check_insert_bounds chk size index ;;
  b1 <- d_shiftUp b p size index (length vs) ;;
  ArrayManip.uninitializedCopy triv vs b1 (p + index).
(** 528-536 popBack *)
Definition d_popBack (b : buf) (p size : nat) : outcome buf :=
  _ <- assert_ (nonnull b p) ;;
  _ <- assert_ (0 <? size) ;;
  i <- sub_ix (p + size) 1 ;;
  destroy1 triv b i.
End AM.

Section BM.
Variable V : Type.
Variable triv : bool.
Notation buf := (buf V).
(** MallocBuffer.hpp:128-142 reallocate; StackBuffer.hpp:87-92 reallocate. std::malloc is assumed
    to succeed. *)
Definition b_reallocate (b : buf) (size newCapacity : nat) : outcome buf :=
  match kind with
  | BMalloc =>
      let newb := repeat Raw newCapacity in
      let overlapAmount := Nat.min newCapacity size in
      '(newb1, b1) <- d_uninitializedMove triv newb 0 overlapAmount b 0 ;;
      b2 <- d_destroy triv b1 0 size ;;
      _ <- BufferManip.release triv b2 ;;
      Ok newb1
  | BStack len => _ <- error_if (len <? newCapacity) ;; Ok b
  end.

(** bufferManipulation.hpp:188-201 free, with MallocBuffer.hpp:149-154 / StackBuffer.hpp:98 free *)
Definition b_free (b : buf) (size : nat) : outcome buf :=
  _ <- BufferManip.check chk b size ;;
  b1 <- d_destroy triv b 0 size ;;
  match kind with
  | BMalloc => _ <- BufferManip.release triv b1 ;; Ok []
  | BStack _ => Ok b1
  end.

(** bufferManipulation.hpp:214-218 setCapacity *)
Definition b_setCapacity (b : buf) (size newCapacity : nat) : outcome buf :=
  _ <- BufferManip.check chk b size ;; b_reallocate b size newCapacity.

(** bufferManipulation.hpp:230-238 reserve *)
Definition b_reserve (b : buf) (size newCapacity : nat) : outcome buf :=
  _ <- BufferManip.check chk b size ;;
  if capacity b <? newCapacity then b_setCapacity b size newCapacity else Ok b.

(** bufferManipulation.hpp:251-259 dynamicReserve *)
Definition b_dynamicReserve (b : buf) (size newCapacity : nat) : outcome buf :=
  _ <- BufferManip.check chk b size ;;
  if capacity b <? newCapacity then b_setCapacity b size (2 * newCapacity) else Ok b.

(** bufferManipulation.hpp:272-286 resize (registerTouch is a no-op for these buffers) *)
Definition b_resize (b : buf) (size newSize : nat) (v : V) : outcome buf :=
  _ <- BufferManip.check chk b size ;;
  b1 <- b_reserve b size newSize ;;
  d_resize triv b1 0 size newSize v.

(** bufferManipulation.hpp:297-303 emplaceBack *)
Definition b_emplaceBack (b : buf) (size : nat) (v : V) : outcome buf :=
  _ <- BufferManip.check chk b size ;;
  b1 <- b_dynamicReserve b size (size + 1) ;;
  d_emplaceBack triv b1 0 size v.

(** bufferManipulation.hpp:315-324 emplace *)
Definition b_emplace (b : buf) (size : nat) (pos : Z) (v : V) : outcome buf :=
  _ <- BufferManip.checkInsert chk b size pos ;;
  b1 <- b_dynamicReserve b size (size + 1) ;;
  p <- to_ix pos ;;
  d_emplace triv b1 0 size p v.

(** bufferManipulation.hpp:338-350 insert; returns the number of values too. *)
Definition b_insert (b : buf) (size : nat) (pos : Z) (vs : list V) : outcome (buf * nat) :=
  _ <- BufferManip.checkInsert chk b size pos ;;
  let nVals := length vs in
  b1 <- b_dynamicReserve b size (size + nVals) ;;
  p <- to_ix pos ;;
  b2 <- d_insert triv b1 0 size p vs ;;
  Ok (b2, nVals).

(** bufferManipulation.hpp:359-363 popBack *)
Definition b_popBack (b : buf) (size : nat) : outcome buf :=
  _ <- BufferManip.check chk b size ;;
  d_popBack triv b 0 size.

(** bufferManipulation.hpp:373-379 erase; arrayManipulation::erase repeats the position check under
    LVARRAY_BOUNDS_CHECK (that is where a negative position is caught). *)
Definition b_erase (b : buf) (size : nat) (pos : Z) : outcome buf :=
  _ <- BufferManip.check chk b size ;;
  _ <- error_if (Z.of_nat size <=? pos)%Z ;;
  _ <- check_if chk (pos <? 0)%Z ;;
  p <- to_ix pos ;;
  d_erase triv b 0 size p 1.

End BM.

Section Arr.
Variable V : Type.
Variable triv : bool.
Variable perm : list nat.
Variable dflt : V.
Notation NDIM := (length perm).
(** Array.hpp:163-166 destructor *)
Definition a_dtor (a : Array.array V) : outcome unit :=
  _ <- b_free triv (Array.a_buf a) (Array.size a) ;; Ok tt.

(** Array.hpp:293-312 resize( numDims, dims ); 319-338 resize( newDims... ) is the same with the number
    of extents checked at compile time. *)
Definition a_resize_dims (a : Array.array V) (newDims : list Z) : outcome (Array.array V) :=
  _ <- error_if (negb (length newDims =? NDIM)) ;;
  dims <- Array.set_dims (Array.a_dims a) (combine (seq 0 NDIM) newDims) ;;
  b <- b_resize triv (Array.a_buf a) (Array.size a) (Indexing.multiplyAll dims) dflt ;;
  Ok (Array.set_shape perm a dims b).

(** Array.hpp:392-414 resizeDimension< INDICES... >( newDims... ) *)
Definition a_resizeDimension (a : Array.array V) (pairs : list (nat * Z)) : outcome (Array.array V) :=
  dims <- Array.set_dims (Array.a_dims a) pairs ;;
  b <- b_resize triv (Array.a_buf a) (Array.size a) (Indexing.multiplyAll dims) dflt ;;
  Ok (Array.set_shape perm a dims b).

(** Array.hpp:590-680 resizeDefaultDimension; [v] is the value of T( args... ). *)
Definition a_resizeDefaultDimension (a : Array.array V) (newDim : Z) (v : V) : outcome (Array.array V) :=
  _ <- error_if (newDim <? 0)%Z ;;
  let n := Z.to_nat newDim in
  let dims := upd (Array.a_dims a) (Array.a_rix a) n in
  if ((NDIM =? 1) || (nth 0 perm 0 =? Array.a_rix a))%bool then
    b <- b_resize triv (Array.a_buf a) (Array.size a) (Indexing.multiplyAll dims) v ;;
    Ok (Array.set_shape perm a dims b)
  else
    let curDimLength := nth (Array.a_rix a) (Array.a_dims a) 0 in
    let curDimStride := nth (Array.a_rix a) (Array.a_strides a) 0 in
    let curSize := Array.size a in
    let newSize := Indexing.multiplyAll dims in
    if newSize =? curSize then Ok (Array.set_shape perm a dims (Array.a_buf a))
    else if curDimLength <? n then
      b <- b_reserve triv (Array.a_buf a) curSize newSize ;;
      let toAdd := curDimStride * (n - curDimLength) in
      let toShift := curDimStride * curDimLength in
      let iters := (newSize - curSize) / toAdd in
      b' <- for_down iters (fun i b =>
              let left := toAdd * i in
              b1 <- d_shiftUp triv b (toShift * i) toShift 0 left ;;
              for_up toAdd (fun j b => construct triv b (toShift * i + toShift + left + j) v) 0 b1) b ;;
      Ok (Array.set_shape perm a dims b')
    else
      let toRemove := curDimStride * (curDimLength - n) in
      let toShift := curDimStride * n in
      let iters := (curSize - newSize) / toRemove in
      b <- for_up (iters - 1) (fun i b =>
             let amount := toRemove * i in
             d_shiftDown triv b (toShift * i) (toShift + amount) amount amount) 1 (Array.a_buf a) ;;
      let total := toRemove * iters in
      b' <- for_up total (fun i b => destroy1 triv b (newSize + i)) 0 b ;;
      Ok (Array.set_shape perm a dims b').

(** Array.hpp:441-449 clear *)
Definition a_clear (a : Array.array V) : outcome (Array.array V) :=
  b <- b_resize triv (Array.a_buf a) (Array.size a) 0 dflt ;;
  Ok (Array.set_shape perm a (upd (Array.a_dims a) (Array.a_rix a) 0) b).

(** Array.hpp:474-476 reserve; a negative capacity compares below the current one: no effect. *)
Definition a_reserve (a : Array.array V) (n : Z) : outcome (Array.array V) :=
  b <- b_reserve triv (Array.a_buf a) (Array.size a) (Z.to_nat n) ;;
  Ok (Array.mkArray (Array.a_dims a) (Array.a_strides a) (Array.a_rix a) b).

(** Array.hpp:493-499 emplace_back *)
Definition a_emplace_back (a : Array.array V) (v : V) : outcome (Array.array V) :=
  b <- b_emplaceBack triv (Array.a_buf a) (Array.size a) v ;;
  Ok (Array.set_dim0 a (nth 0 (Array.a_dims a) 0 + 1) b).

(** Array.hpp:509-515 emplace *)
Definition a_emplace (a : Array.array V) (pos : Z) (v : V) : outcome (Array.array V) :=
  b <- b_emplace triv (Array.a_buf a) (Array.size a) pos v ;;
  Ok (Array.set_dim0 a (nth 0 (Array.a_dims a) 0 + 1) b).

(** Array.hpp:526-529 insert *)
Definition a_insert (a : Array.array V) (pos : Z) (vs : list V) : outcome (Array.array V) :=
  '(b, n) <- b_insert triv (Array.a_buf a) (Array.size a) pos vs ;;
  Ok (Array.set_dim0 a (nth 0 (Array.a_dims a) 0 + n) b).

(** Array.hpp:536-542 pop_back *)
Definition a_pop_back (a : Array.array V) : outcome (Array.array V) :=
  b <- b_popBack triv (Array.a_buf a) (Array.size a) ;;
  Ok (Array.set_dim0 a (nth 0 (Array.a_dims a) 0 - 1) b).

(** Array.hpp:550-556 erase *)
Definition a_erase (a : Array.array V) (pos : Z) : outcome (Array.array V) :=
  b <- b_erase triv (Array.a_buf a) (Array.size a) pos ;;
  Ok (Array.set_dim0 a (nth 0 (Array.a_dims a) 0 - 1) b).

Definition a_nstep (c : Array.ncall V) (a : Array.array V) : outcome (Array.array V) :=
  match c with
  | Array.NResize dims => a_resize_dims a dims
  | Array.NResizeDimension ps => a_resizeDimension a ps
  | Array.NResize1 n => a_resizeDefaultDimension a n dflt
  | Array.NResizeDefault n v => a_resizeDefaultDimension a n v
  | Array.NClear => a_clear a
  | Array.NSetIndex i => Array.setSingleParameterResizeIndex perm a i
  | Array.NReserve n => a_reserve a n
  | Array.NSet idx v => Array.set_ chk triv perm a idx v
  end.

Definition a_vstep (c : Array.vcall V) (a : Array.array V) : outcome (Array.array V) :=
  match c with
  | Array.VEmplaceBack v => a_emplace_back a v
  | Array.VEmplace pos v => a_emplace a pos v
  | Array.VInsert pos vs => a_insert a pos vs
  | Array.VPopBack => a_pop_back a
  | Array.VErase pos => a_erase a pos
  | Array.VResize n => a_resizeDefaultDimension a n dflt
  | Array.VResizeDefault n v => a_resizeDefaultDimension a n v
  | Array.VReserve n => a_reserve a n
  | Array.VClear => a_clear a
  | Array.VSet i v => Array.set_ chk triv perm a [i] v
  end.

End Arr.

Section AoA.
Variables V W : Type.
Variables tv tw dual : bool.
(** 986-1010 destroyValues *)
Definition g_destroyValues (a : AoA.aoa V W) (begin_ end_ : nat) : outcome (AoA.aoa V W) :=
  _ <- AoA.check_array_insert chk a begin_ ;;
  _ <- AoA.check_array_insert chk a end_ ;;
  AoA.each tv tw dual (fun A t b => for_up (end_ - begin_) (fun i b =>
          o <- AoA.offset a i ;; s <- AoA.sizeOfArray chk a i ;; d_destroy t b o s) begin_ b) a.

(** 632-636 reserve *)
Definition g_aoa_reserve (a : AoA.aoa V W) (newCapacity : nat) : outcome (AoA.aoa V W) :=
  o <- b_reserve true (AoA.offs a) (AoA.numArrays a + 1) (newCapacity + 1) ;;
  s <- b_reserve true (AoA.szs a) (AoA.numArrays a) newCapacity ;;
  Ok (AoA.set_szs s (AoA.set_offs o a)).

(** 646-653 reserveValues *)
Definition g_reserveValues (a : AoA.aoa V W) (newValueCapacity : nat) : outcome (AoA.aoa V W) :=
  maxOffset <- AoA.offset a (AoA.numArrays a) ;;
  AoA.each tv tw dual (fun A t b => b_reserve t b maxOffset newValueCapacity) a.

(** 663-686 compress *)
Definition g_compress (a : AoA.aoa V W) : outcome (AoA.aoa V W) :=
  if AoA.numArrays a =? 0 then Ok a else
  a1 <- for_up (AoA.numArrays a - 1) (fun i a =>
          nextOffset <- AoA.offset a (i + 1) ;;
          o <- AoA.offset a i ;; s <- AoA.sizeOfArray chk a i ;;
          d <- sub_ix nextOffset o ;; shiftAmount <- sub_ix d s ;;
          sizeOfNextArray <- AoA.sizeOfArray chk a (i + 1) ;;
          a1 <- AoA.each tv tw dual (fun A t b => d_uninitializedShiftDown t b nextOffset sizeOfNextArray shiftAmount) a ;;
          newOffset <- sub_ix nextOffset shiftAmount ;;
          AoA.put_offset a1 (i + 1) newOffset) 0 a ;;
  o <- AoA.offset a1 (AoA.numArrays a1 - 1) ;; s <- AoA.sizeOfArray chk a1 (AoA.numArrays a1 - 1) ;;
  AoA.put_offset a1 (AoA.numArrays a1) (o + s).

(** 698-735 resizeFromCapacities *)
Definition g_resizeFromCapacities (a : AoA.aoa V W) (caps : list nat) : outcome (AoA.aoa V W) :=
  let numSubArrays := length caps in
  a1 <- g_destroyValues a 0 (AoA.numArrays a) ;;
  s <- b_reserve true (AoA.szs a1) (AoA.numArrays a1) numSubArrays ;;
  s2 <- for_up numSubArrays (fun i b => assign true b i 0) 0 s ;;
  let offsetsSize := if AoA.numArrays a1 =? 0 then 0 else AoA.numArrays a1 + 1 in
  o <- b_reserve true (AoA.offs a1) offsetsSize (numSubArrays + 1) ;;
  a2 <- AoA.put_offset (AoA.set_szs s2 (AoA.set_offs o a1)) 0 0 ;;
  a3 <- AoA.scan_into a2 1 0 caps ;;
  let a4 := AoA.set_num numSubArrays a3 in
  maxOffset <- AoA.offset a4 (AoA.numArrays a4) ;;
  AoA.each tv tw dual (fun A t b => b_reserve t b 0 maxOffset) a4.

(** 758-796 resizeImpl (625 resize) *)
Definition g_resizeImpl (a : AoA.aoa V W) (newSize defaultArrayCapacity : nat) : outcome (AoA.aoa V W) :=
  let offsetsSize := if AoA.numArrays a =? 0 then 0 else AoA.numArrays a + 1 in
  if newSize <? AoA.numArrays a then
    a1 <- g_destroyValues a newSize (AoA.numArrays a) ;;
    o <- b_resize true (AoA.offs a1) offsetsSize (newSize + 1) 0 ;;
    s <- b_resize true (AoA.szs a1) (AoA.numArrays a1) newSize 0 ;;
    Ok (AoA.set_num newSize (AoA.set_szs s (AoA.set_offs o a1)))
  else
    originalOffset <- (if AoA.numArrays a =? 0 then Ok 0 else AoA.offset a (AoA.numArrays a)) ;;
    o <- b_resize true (AoA.offs a) offsetsSize (newSize + 1) originalOffset ;;
    s <- b_resize true (AoA.szs a) (AoA.numArrays a) newSize 0 ;;
    let a1 := AoA.set_szs s (AoA.set_offs o a) in
    a2 <- (if 0 <? defaultArrayCapacity then
             a2 <- for_up (newSize - AoA.numArrays a1) (fun i a =>
                     AoA.put_offset a (AoA.numArrays a + i) (originalOffset + i * defaultArrayCapacity)) 1 a1 ;;
             totalSize <- AoA.offset a2 newSize ;;
             maxOffset <- AoA.offset a2 (AoA.numArrays a2) ;;
             AoA.each tv tw dual (fun A t b => b_reserve t b maxOffset totalSize) a2
           else Ok a1) ;;
    Ok (AoA.set_num newSize a2).

(** 805-815 free *)
Definition g_aoa_free (a : AoA.aoa V W) : outcome (AoA.aoa V W) :=
  a1 <- g_destroyValues a 0 (AoA.numArrays a) ;;
  s <- AoA.free_buffer kind true (AoA.szs a1) ;;
  o <- AoA.free_buffer kind true (AoA.offs a1) ;;
  a2 <- AoA.each tv tw dual (fun A t b => AoA.free_buffer kind t b) a1 ;;
  Ok (AoA.set_num 0 (AoA.set_szs s (AoA.set_offs o a2))).

(** 876-942 setCapacityOfArray *)
Definition g_setCapacityOfArray (a : AoA.aoa V W) (i newCapacity : nat) : outcome (AoA.aoa V W) :=
  _ <- AoA.check_array chk a i ;;
  arrayCapacity <- AoA.capacityOfArray chk a i ;;
  if newCapacity =? arrayCapacity then Ok a else
  if arrayCapacity <? newCapacity then
    let capacityIncrease := newCapacity - arrayCapacity in
    maxOffset <- AoA.offset a (AoA.numArrays a) ;;
    a1 <- AoA.each tv tw dual (fun A t b =>
            b1 <- b_dynamicReserve t b maxOffset (maxOffset + capacityIncrease) ;;
            for_down (AoA.numArrays a - 1 - i) (fun k b =>
              s <- AoA.sizeOfArray chk a (i + 1 + k) ;; o <- AoA.offset a (i + 1 + k) ;;
              d_uninitializedShiftUp t b o s capacityIncrease) b1) a ;;
    for_up (AoA.numArrays a1 - i) (fun k a => o <- AoA.offset a k ;; AoA.put_offset a k (o + capacityIncrease)) (i + 1) a1
  else
    let capacityDecrease := arrayCapacity - newCapacity in
    arrayOffset <- AoA.offset a i ;;
    prevArraySize <- AoA.sizeOfArray chk a i ;;
    let newArraySize := Nat.min prevArraySize newCapacity in
    a1 <- AoA.put_size a i newArraySize ;;
    a2 <- AoA.each tv tw dual (fun A t b =>
            b1 <- d_destroy t b (arrayOffset + newArraySize) (prevArraySize - newArraySize) ;;
            for_up (AoA.numArrays a1 - (i + 1)) (fun k b =>
              s <- AoA.sizeOfArray chk a1 k ;; o <- AoA.offset a1 k ;;
              d_uninitializedShiftDown t b o s capacityDecrease) (i + 1) b1) a1 ;;
    for_up (AoA.numArrays a2 - i) (fun k a => o <- AoA.offset a k ;; n <- sub_ix o capacityDecrease ;; AoA.put_offset a k n) (i + 1) a2.

(** * The members of the view, which never reallocate *)

(** 441-449 emplaceBack *)
Definition g_v_emplaceBack (a : AoA.aoa V W) (i : nat) (v : V) : outcome (AoA.aoa V W) :=
  _ <- AoA.check_array chk a i ;; _ <- AoA.check_capacity chk a i 1 ;;
  o <- AoA.offset a i ;; s <- AoA.sizeOfArray chk a i ;;
  b <- d_emplaceBack tv (AoA.vals a) o s v ;;
  AoA.put_size (AoA.set_vals b a) i (s + 1).

(** 484-492 appendToArray: the capacity is checked after the values were written. *)
Definition g_v_appendToArray (a : AoA.aoa V W) (i : nat) (vs : list V) : outcome (AoA.aoa V W) :=
  _ <- AoA.check_array chk a i ;;
  o <- AoA.offset a i ;; s <- AoA.sizeOfArray chk a i ;;
  '(b, n) <- d_append tv (AoA.vals a) o s vs ;;
  let a1 := AoA.set_vals b a in
  _ <- AoA.check_capacity chk a1 i n ;;
  AoA.put_size a1 i (s + n).

(** 505-513 emplace *)
Definition g_v_emplace (a : AoA.aoa V W) (i j : nat) (v : V) : outcome (AoA.aoa V W) :=
  _ <- AoA.check_array_insert2 chk a i j ;; _ <- AoA.check_capacity chk a i 1 ;;
  o <- AoA.offset a i ;; s <- AoA.sizeOfArray chk a i ;;
  b <- d_emplace tv (AoA.vals a) o s j v ;;
  AoA.put_size (AoA.set_vals b a) i (s + 1).

(** 527-539 insertIntoArray *)
Definition g_v_insertIntoArray (a : AoA.aoa V W) (i j : nat) (vs : list V) : outcome (AoA.aoa V W) :=
  _ <- AoA.check_array_insert2 chk a i j ;; _ <- AoA.check_capacity chk a i (length vs) ;;
  o <- AoA.offset a i ;; s <- AoA.sizeOfArray chk a i ;;
  b <- d_insert tv (AoA.vals a) o s j vs ;;
  AoA.put_size (AoA.set_vals b a) i (s + length vs).

(** 548-555 eraseFromArray *)
Definition g_eraseFromArray (a : AoA.aoa V W) (i j n : nat) : outcome (AoA.aoa V W) :=
  _ <- AoA.check_array2 chk a i j ;;
  o <- AoA.offset a i ;; s <- AoA.sizeOfArray chk a i ;;
  b <- d_erase tv (AoA.vals a) o s j n ;;
  s' <- sub_ix s n ;;
  AoA.put_size (AoA.set_vals b a) i s'.

(** * ArrayOfArrays.hpp *)

(** 474-483 dynamicallyGrowArray *)
Definition g_dynamicallyGrowArray (a : AoA.aoa V W) (i increase : nat) : outcome (AoA.aoa V W) :=
  s <- AoA.sizeOfArray chk a i ;;
  c <- AoA.capacityOfArray chk a i ;;
  if c <? s + increase then g_setCapacityOfArray a i (2 * (s + increase)) else Ok a.

(** 348-352 emplaceBack, 362-367 appendToArray, 379-383 emplace, 394-399 insertIntoArray *)
Definition g_aoa_emplaceBack (a : AoA.aoa V W) (i : nat) (v : V) : outcome (AoA.aoa V W) :=
  a1 <- g_dynamicallyGrowArray a i 1 ;; g_v_emplaceBack a1 i v.
Definition g_aoa_appendToArray (a : AoA.aoa V W) (i : nat) (vs : list V) : outcome (AoA.aoa V W) :=
  a1 <- g_dynamicallyGrowArray a i (length vs) ;; g_v_appendToArray a1 i vs.
Definition g_aoa_emplace (a : AoA.aoa V W) (i j : nat) (v : V) : outcome (AoA.aoa V W) :=
  a1 <- g_dynamicallyGrowArray a i 1 ;; g_v_emplace a1 i j v.
Definition g_aoa_insertIntoArray (a : AoA.aoa V W) (i j : nat) (vs : list V) : outcome (AoA.aoa V W) :=
  a1 <- g_dynamicallyGrowArray a i (length vs) ;; g_v_insertIntoArray a1 i j vs.

(** 411-425 resizeArray; [v] is the value of T( args... ) *)
Definition g_resizeArray (a : AoA.aoa V W) (i newSize : nat) (v : V) : outcome (AoA.aoa V W) :=
  _ <- AoA.check_array chk a i ;;
  c <- AoA.capacityOfArray chk a i ;;
  a1 <- (if c <? newSize then g_setCapacityOfArray a i newSize else Ok a) ;;
  prevSize <- AoA.sizeOfArray chk a1 i ;;
  _ <- AoA.check_array chk a1 i ;; o <- AoA.offset a1 i ;;
  b <- d_resize tv (AoA.vals a1) o prevSize newSize v ;;
  AoA.put_size (AoA.set_vals b a1) i newSize.

(** The common part of 273-276, 290-293: one more array of capacity zero at the end *)
Definition g_push_array (a : AoA.aoa V W) : outcome (AoA.aoa V W) :=
  maxOffset <- AoA.offset a (AoA.numArrays a) ;;
  o <- b_emplaceBack true (AoA.offs a) (AoA.numArrays a + 1) maxOffset ;;
  s <- b_emplaceBack true (AoA.szs a) (AoA.numArrays a) 0 ;;
  Ok (AoA.set_num (AoA.numArrays a + 1) (AoA.set_szs s (AoA.set_offs o a))).
(** 269-279 appendArray( n ), [dflt] is the value of T() *)
Definition g_appendArray (a : AoA.aoa V W) (n : nat) (dflt : V) : outcome (AoA.aoa V W) :=
  a1 <- g_push_array a ;; g_resizeArray a1 (AoA.numArrays a1 - 1) n dflt.
(** 288-296 appendArray( first, last ) *)
Definition g_appendArrayFrom (a : AoA.aoa V W) (vs : list V) : outcome (AoA.aoa V W) :=
  a1 <- g_push_array a ;; g_aoa_appendToArray a1 (AoA.numArrays a1 - 1) vs.

(** The part of 308-314 which makes room for an array of capacity zero at position i *)
Definition g_open_array (a : AoA.aoa V W) (i : nat) : outcome (AoA.aoa V W) :=
  _ <- AoA.check_array_insert chk a i ;;
  o <- AoA.offset a i ;;
  os <- b_emplace true (AoA.offs a) (AoA.numArrays a + 1) (Z.of_nat (i + 1)) o ;;
  ss <- b_emplace true (AoA.szs a) (AoA.numArrays a) (Z.of_nat i) 0 ;;
  Ok (AoA.set_num (AoA.numArrays a + 1) (AoA.set_szs ss (AoA.set_offs os a))).
(** 306-318 insertArray *)
Definition g_insertArray (a : AoA.aoa V W) (i : nat) (vs : list V) : outcome (AoA.aoa V W) :=
  a1 <- g_open_array a i ;; g_aoa_appendToArray a1 i vs.

(** 324-332 eraseArray *)
Definition g_eraseArray (a : AoA.aoa V W) (i : nat) : outcome (AoA.aoa V W) :=
  _ <- AoA.check_array chk a i ;;
  a1 <- g_setCapacityOfArray a i 0 ;;
  o <- b_erase true (AoA.offs a1) (AoA.numArrays a1 + 1) (Z.of_nat (i + 1)) ;;
  s <- b_erase true (AoA.szs a1) (AoA.numArrays a1) (Z.of_nat i) ;;
  Ok (AoA.set_num (AoA.numArrays a1 - 1) (AoA.set_szs s (AoA.set_offs o a1))).

(** ArrayOfArrays.hpp:55-60 constructor *)
Definition g_new_aoa (n cap : nat) : outcome (AoA.aoa V W) := g_resizeImpl (AoA.null_aoa V W kind) n cap.
(** ArrayOfArrays.hpp:81 destructor *)
Definition g_aoa_dtor (a : AoA.aoa V W) : outcome unit := _ <- g_aoa_free a ;; Ok tt.

Definition g_astep (dflt : V) (c : AoA.acall V) (a : AoA.aoa V W) : outcome (AoA.aoa V W) :=
  match c with
  | AoA.AResize n cap => g_resizeImpl a n cap
  | AoA.AResizeFromCapacities caps => g_resizeFromCapacities a caps
  | AoA.AReserve n => g_aoa_reserve a n
  | AoA.AReserveValues n => g_reserveValues a n
  | AoA.ACompress => g_compress a
  | AoA.AAppend n => g_appendArray a n dflt
  | AoA.AAppendFrom vs => g_appendArrayFrom a vs
  | AoA.AInsertArray i vs => g_insertArray a i vs
  | AoA.AEraseArray i => g_eraseArray a i
  | AoA.AEmplaceBack i v => g_aoa_emplaceBack a i v
  | AoA.AAppendTo i vs => g_aoa_appendToArray a i vs
  | AoA.AEmplace i j v => g_aoa_emplace a i j v
  | AoA.AInsertInto i j vs => g_aoa_insertIntoArray a i j vs
  | AoA.AEraseFrom i j n => g_eraseFromArray a i j n
  | AoA.AResizeArray i n v => g_resizeArray a i n v
  | AoA.AClearArray i => g_resizeArray a i 0 dflt
  | AoA.ASetCapacity i c => g_setCapacityOfArray a i c
  | AoA.ASet i j v => AoA.aoa_set chk tv a i j v
  end.
Fixpoint g_arun (dflt : V) (h : list (AoA.acall V)) (a : AoA.aoa V W) : outcome (AoA.aoa V W) :=
  match h with [] => Ok a | c :: h' => a' <- g_astep dflt c a ;; g_arun dflt h' a' end.
End AoA.
End Debug.
