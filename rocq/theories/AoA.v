(** Model of src/ArrayOfArraysView.hpp and src/ArrayOfArrays.hpp.

    Three buffers: m_offsets, m_sizes (integers) and m_values. Several members take a pack "BUFFERS & ...
    buffers" of further buffers to be treated like m_values; in the library the pack is empty
    (ArrayOfArrays, ArrayOfSets, SparsityPattern) or holds m_entries (CRSMatrix). The model has one
    further buffer [ents], used iff [dual].

    Simplifications: array indices, positions and capacities are natural numbers (the bounds checks reject
    negative ones just like too large ones; LVARRAY_ASSERT is not modelled); differences of offsets are
    natural numbers, and a negative difference is a Fault; memory space moves are no-ops. *)
From Coq Require Import List Arith ZArith Lia Bool.
From Verif Require Import Base Mem BufferManip.
From Verif Require ArrayManip.
Import ListNotations.
Set Implicit Arguments.

(** ArrayOfArraysView.hpp:953-968 members *)
Record aoa (V W : Type) : Type := mkAoA {
  numArrays : nat;
  offs : buf nat;
  szs : buf nat;
  vals : buf V;
  ents : buf W
}.

Section AoA.
Variable V W : Type.
(** [chk]: LVARRAY_BOUNDS_CHECK; [tv], [tw]: T trivial, the entry type trivial; [kind]: BUFFER_TYPE. *)
Variable chk tv tw dual : bool.
Variable kind : bkind.
Notation aoa := (aoa V W).

Definition set_num (n : nat) (a : aoa) : aoa := mkAoA n (offs a) (szs a) (vals a) (ents a).
Definition set_offs (o : buf nat) (a : aoa) : aoa := mkAoA (numArrays a) o (szs a) (vals a) (ents a).
Definition set_szs (s : buf nat) (a : aoa) : aoa := mkAoA (numArrays a) (offs a) s (vals a) (ents a).
Definition set_vals (v : buf V) (a : aoa) : aoa := mkAoA (numArrays a) (offs a) (szs a) v (ents a).

(** typeManipulation.hpp:129 forEachArg( f, m_values, buffers ... ) *)
Definition each (f : forall A, bool -> buf A -> outcome (buf A)) (a : aoa) : outcome aoa :=
  v <- f V tv (vals a) ;;
  e <- (if dual then f W tw (ents a) else Ok (ents a)) ;;
  Ok (mkAoA (numArrays a) (offs a) (szs a) v e).

(** m_offsets[ i ] and m_sizes[ i ] *)
Definition offset (a : aoa) (i : nat) : outcome nat := rd (offs a) i.
Definition size_ (a : aoa) (i : nat) : outcome nat := rd (szs a) i.
(** ArrayOfArraysView.hpp:35-37 ARRAYOFARRAYS_CHECK_BOUNDS *)
Definition check_array (a : aoa) (i : nat) : outcome unit := check_if chk (numArrays a <=? i).
(** 56-58 ARRAYOFARRAYS_CHECK_INSERT_BOUNDS *)
Definition check_array_insert (a : aoa) (i : nat) : outcome unit := check_if chk (numArrays a <? i).
(** 329-333 sizeOfArray *)
Definition sizeOfArray (a : aoa) (i : nat) : outcome nat := _ <- check_array a i ;; size_ a i.
(** 381-385 capacityOfArray *)
Definition capacityOfArray (a : aoa) (i : nat) : outcome nat :=
  _ <- check_array a i ;; o2 <- offset a (i + 1) ;; o1 <- offset a i ;; sub_ix o2 o1.
(** 45-49 ARRAYOFARRAYS_CHECK_BOUNDS2; the text of the error message is not modelled. *)
Definition check_array2 (a : aoa) (i j : nat) : outcome unit :=
  if chk then
    _ <- error_if (numArrays a <=? i) ;; s <- size_ a i ;; error_if (s <=? j)
  else Ok tt.
(** 66-70 ARRAYOFARRAYS_CHECK_INSERT_BOUNDS2 *)
Definition check_array_insert2 (a : aoa) (i j : nat) : outcome unit :=
  if chk then
    _ <- error_if (numArrays a <=? i) ;; s <- sizeOfArray a i ;; error_if (s <? j)
  else Ok tt.
(** 78-82 ARRAYOFARRAYS_CAPACITY_CHECK *)
Definition check_capacity (a : aoa) (i increase : nat) : outcome unit :=
  if chk then s <- sizeOfArray a i ;; c <- capacityOfArray a i ;; error_if (c <? s + increase) else Ok tt.
(** 391 valueCapacity, 370 capacity *)
Definition valueCapacity (a : aoa) : nat := BufferManip.capacity (vals a).
Definition aoa_capacity (a : aoa) : nat := BufferManip.capacity (szs a).

(** 418-422 operator(): the slot, used to read and to write *)
Definition slot (a : aoa) (i j : nat) : outcome nat :=
  _ <- check_array2 a i j ;; o <- offset a i ;; Ok (o + j).
Definition aoa_at (a : aoa) (i j : nat) : outcome V := k <- slot a i j ;; rd (vals a) k.
Definition aoa_set (a : aoa) (i j : nat) (v : V) : outcome aoa :=
  k <- slot a i j ;; b <- assign tv (vals a) k v ;; Ok (set_vals b a).

(** m_sizes[ i ] = n *)
Definition put_size (a : aoa) (i n : nat) : outcome aoa := s <- assign true (szs a) i n ;; Ok (set_szs s a).
(** m_offsets[ i ] = n *)
Definition put_offset (a : aoa) (i n : nat) : outcome aoa := o <- assign true (offs a) i n ;; Ok (set_offs o a).

(** 986-1010 destroyValues *)
Definition destroyValues (a : aoa) (begin_ end_ : nat) : outcome aoa :=
  _ <- check_array_insert a begin_ ;;
  _ <- check_array_insert a end_ ;;
  each (fun A t b => for_up (end_ - begin_) (fun i b =>
          o <- offset a i ;; s <- sizeOfArray a i ;; ArrayManip.destroy t b o s) begin_ b) a.

(** 632-636 reserve *)
Definition aoa_reserve (a : aoa) (newCapacity : nat) : outcome aoa :=
  o <- BufferManip.reserve chk true kind (offs a) (numArrays a + 1) (newCapacity + 1) ;;
  s <- BufferManip.reserve chk true kind (szs a) (numArrays a) newCapacity ;;
  Ok (set_szs s (set_offs o a)).

(** 646-653 reserveValues *)
Definition reserveValues (a : aoa) (newValueCapacity : nat) : outcome aoa :=
  maxOffset <- offset a (numArrays a) ;;
  each (fun A t b => BufferManip.reserve chk t kind b maxOffset newValueCapacity) a.

(** 663-686 compress *)
Definition compress (a : aoa) : outcome aoa :=
  if numArrays a =? 0 then Ok a else
  a1 <- for_up (numArrays a - 1) (fun i a =>
          nextOffset <- offset a (i + 1) ;;
          o <- offset a i ;; s <- sizeOfArray a i ;;
          d <- sub_ix nextOffset o ;; shiftAmount <- sub_ix d s ;;
          sizeOfNextArray <- sizeOfArray a (i + 1) ;;
          a1 <- each (fun A t b => ArrayManip.uninitializedShiftDown t b nextOffset sizeOfNextArray shiftAmount) a ;;
          newOffset <- sub_ix nextOffset shiftAmount ;;
          put_offset a1 (i + 1) newOffset) 0 a ;;
  o <- offset a1 (numArrays a1 - 1) ;; s <- sizeOfArray a1 (numArrays a1 - 1) ;;
  put_offset a1 (numArrays a1) (o + s).

(** The scan of 722-725: out[ i ] = capacities[ 0 ] + ... + capacities[ i ], written from m_offsets + 1. *)
Fixpoint scan_into (a : aoa) (i acc : nat) (caps : list nat) : outcome aoa :=
  match caps with
  | [] => Ok a
  | c :: caps' => a' <- put_offset a i (acc + c) ;; scan_into a' (i + 1) (acc + c) caps'
  end.

(** 698-735 resizeFromCapacities *)
Definition resizeFromCapacities (a : aoa) (caps : list nat) : outcome aoa :=
  let numSubArrays := length caps in
  a1 <- destroyValues a 0 (numArrays a) ;;
  s <- BufferManip.reserve chk true kind (szs a1) (numArrays a1) numSubArrays ;;
  s2 <- for_up numSubArrays (fun i b => assign true b i 0) 0 s ;;
  let offsetsSize := if numArrays a1 =? 0 then 0 else numArrays a1 + 1 in
  o <- BufferManip.reserve chk true kind (offs a1) offsetsSize (numSubArrays + 1) ;;
  a2 <- put_offset (set_szs s2 (set_offs o a1)) 0 0 ;;
  a3 <- scan_into a2 1 0 caps ;;
  let a4 := set_num numSubArrays a3 in
  maxOffset <- offset a4 (numArrays a4) ;;
  each (fun A t b => BufferManip.reserve chk t kind b 0 maxOffset) a4.

(** 758-796 resizeImpl (625 resize) *)
Definition resizeImpl (a : aoa) (newSize defaultArrayCapacity : nat) : outcome aoa :=
  let offsetsSize := if numArrays a =? 0 then 0 else numArrays a + 1 in
  if newSize <? numArrays a then
    a1 <- destroyValues a newSize (numArrays a) ;;
    o <- BufferManip.resize chk true kind (offs a1) offsetsSize (newSize + 1) 0 ;;
    s <- BufferManip.resize chk true kind (szs a1) (numArrays a1) newSize 0 ;;
    Ok (set_num newSize (set_szs s (set_offs o a1)))
  else
    originalOffset <- (if numArrays a =? 0 then Ok 0 else offset a (numArrays a)) ;;
    o <- BufferManip.resize chk true kind (offs a) offsetsSize (newSize + 1) originalOffset ;;
    s <- BufferManip.resize chk true kind (szs a) (numArrays a) newSize 0 ;;
    let a1 := set_szs s (set_offs o a) in
    a2 <- (if 0 <? defaultArrayCapacity then
             a2 <- for_up (newSize - numArrays a1) (fun i a =>
                     put_offset a (numArrays a + i) (originalOffset + i * defaultArrayCapacity)) 1 a1 ;;
             totalSize <- offset a2 newSize ;;
             maxOffset <- offset a2 (numArrays a2) ;;
             each (fun A t b => BufferManip.reserve chk t kind b maxOffset totalSize) a2
           else Ok a1) ;;
    Ok (set_num newSize a2).

(** 805-815 free *)
Definition free_buffer {A} (t : bool) (b : buf A) : outcome (buf A) :=
  match kind with BMalloc => _ <- BufferManip.release t b ;; Ok [] | BStack _ => Ok b end.
Definition aoa_free (a : aoa) : outcome aoa :=
  a1 <- destroyValues a 0 (numArrays a) ;;
  s <- free_buffer true (szs a1) ;;
  o <- free_buffer true (offs a1) ;;
  a2 <- each (fun A t b => free_buffer t b) a1 ;;
  Ok (set_num 0 (set_szs s (set_offs o a2))).

(** 876-942 setCapacityOfArray *)
Definition setCapacityOfArray (a : aoa) (i newCapacity : nat) : outcome aoa :=
  _ <- check_array a i ;;
  arrayCapacity <- capacityOfArray a i ;;
  if newCapacity =? arrayCapacity then Ok a else
  if arrayCapacity <? newCapacity then
    let capacityIncrease := newCapacity - arrayCapacity in
    maxOffset <- offset a (numArrays a) ;;
    a1 <- each (fun A t b =>
            b1 <- BufferManip.dynamicReserve chk t kind b maxOffset (maxOffset + capacityIncrease) ;;
            for_down (numArrays a - 1 - i) (fun k b =>
              s <- sizeOfArray a (i + 1 + k) ;; o <- offset a (i + 1 + k) ;;
              ArrayManip.uninitializedShiftUp t b o s capacityIncrease) b1) a ;;
    for_up (numArrays a1 - i) (fun k a => o <- offset a k ;; put_offset a k (o + capacityIncrease)) (i + 1) a1
  else
    let capacityDecrease := arrayCapacity - newCapacity in
    arrayOffset <- offset a i ;;
    prevArraySize <- sizeOfArray a i ;;
    let newArraySize := Nat.min prevArraySize newCapacity in
    a1 <- put_size a i newArraySize ;;
    a2 <- each (fun A t b =>
            b1 <- ArrayManip.destroy t b (arrayOffset + newArraySize) (prevArraySize - newArraySize) ;;
            for_up (numArrays a1 - (i + 1)) (fun k b =>
              s <- sizeOfArray a1 k ;; o <- offset a1 k ;;
              ArrayManip.uninitializedShiftDown t b o s capacityDecrease) (i + 1) b1) a1 ;;
    for_up (numArrays a2 - i) (fun k a => o <- offset a k ;; n <- sub_ix o capacityDecrease ;; put_offset a k n) (i + 1) a2.

(** * The members of the view, which never reallocate *)

(** 441-449 emplaceBack *)
Definition v_emplaceBack (a : aoa) (i : nat) (v : V) : outcome aoa :=
  _ <- check_array a i ;; _ <- check_capacity a i 1 ;;
  o <- offset a i ;; s <- sizeOfArray a i ;;
  b <- ArrayManip.emplaceBack tv (vals a) o s v ;;
  put_size (set_vals b a) i (s + 1).

(** 484-492 appendToArray: the capacity is checked after the values were written. *)
Definition v_appendToArray (a : aoa) (i : nat) (vs : list V) : outcome aoa :=
  _ <- check_array a i ;;
  o <- offset a i ;; s <- sizeOfArray a i ;;
  '(b, n) <- ArrayManip.append tv (vals a) o s vs ;;
  let a1 := set_vals b a in
  _ <- check_capacity a1 i n ;;
  put_size a1 i (s + n).

(** 505-513 emplace *)
Definition v_emplace (a : aoa) (i j : nat) (v : V) : outcome aoa :=
  _ <- check_array_insert2 a i j ;; _ <- check_capacity a i 1 ;;
  o <- offset a i ;; s <- sizeOfArray a i ;;
  b <- ArrayManip.emplace chk tv (vals a) o s j v ;;
  put_size (set_vals b a) i (s + 1).

(** 527-539 insertIntoArray *)
Definition v_insertIntoArray (a : aoa) (i j : nat) (vs : list V) : outcome aoa :=
  _ <- check_array_insert2 a i j ;; _ <- check_capacity a i (length vs) ;;
  o <- offset a i ;; s <- sizeOfArray a i ;;
  b <- ArrayManip.insert chk tv (vals a) o s j vs ;;
  put_size (set_vals b a) i (s + length vs).

(** 548-555 eraseFromArray *)
Definition eraseFromArray (a : aoa) (i j n : nat) : outcome aoa :=
  _ <- check_array2 a i j ;;
  o <- offset a i ;; s <- sizeOfArray a i ;;
  b <- ArrayManip.erase chk tv (vals a) o s j n ;;
  s' <- sub_ix s n ;;
  put_size (set_vals b a) i s'.

(** * ArrayOfArrays.hpp *)

(** 474-483 dynamicallyGrowArray *)
Definition dynamicallyGrowArray (a : aoa) (i increase : nat) : outcome aoa :=
  s <- sizeOfArray a i ;;
  c <- capacityOfArray a i ;;
  if c <? s + increase then setCapacityOfArray a i (2 * (s + increase)) else Ok a.

(** 348-352 emplaceBack, 362-367 appendToArray, 379-383 emplace, 394-399 insertIntoArray *)
Definition aoa_emplaceBack (a : aoa) (i : nat) (v : V) : outcome aoa :=
  a1 <- dynamicallyGrowArray a i 1 ;; v_emplaceBack a1 i v.
Definition aoa_appendToArray (a : aoa) (i : nat) (vs : list V) : outcome aoa :=
  a1 <- dynamicallyGrowArray a i (length vs) ;; v_appendToArray a1 i vs.
Definition aoa_emplace (a : aoa) (i j : nat) (v : V) : outcome aoa :=
  a1 <- dynamicallyGrowArray a i 1 ;; v_emplace a1 i j v.
Definition aoa_insertIntoArray (a : aoa) (i j : nat) (vs : list V) : outcome aoa :=
  a1 <- dynamicallyGrowArray a i (length vs) ;; v_insertIntoArray a1 i j vs.

(** 411-425 resizeArray; [v] is the value of T( args... ) *)
Definition resizeArray (a : aoa) (i newSize : nat) (v : V) : outcome aoa :=
  _ <- check_array a i ;;
  c <- capacityOfArray a i ;;
  a1 <- (if c <? newSize then setCapacityOfArray a i newSize else Ok a) ;;
  prevSize <- sizeOfArray a1 i ;;
  _ <- check_array a1 i ;; o <- offset a1 i ;;
  b <- ArrayManip.resize tv (vals a1) o prevSize newSize v ;;
  put_size (set_vals b a1) i newSize.

(** The common part of 273-276, 290-293: one more array of capacity zero at the end *)
Definition push_array (a : aoa) : outcome aoa :=
  maxOffset <- offset a (numArrays a) ;;
  o <- BufferManip.emplaceBack chk true kind (offs a) (numArrays a + 1) maxOffset ;;
  s <- BufferManip.emplaceBack chk true kind (szs a) (numArrays a) 0 ;;
  Ok (set_num (numArrays a + 1) (set_szs s (set_offs o a))).
(** 269-279 appendArray( n ), [dflt] is the value of T() *)
Definition appendArray (a : aoa) (n : nat) (dflt : V) : outcome aoa :=
  a1 <- push_array a ;; resizeArray a1 (numArrays a1 - 1) n dflt.
(** 288-296 appendArray( first, last ) *)
Definition appendArrayFrom (a : aoa) (vs : list V) : outcome aoa :=
  a1 <- push_array a ;; aoa_appendToArray a1 (numArrays a1 - 1) vs.

(** The part of 308-314 which makes room for an array of capacity zero at position i *)
Definition open_array (a : aoa) (i : nat) : outcome aoa :=
  _ <- check_array_insert a i ;;
  o <- offset a i ;;
  os <- BufferManip.emplace chk true kind (offs a) (numArrays a + 1) (Z.of_nat (i + 1)) o ;;
  ss <- BufferManip.emplace chk true kind (szs a) (numArrays a) (Z.of_nat i) 0 ;;
  Ok (set_num (numArrays a + 1) (set_szs ss (set_offs os a))).
(** 306-318 insertArray *)
Definition insertArray (a : aoa) (i : nat) (vs : list V) : outcome aoa :=
  a1 <- open_array a i ;; aoa_appendToArray a1 i vs.

(** 324-332 eraseArray *)
Definition eraseArray (a : aoa) (i : nat) : outcome aoa :=
  _ <- check_array a i ;;
  a1 <- setCapacityOfArray a i 0 ;;
  o <- BufferManip.erase chk true (offs a1) (numArrays a1 + 1) (Z.of_nat (i + 1)) ;;
  s <- BufferManip.erase chk true (szs a1) (numArrays a1) (Z.of_nat i) ;;
  Ok (set_num (numArrays a1 - 1) (set_szs s (set_offs o a1))).

(** ArrayOfArraysView.hpp:612-617 with null buffers *)
Definition null_aoa : aoa := mkAoA 0 (empty_buf nat kind) (empty_buf nat kind) (empty_buf V kind) (empty_buf W kind).
(** ArrayOfArrays.hpp:55-60 constructor *)
Definition new_aoa (n cap : nat) : outcome aoa := resizeImpl null_aoa n cap.
(** ArrayOfArrays.hpp:81 destructor *)
Definition aoa_dtor (a : aoa) : outcome unit := _ <- aoa_free a ;; Ok tt.

Inductive acall : Type :=
| AResize (n cap : nat) | AResizeFromCapacities (caps : list nat) | AReserve (n : nat) | AReserveValues (n : nat)
| ACompress | AAppend (n : nat) | AAppendFrom (vs : list V) | AInsertArray (i : nat) (vs : list V) | AEraseArray (i : nat)
| AEmplaceBack (i : nat) (v : V) | AAppendTo (i : nat) (vs : list V) | AEmplace (i j : nat) (v : V)
| AInsertInto (i j : nat) (vs : list V) | AEraseFrom (i j n : nat) | AResizeArray (i n : nat) (v : V)
| AClearArray (i : nat) | ASetCapacity (i c : nat) | ASet (i j : nat) (v : V).

Definition astep (dflt : V) (c : acall) (a : aoa) : outcome aoa :=
  match c with
  | AResize n cap => resizeImpl a n cap
  | AResizeFromCapacities caps => resizeFromCapacities a caps
  | AReserve n => aoa_reserve a n
  | AReserveValues n => reserveValues a n
  | ACompress => compress a
  | AAppend n => appendArray a n dflt
  | AAppendFrom vs => appendArrayFrom a vs
  | AInsertArray i vs => insertArray a i vs
  | AEraseArray i => eraseArray a i
  | AEmplaceBack i v => aoa_emplaceBack a i v
  | AAppendTo i vs => aoa_appendToArray a i vs
  | AEmplace i j v => aoa_emplace a i j v
  | AInsertInto i j vs => aoa_insertIntoArray a i j vs
  | AEraseFrom i j n => eraseFromArray a i j n
  | AResizeArray i n v => resizeArray a i n v
  | AClearArray i => resizeArray a i 0 dflt
  | ASetCapacity i c => setCapacityOfArray a i c
  | ASet i j v => aoa_set a i j v
  end.
Fixpoint arun (dflt : V) (h : list acall) (a : aoa) : outcome aoa :=
  match h with [] => Ok a | c :: h' => a' <- astep dflt c a ;; arun dflt h' a' end.
End AoA.
Arguments AResize {V} n cap. Arguments AResizeFromCapacities {V} caps. Arguments AReserve {V} n. Arguments AReserveValues {V} n.
Arguments ACompress {V}. Arguments AAppend {V} n. Arguments AEraseArray {V} i. Arguments AEraseFrom {V} i j n.
Arguments AClearArray {V} i. Arguments ASetCapacity {V} i c.
