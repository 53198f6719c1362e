(** Model of the members of ArrayOfArrays computed in a machine integer type: INDEX_TYPE has largest value
    [hi], and an operation whose result does not fit is undefined behaviour, [Fault FOverflow]. The same
    functions as in AoA.v, with every sum and product of INDEX_TYPE values checked; those members which
    compute no sum or product are taken from AoA.v.

    Simplifications: as in AoA.v all numbers are non-negative, so differences always fit. The loop counters
    are not checked, because they are bounded by a checked loop limit. The functions of bufferManipulation
    compute in std::ptrdiff_t and not in INDEX_TYPE (claim C62 treats their arithmetic). A conversion of an
    iterator distance to INDEX_TYPE which would change the value is counted as an overflow, although the
    language makes it implementation defined. INDEX_TYPE is at least as wide as int. *)
From Coq Require Import List Arith ZArith Bool.
From Verif Require Import Base Mem BufferManip AoA.
From Verif Require ArrayManip.
Import ListNotations.
Set Implicit Arguments.

(** A result of type INDEX_TYPE. *)
Definition fit (hi x : nat) : outcome nat := if x <=? hi then Ok x else Fault FOverflow.

Section MachineAoA.
Variable V W : Type.
Variable hi : nat.
Variable chk tv tw dual : bool.
Variable kind : bkind.
Notation aoa := (aoa V W).
Notation fit := (fit hi).
Notation each := (@each V W tv tw dual).

(** ArrayOfArraysView.hpp:381-385 capacityOfArray: m_offsets[ i + 1 ] - m_offsets[ i ] *)
Definition m_capacityOfArray (a : aoa) (i : nat) : outcome nat :=
  _ <- check_array chk a i ;; i1 <- fit (i + 1) ;; o2 <- offset a i1 ;; o1 <- offset a i ;; sub_ix o2 o1.
(** 78-82 ARRAYOFARRAYS_CAPACITY_CHECK: this->sizeOfArray( i ) + increase *)
Definition m_check_capacity (a : aoa) (i increase : nat) : outcome unit :=
  if chk then
    s <- sizeOfArray chk a i ;; n <- fit (s + increase) ;; c <- m_capacityOfArray a i ;; error_if (c <? n)
  else Ok tt.
(** 418-422 operator(): m_offsets[ i ] + j *)
Definition m_slot (a : aoa) (i j : nat) : outcome nat :=
  _ <- check_array2 chk a i j ;; o <- offset a i ;; fit (o + j).
Definition m_aoa_set (a : aoa) (i j : nat) (v : V) : outcome aoa :=
  k <- m_slot a i j ;; b <- assign tv (vals a) k v ;; Ok (set_vals b a).

(** 632-636 reserve: m_numArrays + 1, newCapacity + 1 *)
Definition m_aoa_reserve (a : aoa) (newCapacity : nat) : outcome aoa :=
  n1 <- fit (numArrays a + 1) ;; c1 <- fit (newCapacity + 1) ;;
  o <- BufferManip.reserve chk true kind (offs a) n1 c1 ;;
  s <- BufferManip.reserve chk true kind (szs a) (numArrays a) newCapacity ;;
  Ok (set_szs s (set_offs o a)).

(** 663-686 compress: i + 1 in the loop, and the last offset *)
Definition m_compress (a : aoa) : outcome aoa :=
  if numArrays a =? 0 then Ok a else
  a1 <- for_up (numArrays a - 1) (fun i a =>
          i1 <- fit (i + 1) ;;
          nextOffset <- offset a i1 ;;
          o <- offset a i ;; s <- sizeOfArray chk a i ;;
          d <- sub_ix nextOffset o ;; shiftAmount <- sub_ix d s ;;
          sizeOfNextArray <- sizeOfArray chk a i1 ;;
          a1 <- each (fun A t b => ArrayManip.uninitializedShiftDown t b nextOffset sizeOfNextArray shiftAmount) a ;;
          newOffset <- sub_ix nextOffset shiftAmount ;;
          put_offset a1 i1 newOffset) 0 a ;;
  o <- offset a1 (numArrays a1 - 1) ;; s <- sizeOfArray chk a1 (numArrays a1 - 1) ;;
  e <- fit (o + s) ;;
  put_offset a1 (numArrays a1) e.

(** The scan of 722-725 adds values of type INDEX_TYPE. *)
Fixpoint m_scan_into (a : aoa) (i acc : nat) (caps : list nat) : outcome aoa :=
  match caps with
  | [] => Ok a
  | c :: caps' => s <- fit (acc + c) ;; a' <- put_offset a i s ;; m_scan_into a' (i + 1) s caps'
  end.
(** 698-735 resizeFromCapacities: m_numArrays + 1, numSubArrays + 1 *)
Definition m_resizeFromCapacities (a : aoa) (caps : list nat) : outcome aoa :=
  let numSubArrays := length caps in
  a1 <- destroyValues chk tv tw dual a 0 (numArrays a) ;;
  s <- BufferManip.reserve chk true kind (szs a1) (numArrays a1) numSubArrays ;;
  s2 <- for_up numSubArrays (fun i b => assign true b i 0) 0 s ;;
  offsetsSize <- (if numArrays a1 =? 0 then Ok 0 else fit (numArrays a1 + 1)) ;;
  n1 <- fit (numSubArrays + 1) ;;
  o <- BufferManip.reserve chk true kind (offs a1) offsetsSize n1 ;;
  a2 <- put_offset (set_szs s2 (set_offs o a1)) 0 0 ;;
  a3 <- m_scan_into a2 1 0 caps ;;
  let a4 := set_num numSubArrays a3 in
  maxOffset <- offset a4 (numArrays a4) ;;
  each (fun A t b => BufferManip.reserve chk t kind b 0 maxOffset) a4.

(** 758-796 resizeImpl: m_numArrays + 1, newSize + 1, originalOffset + i * defaultArrayCapacity *)
Definition m_resizeImpl (a : aoa) (newSize defaultArrayCapacity : nat) : outcome aoa :=
  offsetsSize <- (if numArrays a =? 0 then Ok 0 else fit (numArrays a + 1)) ;;
  if newSize <? numArrays a then
    a1 <- destroyValues chk tv tw dual a newSize (numArrays a) ;;
    n1 <- fit (newSize + 1) ;;
    o <- BufferManip.resize chk true kind (offs a1) offsetsSize n1 0 ;;
    s <- BufferManip.resize chk true kind (szs a1) (numArrays a1) newSize 0 ;;
    Ok (set_num newSize (set_szs s (set_offs o a1)))
  else
    originalOffset <- (if numArrays a =? 0 then Ok 0 else offset a (numArrays a)) ;;
    n1 <- fit (newSize + 1) ;;
    o <- BufferManip.resize chk true kind (offs a) offsetsSize n1 originalOffset ;;
    s <- BufferManip.resize chk true kind (szs a) (numArrays a) newSize 0 ;;
    let a1 := set_szs s (set_offs o a) in
    a2 <- (if 0 <? defaultArrayCapacity then
             a2 <- for_up (newSize - numArrays a1) (fun i a =>
                     p <- fit (i * defaultArrayCapacity) ;; e <- fit (originalOffset + p) ;;
                     put_offset a (numArrays a + i) e) 1 a1 ;;
             totalSize <- offset a2 newSize ;;
             maxOffset <- offset a2 (numArrays a2) ;;
             each (fun A t b => BufferManip.reserve chk t kind b maxOffset totalSize) a2
           else Ok a1) ;;
    Ok (set_num newSize a2).

(** 876-942 setCapacityOfArray: maxOffset + capacityIncrease, arrayOffset + newArraySize, m_numArrays + 1
    and the new offsets *)
Definition m_setCapacityOfArray (a : aoa) (i newCapacity : nat) : outcome aoa :=
  _ <- check_array chk a i ;;
  arrayCapacity <- m_capacityOfArray a i ;;
  if newCapacity =? arrayCapacity then Ok a else
  if arrayCapacity <? newCapacity then
    let capacityIncrease := newCapacity - arrayCapacity in
    maxOffset <- offset a (numArrays a) ;;
    a1 <- each (fun A t b =>
            newMax <- fit (maxOffset + capacityIncrease) ;;
            b1 <- BufferManip.dynamicReserve chk t kind b maxOffset newMax ;;
            for_down (numArrays a - 1 - i) (fun k b =>
              s <- sizeOfArray chk a (i + 1 + k) ;; o <- offset a (i + 1 + k) ;;
              ArrayManip.uninitializedShiftUp t b o s capacityIncrease) b1) a ;;
    _ <- fit (numArrays a1 + 1) ;;
    for_up (numArrays a1 - i) (fun k a =>
      o <- offset a k ;; n <- fit (o + capacityIncrease) ;; put_offset a k n) (i + 1) a1
  else
    let capacityDecrease := arrayCapacity - newCapacity in
    arrayOffset <- offset a i ;;
    prevArraySize <- sizeOfArray chk a i ;;
    let newArraySize := Nat.min prevArraySize newCapacity in
    a1 <- put_size a i newArraySize ;;
    a2 <- each (fun A t b =>
            p <- fit (arrayOffset + newArraySize) ;;
            b1 <- ArrayManip.destroy t b p (prevArraySize - newArraySize) ;;
            for_up (numArrays a1 - (i + 1)) (fun k b =>
              s <- sizeOfArray chk a1 k ;; o <- offset a1 k ;;
              ArrayManip.uninitializedShiftDown t b o s capacityDecrease) (i + 1) b1) a1 ;;
    _ <- fit (numArrays a2 + 1) ;;
    for_up (numArrays a2 - i) (fun k a => o <- offset a k ;; n <- sub_ix o capacityDecrease ;; put_offset a k n) (i + 1) a2.

(** 441-449 emplaceBack: m_sizes[ i ] += 1 *)
Definition m_v_emplaceBack (a : aoa) (i : nat) (v : V) : outcome aoa :=
  _ <- check_array chk a i ;; _ <- m_check_capacity a i 1 ;;
  o <- offset a i ;; s <- sizeOfArray chk a i ;;
  b <- ArrayManip.emplaceBack tv (vals a) o s v ;;
  n <- fit (s + 1) ;; put_size (set_vals b a) i n.
(** 484-492 appendToArray: m_sizes[ i ] += n *)
Definition m_v_appendToArray (a : aoa) (i : nat) (vs : list V) : outcome aoa :=
  _ <- check_array chk a i ;;
  o <- offset a i ;; s <- sizeOfArray chk a i ;;
  '(b, d) <- ArrayManip.append tv (vals a) o s vs ;;
  n <- fit d ;;
  let a1 := set_vals b a in
  _ <- m_check_capacity a1 i n ;;
  m <- fit (s + n) ;; put_size a1 i m.
(** 505-513 emplace: m_sizes[ i ]++ *)
Definition m_v_emplace (a : aoa) (i j : nat) (v : V) : outcome aoa :=
  _ <- check_array_insert2 chk a i j ;; _ <- m_check_capacity a i 1 ;;
  o <- offset a i ;; s <- sizeOfArray chk a i ;;
  b <- ArrayManip.emplace chk tv (vals a) o s j v ;;
  n <- fit (s + 1) ;; put_size (set_vals b a) i n.
(** 527-539 insertIntoArray: m_sizes[ i ] += n *)
Definition m_v_insertIntoArray (a : aoa) (i j : nat) (vs : list V) : outcome aoa :=
  _ <- check_array_insert2 chk a i j ;; n <- fit (length vs) ;; _ <- m_check_capacity a i n ;;
  o <- offset a i ;; s <- sizeOfArray chk a i ;;
  b <- ArrayManip.insert chk tv (vals a) o s j vs ;;
  m <- fit (s + n) ;; put_size (set_vals b a) i m.

(** ArrayOfArrays.hpp:474-483 dynamicallyGrowArray: sizeOfArray( i ) + increase, 2 * newArraySize *)
Definition m_dynamicallyGrowArray (a : aoa) (i increase : nat) : outcome aoa :=
  s <- sizeOfArray chk a i ;;
  newArraySize <- fit (s + increase) ;;
  c <- m_capacityOfArray a i ;;
  if c <? newArraySize then n <- fit (2 * newArraySize) ;; m_setCapacityOfArray a i n else Ok a.
(** 348-352 emplaceBack, 362-367 appendToArray, 379-383 emplace, 394-399 insertIntoArray *)
Definition m_emplaceBack (a : aoa) (i : nat) (v : V) : outcome aoa :=
  a1 <- m_dynamicallyGrowArray a i 1 ;; m_v_emplaceBack a1 i v.
Definition m_appendToArray (a : aoa) (i : nat) (vs : list V) : outcome aoa :=
  n <- fit (length vs) ;; a1 <- m_dynamicallyGrowArray a i n ;; m_v_appendToArray a1 i vs.
Definition m_emplace (a : aoa) (i j : nat) (v : V) : outcome aoa :=
  a1 <- m_dynamicallyGrowArray a i 1 ;; m_v_emplace a1 i j v.
Definition m_insertIntoArray (a : aoa) (i j : nat) (vs : list V) : outcome aoa :=
  n <- fit (length vs) ;; a1 <- m_dynamicallyGrowArray a i n ;; m_v_insertIntoArray a1 i j vs.
(** 411-425 resizeArray *)
Definition m_resizeArray (a : aoa) (i newSize : nat) (v : V) : outcome aoa :=
  _ <- check_array chk a i ;;
  c <- m_capacityOfArray a i ;;
  a1 <- (if c <? newSize then m_setCapacityOfArray a i newSize else Ok a) ;;
  prevSize <- sizeOfArray chk a1 i ;;
  _ <- check_array chk a1 i ;; o <- offset a1 i ;;
  b <- ArrayManip.resize tv (vals a1) o prevSize newSize v ;;
  put_size (set_vals b a1) i newSize.

(** 273-276, 290-293: m_numArrays + 1, ++m_numArrays *)
Definition m_push_array (a : aoa) : outcome aoa :=
  n1 <- fit (numArrays a + 1) ;;
  maxOffset <- offset a (numArrays a) ;;
  o <- BufferManip.emplaceBack chk true kind (offs a) n1 maxOffset ;;
  s <- BufferManip.emplaceBack chk true kind (szs a) (numArrays a) 0 ;;
  Ok (set_num n1 (set_szs s (set_offs o a))).
(** 269-279 and 288-296 appendArray *)
Definition m_appendArray (a : aoa) (n : nat) (dflt : V) : outcome aoa :=
  a1 <- m_push_array a ;; m_resizeArray a1 (numArrays a1 - 1) n dflt.
Definition m_appendArrayFrom (a : aoa) (vs : list V) : outcome aoa :=
  a1 <- m_push_array a ;; m_appendToArray a1 (numArrays a1 - 1) vs.
(** 308-314: m_numArrays + 1, i + 1, ++m_numArrays *)
Definition m_open_array (a : aoa) (i : nat) : outcome aoa :=
  _ <- check_array_insert chk a i ;;
  o <- offset a i ;;
  n1 <- fit (numArrays a + 1) ;; i1 <- fit (i + 1) ;;
  os <- BufferManip.emplace chk true kind (offs a) n1 (Z.of_nat i1) o ;;
  ss <- BufferManip.emplace chk true kind (szs a) (numArrays a) (Z.of_nat i) 0 ;;
  Ok (set_num n1 (set_szs ss (set_offs os a))).
(** 306-318 insertArray *)
Definition m_insertArray (a : aoa) (i : nat) (vs : list V) : outcome aoa :=
  a1 <- m_open_array a i ;; m_appendToArray a1 i vs.
(** 324-332 eraseArray: m_numArrays + 1, i + 1 *)
Definition m_eraseArray (a : aoa) (i : nat) : outcome aoa :=
  _ <- check_array chk a i ;;
  a1 <- m_setCapacityOfArray a i 0 ;;
  n1 <- fit (numArrays a1 + 1) ;; i1 <- fit (i + 1) ;;
  o <- BufferManip.erase chk true (offs a1) n1 (Z.of_nat i1) ;;
  s <- BufferManip.erase chk true (szs a1) (numArrays a1) (Z.of_nat i) ;;
  Ok (set_num (numArrays a1 - 1) (set_szs s (set_offs o a1))).

(** ArrayOfArrays.hpp:55-60 constructor *)
Definition m_new_aoa (n cap : nat) : outcome aoa := m_resizeImpl (null_aoa V W kind) n cap.

Definition m_astep (dflt : V) (c : acall V) (a : aoa) : outcome aoa :=
  match c with
  | AResize n cap => m_resizeImpl a n cap
  | AResizeFromCapacities caps => m_resizeFromCapacities a caps
  | AReserve n => m_aoa_reserve a n
  | AReserveValues n => reserveValues chk tv tw dual kind a n
  | ACompress => m_compress a
  | AAppend n => m_appendArray a n dflt
  | AAppendFrom vs => m_appendArrayFrom a vs
  | AInsertArray i vs => m_insertArray a i vs
  | AEraseArray i => m_eraseArray a i
  | AEmplaceBack i v => m_emplaceBack a i v
  | AAppendTo i vs => m_appendToArray a i vs
  | AEmplace i j v => m_emplace a i j v
  | AInsertInto i j vs => m_insertIntoArray a i j vs
  | AEraseFrom i j n => eraseFromArray chk tv a i j n
  | AResizeArray i n v => m_resizeArray a i n v
  | AClearArray i => m_resizeArray a i 0 dflt
  | ASetCapacity i c => m_setCapacityOfArray a i c
  | ASet i j v => m_aoa_set a i j v
  end.
Fixpoint m_arun (dflt : V) (h : list (acall V)) (a : aoa) : outcome aoa :=
  match h with [] => Ok a | c :: h' => a' <- m_astep dflt c a ;; m_arun dflt h' a' end.
End MachineAoA.
