(** Calls whose arguments are references or iterators into the container itself: ArrayOfArrays::emplaceBack( i, a( k, l ) ),
    appendToArray( i, &a( k, l ), &a( k, l ) + n ), emplace, insertIntoArray, appendArray, insertArray and Array::insert.

    The argument is the address of a slot of m_values. It is read when a new value is constructed, that is, after
    rows were shifted; if m_values was reallocated it dangles. The functions are those of ArrayManip.v, BufferManip.v and AoA.v with
    the values replaced by a slot [q] and, for ranges, a number [n]. The qualifier LVARRAY_RESTRICT of the pointers is
    not modelled: it forbids reading slots which the same call writes. *)
From Coq Require Import List Arith ZArith Bool.
From Verif Require Import Base Mem BufferManip Array AoA.
From Verif Require ArrayManip.
Import ListNotations.
Set Implicit Arguments.

Section Manip.
Variable V : Type.
Variable chk triv : bool.
Notation buf := (buf V).
(** for( i = 0; i < n; ++i ) { new( ptr + p + i ) T( *first ); ++first; }, first being the address of slot [q]:
    arrayManipulation.hpp:452-458 in append, 514-518 in insert. *)
Fixpoint copyOwn (n : nat) (b : buf) (q p : nat) : outcome buf :=
  match n with
  | O => Ok b
  | S n' => v <- rd b q ;; b' <- construct triv b p v ;; copyOwn n' b' (q + 1) (p + 1)
  end.
(** arrayManipulation.hpp:422-429 emplaceBack, 444-461 append, 475-487 emplace, 502-519 insert *)
Definition emplaceBackOwn (b : buf) (p size q : nat) : outcome buf :=
  v <- rd b q ;; construct triv b (p + size) v.
Definition appendOwn (b : buf) (p size q n : nat) : outcome (buf * nat) :=
  b' <- copyOwn n b q (p + size) ;; Ok (b', n).
Definition emplaceOwn (b : buf) (p size index q : nat) : outcome buf :=
  _ <- ArrayManip.check_insert_bounds chk size index ;;
  b1 <- ArrayManip.shiftUp chk triv b p size index 1 ;;
  v <- rd b1 q ;;
  construct triv b1 (p + index) v.
Definition insertOwn (b : buf) (p size index q n : nat) : outcome buf :=
  _ <- ArrayManip.check_insert_bounds chk size index ;;
  b1 <- ArrayManip.shiftUp chk triv b p size index n ;;
  copyOwn n b1 q (p + index).

(** What dynamicReserve means for addresses into the buffer: reallocate of MallocBuffer makes a new block. *)
Definition dangles (kind : bkind) (again : bool) : outcome unit :=
  match kind with BMalloc => if again then Fault FDangling else Ok tt | BStack _ => Ok tt end.
(** bufferManipulation.hpp:338-350 insert and Array.hpp:526-529 insert( pos, a.begin() + q, a.begin() + q + n ) *)
Definition buffer_insertOwn (kind : bkind) (b : buf) (size : nat) (pos : Z) (q n : nat) : outcome buf :=
  _ <- BufferManip.checkInsert chk b size pos ;;
  b1 <- BufferManip.dynamicReserve chk triv kind b size (size + n) ;;
  p <- to_ix pos ;;
  _ <- dangles kind ((0 <? n) && (BufferManip.capacity b <? size + n)) ;;
  insertOwn b1 0 size p q n.
Definition array_insertOwn (kind : bkind) (a : array V) (pos : Z) (q n : nat) : outcome (array V) :=
  b <- buffer_insertOwn kind (a_buf a) (size a) pos q n ;;
  Ok (set_dim0 a (nth 0 (a_dims a) 0 + n) b).
End Manip.

Section AoAOwn.
Variable V W : Type.
Variable chk tv tw dual : bool.
Variable kind : bkind.
Notation aoa := (aoa V W).

(** * Members of the view *)
(** ArrayOfArraysView.hpp:441-449, 484-492, 505-513, 527-539 *)
Definition v_emplaceBackOwn (a : aoa) (i q : nat) : outcome aoa :=
  _ <- check_array chk a i ;; _ <- check_capacity chk a i 1 ;;
  o <- offset a i ;; s <- sizeOfArray chk a i ;;
  b <- emplaceBackOwn tv (vals a) o s q ;;
  put_size (set_vals b a) i (s + 1).
Definition v_appendToArrayOwn (a : aoa) (i q n : nat) : outcome aoa :=
  _ <- check_array chk a i ;;
  o <- offset a i ;; s <- sizeOfArray chk a i ;;
  '(b, n) <- appendOwn tv (vals a) o s q n ;;
  let a1 := set_vals b a in
  _ <- check_capacity chk a1 i n ;;
  put_size a1 i (s + n).
Definition v_emplaceOwn (a : aoa) (i j q : nat) : outcome aoa :=
  _ <- check_array_insert2 chk a i j ;; _ <- check_capacity chk a i 1 ;;
  o <- offset a i ;; s <- sizeOfArray chk a i ;;
  b <- emplaceOwn chk tv (vals a) o s j q ;;
  put_size (set_vals b a) i (s + 1).
Definition v_insertIntoArrayOwn (a : aoa) (i j q n : nat) : outcome aoa :=
  _ <- check_array_insert2 chk a i j ;; _ <- check_capacity chk a i n ;;
  o <- offset a i ;; s <- sizeOfArray chk a i ;;
  b <- insertOwn chk tv (vals a) o s j q n ;;
  put_size (set_vals b a) i (s + n).

(** * ArrayOfArrays *)
(** Whether dynamicallyGrowArray( i, increase ) (ArrayOfArrays.hpp:474-483) reallocates m_values: the test in 477,
    ArrayOfArraysView.hpp:889-899, and the one in bufferManipulation.hpp:251-259 dynamicReserve. *)
Definition reallocates (a : aoa) (i increase : nat) : outcome bool :=
  s <- sizeOfArray chk a i ;;
  c <- capacityOfArray chk a i ;;
  if c <? s + increase then
    m <- offset a (numArrays a) ;;
    Ok (valueCapacity a <? m + (2 * (s + increase) - c))
  else Ok false.
Definition growOwn (a : aoa) (i increase : nat) : outcome aoa :=
  again <- reallocates a i increase ;;
  a1 <- dynamicallyGrowArray chk tv tw dual kind a i increase ;;
  _ <- dangles kind again ;;
  Ok a1.
(** 348-352 emplaceBack( i, a( k, l ) ), 362-367 appendToArray( i, &a( k, l ), &a( k, l ) + n ), 379-383, 394-399. For
    ranges the address is not checked: [q] is the slot of a( k, l ) or, for an empty range, any. *)
Definition aoa_emplaceBackOwn (a : aoa) (i k l : nat) : outcome aoa :=
  q <- slot chk a k l ;; a1 <- growOwn a i 1 ;; v_emplaceBackOwn a1 i q.
Definition aoa_emplaceOwn (a : aoa) (i j k l : nat) : outcome aoa :=
  q <- slot chk a k l ;; a1 <- growOwn a i 1 ;; v_emplaceOwn a1 i j q.
(** &a[ k ][ l ]; a[ k ] checks its index (ArrayOfArraysView.hpp:405-409), the slice [ l ] is not checked here. *)
Definition address (a : aoa) (k l : nat) : outcome nat := _ <- check_array chk a k ;; o <- offset a k ;; Ok (o + l).
Definition aoa_appendToArrayOwn (a : aoa) (i k l n : nat) : outcome aoa :=
  q <- address a k l ;; a1 <- growOwn a i n ;; v_appendToArrayOwn a1 i q n.
Definition aoa_insertIntoArrayOwn (a : aoa) (i j k l n : nat) : outcome aoa :=
  q <- address a k l ;; a1 <- growOwn a i n ;; v_insertIntoArrayOwn a1 i j q n.
(** 288-296 appendArray( first, last ), 306-318 insertArray( i, first, last ) *)
Definition appendArrayOwn (a : aoa) (k l n : nat) : outcome aoa :=
  q <- address a k l ;; a1 <- push_array chk kind a ;;
  a2 <- growOwn a1 (numArrays a1 - 1) n ;; v_appendToArrayOwn a2 (numArrays a1 - 1) q n.
Definition insertArrayOwn (a : aoa) (i k l n : nat) : outcome aoa :=
  q <- address a k l ;; a1 <- open_array chk kind a i ;;
  a2 <- growOwn a1 i n ;; v_appendToArrayOwn a2 i q n.
End AoAOwn.
