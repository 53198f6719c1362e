(** What happens to an ArrayOfArrays when an exception leaves one of its methods. As in Throw.v: the copies of
    elements made from arguments and the assignments to elements throw once the budget [n] is used up
    ([Element]); so does an error handler that throws ([Error]). Moves, destructors and operations on
    integers do not throw.

    The members stay natural numbers: no method of ArrayOfArrays stores a negative one before it throws. *)
From Coq Require Import List Arith ZArith Lia Bool.
From Verif Require Import Base Mem BufferManip AoA AoACopy Throw.
From Verif Require ArrayManip.
Import ListNotations.
Set Implicit Arguments.

Section XAoA.
Variable V : Type.
Variable chk tv : bool.
Notation kind := BMalloc.
Notation aoa := (aoa V unit).
Notation xaoa := (xout aoa aoa).
Implicit Types (n i j : nat) (a : aoa) (v : V) (vs : list V).

(** The new size is stored after the elements have been built. *)
Definition x_put_size n (a : aoa) (b : buf V) i (s : nat) : xaoa :=
  let a1 := set_vals b a in xlift n a1 (put_size a1 i s).

(** ArrayOfArraysView.hpp:441-449 emplaceBack *)
Definition x_v_emplaceBack n a i v : xaoa :=
  let! n1 o <~ xlift n a (_ <- check_array chk a i ;; _ <- check_capacity chk a i 1 ;; offset a i) ;;
  let! n2 s <~ xlift n1 a (sizeOfArray chk a i) ;;
  let! n3 b <~ xleft (fun b => set_vals b a) (x_construct tv n2 (vals a) (o + s) v) ;;
  x_put_size n3 a b i (s + 1).

(** ArrayOfArraysView.hpp:484-492 appendToArray: the capacity is checked after the values were written. *)
Definition x_v_appendToArray n a i vs : xaoa :=
  let! n1 o <~ xlift n a (_ <- check_array chk a i ;; offset a i) ;;
  let! n2 s <~ xlift n1 a (sizeOfArray chk a i) ;;
  let! n3 b <~ xleft (fun b => set_vals b a) (x_uninitializedCopy tv vs n2 (vals a) (o + s)) ;;
  let a1 := set_vals b a in
  let! n4 _u <~ xlift n3 a1 (check_capacity chk a1 i (length vs)) ;;
  x_put_size n4 a b i (s + length vs).

(** ArrayOfArraysView.hpp:505-513 emplace *)
Definition x_v_emplace n a i j v : xaoa :=
  let! n1 o <~ xlift n a (_ <- check_array_insert2 chk a i j ;; _ <- check_capacity chk a i 1 ;; offset a i) ;;
  let! n2 s <~ xlift n1 a (sizeOfArray chk a i) ;;
  let! n3 b <~ xleft (fun b => set_vals b a) (x_am_emplace chk tv n2 (vals a) o s j v) ;;
  x_put_size n3 a b i (s + 1).

(** ArrayOfArraysView.hpp:527-539 insertIntoArray *)
Definition x_v_insertIntoArray n a i j vs : xaoa :=
  let! n1 o <~ xlift n a (_ <- check_array_insert2 chk a i j ;; _ <- check_capacity chk a i (length vs) ;; offset a i) ;;
  let! n2 s <~ xlift n1 a (sizeOfArray chk a i) ;;
  let! n3 b <~ xleft (fun b => set_vals b a) (x_am_insert chk tv n2 (vals a) o s j vs) ;;
  x_put_size n3 a b i (s + length vs).

(** ArrayOfArraysView.hpp:418-422: assignment to an element *)
Definition x_aoa_set n a i j v : xaoa :=
  let! n1 k <~ xlift n a (slot chk a i j) ;;
  let! n2 b <~ xleft (fun b => set_vals b a) (x_assign tv n1 (vals a) k v) ;;
  XOk n2 (set_vals b a).

(** ArrayOfArrays.hpp:474-483 dynamicallyGrowArray only moves; its errors come first. *)
Definition x_grow n a i (increase : nat) : xaoa :=
  xlift n a (dynamicallyGrowArray chk tv true false kind a i increase).

(** ArrayOfArrays.hpp:348-352 emplaceBack, 362-367 appendToArray, 379-383 emplace, 394-399 insertIntoArray *)
Definition x_aoa_emplaceBack n a i v : xaoa := let! n1 a1 <~ x_grow n a i 1 ;; x_v_emplaceBack n1 a1 i v.
Definition x_aoa_appendToArray n a i vs : xaoa := let! n1 a1 <~ x_grow n a i (length vs) ;; x_v_appendToArray n1 a1 i vs.
Definition x_aoa_emplace n a i j v : xaoa := let! n1 a1 <~ x_grow n a i 1 ;; x_v_emplace n1 a1 i j v.
Definition x_aoa_insertIntoArray n a i j vs : xaoa :=
  let! n1 a1 <~ x_grow n a i (length vs) ;; x_v_insertIntoArray n1 a1 i j vs.

(** ArrayOfArrays.hpp:411-425 resizeArray *)
Definition x_resizeArray n a i (newSize : nat) v : xaoa :=
  let! n1 c <~ xlift n a (_ <- check_array chk a i ;; capacityOfArray chk a i) ;;
  let! n2 a1 <~ (if c <? newSize then xlift n1 a (setCapacityOfArray chk tv true false kind a i newSize) else XOk n1 a) ;;
  let! n3 prevSize <~ xlift n2 a1 (sizeOfArray chk a1 i) ;;
  let! n4 o <~ xlift n3 a1 (_ <- check_array chk a1 i ;; offset a1 i) ;;
  let! n5 b <~ xleft (fun b => set_vals b a1) (x_am_resize tv n4 (vals a1) o prevSize newSize v) ;;
  x_put_size n5 a1 b i newSize.

(** ArrayOfArrays.hpp:269-279, 288-296 appendArray, 306-318 insertArray: the new array is there, empty, before
    its elements are built. *)
Definition x_appendArray n a (m : nat) (dflt : V) : xaoa :=
  let! n1 a1 <~ xlift n a (push_array chk kind a) ;; x_resizeArray n1 a1 (numArrays a1 - 1) m dflt.
Definition x_appendArrayFrom n a vs : xaoa :=
  let! n1 a1 <~ xlift n a (push_array chk kind a) ;; x_aoa_appendToArray n1 a1 (numArrays a1 - 1) vs.
Definition x_insertArray n a i vs : xaoa :=
  let! n1 a1 <~ xlift n a (open_array chk kind a i) ;; x_aoa_appendToArray n1 a1 i vs.

(** The remaining methods build no elements from arguments; ArrayOfArrays.hpp:431 clearArray resizes to 0. *)
Definition x_astep (dflt : V) n (c : acall V) a : xaoa :=
  match c with
  | AAppend m => x_appendArray n a m dflt
  | AAppendFrom vs => x_appendArrayFrom n a vs
  | AInsertArray i vs => x_insertArray n a i vs
  | AEmplaceBack i v => x_aoa_emplaceBack n a i v
  | AAppendTo i vs => x_aoa_appendToArray n a i vs
  | AEmplace i j v => x_aoa_emplace n a i j v
  | AInsertInto i j vs => x_aoa_insertIntoArray n a i j vs
  | AResizeArray i m v => x_resizeArray n a i m v
  | ASet i j v => x_aoa_set n a i j v
  | _ => xlift n a (astep chk tv true false kind dflt c a)
  end.

(** A program that catches every exception: it stops at the first object whose destructor would not work. *)
Fixpoint x_arun (dflt : V) (h : list (nat * acall V)) (a : aoa) : outcome aoa :=
  match h with
  | [] => Ok a
  | (n, c) :: h' =>
      match x_astep dflt n c a with
      | XOk _ a' => x_arun dflt h' a'
      | XThrow _ t => match aoa_dtor chk tv true false kind t with Ok _ => x_arun dflt h' t | _ => Ok t end
      | XFault f => Fault f
      end
  end.

(** arrayManipulation.hpp:176-188 uninitializedCopy of one array, as AoACopy.copy_row *)
Definition x_copy_row n (srcb : buf V) (o s : nat) (b : buf V) : xout (buf V) (buf V) :=
  xfor_up s (fun k n b => let! n1 v <~ xlift n b (rd srcb (o + k)) ;; x_construct tv n1 b (o + k) v) 0 n b.
(** ArrayOfArraysView.hpp:850-864 *)
Definition x_copy_rows n a (srcb b : buf V) : xout (buf V) (buf V) :=
  xfor_up (numArrays a) (fun i n b =>
    let! n1 o <~ xlift n b (offset a i) ;;
    let! n2 s <~ xlift n1 b (sizeOfArray chk a i) ;;
    x_copy_row n2 srcb o s b) 0 n b.

(** ArrayOfArrays.hpp:169-177 operator=, ArrayOfArraysView.hpp:829-865 setEqualTo: the elements are destroyed,
    offsets, sizes and the number of arrays stored, then the elements are copied. *)
Definition x_setEqualTo n a (src : aoa) : xaoa :=
  let! n1 a4 <~ xlift n a (
    srcMaxOffset <- offset src (numArrays src) ;;
    a1 <- destroyValues chk tv true false a 0 (numArrays a) ;;
    let offsetsSize := if numArrays a =? 0 then 0 else numArrays a + 1 in
    o <- copyInto chk true kind (offs a1) offsetsSize (offs src) (numArrays src + 1) 0 ;;
    s <- copyInto chk true kind (szs a1) (numArrays a) (szs src) (numArrays src) 0 ;;
    let a2 := set_szs s (set_offs o a1) in
    maxOffset <- offset a2 (numArrays a) ;;
    a3 <- each tv true false (fun A t b => BufferManip.reserve chk t kind b maxOffset srcMaxOffset) a2 ;;
    Ok (set_num (numArrays src) a3)) ;;
  let! n2 b <~ xleft (fun b => set_vals b a4) (x_copy_rows n1 a4 (vals src) (vals a4)) ;;
  XOk n2 (set_vals b a4).

(** ArrayOfArrays.hpp:67-70 the copy constructor does not delegate: when its body throws, the destructor of
    ArrayOfArrays (81) does not run, and those of its base class and of the buffers free nothing. *)
Definition x_copy_ctor n (src : aoa) : xaoa := x_setEqualTo n (null_aoa V unit kind) src.

End XAoA.
