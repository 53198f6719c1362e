(** Model of src/ArrayOfSetsView.hpp and src/ArrayOfSets.hpp. The state is that of the array of arrays.

    The callbacks handed to sortedArrayManipulation hold a reference to the container. Their state is the
    container and a pointer into the entries (used by CRSMatrix only, see CRS.v); the value buffer is the
    one sortedArrayManipulation works on, so it is put back into the container for incrementSize. *)
From Coq Require Import List Arith ZArith Lia Bool.
From Verif Require Import Base Mem BufferManip AoA Sorted.
From Verif Require ArrayManip.
Import ListNotations.
Set Implicit Arguments.

Section Impl.
Variable V W : Type.
Variable chk tv tw dual : bool.
Variable kind : bkind.
Variable lt eqb : V -> V -> bool.
Notation aoa := (aoa V W).
Notation X := (aoa * nat)%type.

(** ArrayOfSetsView.hpp:343 getSetValues: the offset of the row, after the bounds check of operator[]
    (ArrayOfArraysView.hpp:405) *)
Definition getSetValues (a : aoa) (i : nat) : outcome nat := _ <- check_array chk a i ;; offset a i.

Variable cb : callbacks V X.
(** ArrayOfSetsView.hpp:364-375 insertIntoSetImpl *)
Definition insertIntoSetImpl (a : aoa) (e : nat) (i : nat) (v : V) : outcome (aoa * bool) :=
  _ <- check_array chk a i ;;
  setSize <- sizeOfArray chk a i ;;
  setValues <- getSetValues a i ;;
  '(b, x, success) <- insert chk tv lt eqb cb (vals a) (a, e) setValues setSize v ;;
  let a1 := set_vals b (fst x) in
  s <- size_ a1 i ;;
  a2 <- put_size a1 i (s + if success : bool then 1 else 0) ;;
  Ok (a2, success).
(** 389-407 insertIntoSetImpl( first, last ) *)
Definition insertsIntoSetImpl (a : aoa) (e : nat) (i : nat) (vs : list V) : outcome (aoa * nat) :=
  _ <- check_array chk a i ;;
  setSize <- sizeOfArray chk a i ;;
  setValues <- getSetValues a i ;;
  '(b, x, nInserted) <- inserts chk tv lt eqb cb (vals a) (a, e) setValues setSize vs ;;
  let a1 := set_vals b (fst x) in
  s <- size_ a1 i ;;
  a2 <- put_size a1 i (s + nInserted) ;;
  Ok (a2, nInserted).
(** 418-428 removeFromSetImpl *)
Definition removeFromSetImpl (a : aoa) (e : nat) (i : nat) (v : V) : outcome (aoa * bool) :=
  _ <- check_array chk a i ;;
  setSize <- sizeOfArray chk a i ;;
  setValues <- getSetValues a i ;;
  '(b, x, success) <- remove chk tv lt eqb cb (vals a) (a, e) setValues setSize v ;;
  let a1 := set_vals b (fst x) in
  s <- size_ a1 i ;;
  s' <- sub_ix s (if success : bool then 1 else 0) ;;
  a2 <- put_size a1 i s' ;;
  Ok (a2, success).
(** 442-460 removeFromSetImpl( first, last ) *)
Definition removesFromSetImpl (a : aoa) (e : nat) (i : nat) (vs : list V) : outcome (aoa * nat) :=
  _ <- check_array chk a i ;;
  setSize <- sizeOfArray chk a i ;;
  setValues <- getSetValues a i ;;
  '(b, x, nRemoved) <- removes chk tv lt eqb cb (vals a) (a, e) setValues setSize vs ;;
  let a1 := set_vals b (fst x) in
  s <- size_ a1 i ;;
  s' <- sub_ix s nRemoved ;;
  a2 <- put_size a1 i s' ;;
  Ok (a2, nRemoved).
End Impl.

Section AoS.
Variable V W : Type.
Variable chk tv tw dual : bool.
Variable kind : bkind.
Variable lt eqb : V -> V -> bool.
Notation aoa := (aoa V W).
Notation X := (aoa * nat)%type.

(** ArrayOfSetsView.hpp:192-200 contains *)
Definition aos_contains (a : aoa) (i : nat) (v : V) : outcome bool :=
  _ <- check_array chk a i ;;
  setSize <- sizeOfArray chk a i ;;
  setValues <- getSetValues chk a i ;;
  contains lt eqb (vals a) setValues setSize v.

(** ArrayOfSetsView.hpp:472-512 CallBacks of the view *)
Definition view_cb (i : nat) : callbacks V X :=
  mkCB (fun nToAdd st =>
          let '(b, (x, e)) := st in
          let a := set_vals b x in
          _ <- (if chk then s <- sizeOfArray chk a i ;; c <- capacityOfArray chk a i ;; error_if (c <? s + nToAdd) else Ok tt) ;;
          p <- getSetValues chk a i ;;
          Ok (vals a, (a, e), p))
       (fun _ x => Ok x).

(** ArrayOfSets.hpp:488-535 CallBacks; the capacity for newNNZ elements, 2 * newNNZ there, is a parameter
    since SparsityPattern has the same callback with another one. *)
Definition grow_cb (newCap : nat -> nat) (i : nat) : callbacks V X :=
  mkCB (fun nToAdd st =>
          let '(b, (x, e)) := st in
          let a := set_vals b x in
          s <- sizeOfArray chk a i ;;
          let newNNZ := s + nToAdd in
          c <- capacityOfArray chk a i ;;
          a' <- (if c <? newNNZ then setCapacityOfArray chk tv tw dual kind a i (newCap newNNZ) else Ok a) ;;
          p <- getSetValues chk a' i ;;
          Ok (vals a', (a', e), p))
       (fun _ x => Ok x).
Definition aos_cb : nat -> callbacks V X := grow_cb (fun newNNZ => 2 * newNNZ).

(** ArrayOfSets.hpp:378, 392 insertIntoSet; 400, 416 removeFromSet, with the callbacks of the view *)
Definition insertIntoSet (a : aoa) (i : nat) (v : V) := insertIntoSetImpl chk tv lt eqb (aos_cb i) a 0 i v.
Definition insertsIntoSet (a : aoa) (i : nat) (vs : list V) := insertsIntoSetImpl chk tv lt eqb (aos_cb i) a 0 i vs.
Definition removeFromSet (a : aoa) (i : nat) (v : V) := removeFromSetImpl chk tv lt eqb (view_cb i) a 0 i v.
Definition removesFromSet (a : aoa) (i : nat) (vs : list V) := removesFromSetImpl chk tv lt eqb (view_cb i) a 0 i vs.
(** ArrayOfSetsView.hpp:261-302, the members of the view *)
Definition v_insertIntoSet (a : aoa) (i : nat) (v : V) := insertIntoSetImpl chk tv lt eqb (view_cb i) a 0 i v.
Definition v_insertsIntoSet (a : aoa) (i : nat) (vs : list V) := insertsIntoSetImpl chk tv lt eqb (view_cb i) a 0 i vs.

(** ArrayOfSets.hpp:318-326 appendSet *)
Definition appendSet (a : aoa) (setCapacity : nat) : outcome aoa :=
  a1 <- push_array chk kind a ;; setCapacityOfArray chk tv tw dual kind a1 (numArrays a1 - 1) setCapacity.
(** 334-348 insertSet *)
Definition insertSet (a : aoa) (i setCapacity : nat) : outcome aoa :=
  a1 <- open_array chk kind a i ;; setCapacityOfArray chk tv tw dual kind a1 i setCapacity.
(** 354-362 eraseSet: literally eraseArray *)
Definition eraseSet (a : aoa) (i : nat) : outcome aoa := eraseArray chk tv tw dual kind a i.
(** 423-431 clearSet; resize to 0 constructs nothing, so the value it would construct is not used *)
Definition clearSet (dflt : V) (a : aoa) (i : nat) : outcome aoa :=
  _ <- check_array chk a i ;;
  prevSize <- sizeOfArray chk a i ;;
  values <- getSetValues chk a i ;;
  b <- ArrayManip.resize tv (vals a) values prevSize 0 dflt ;;
  put_size (set_vals b a) i 0.
(** 448-452 reserveCapacityOfSet *)
Definition reserveCapacityOfSet (a : aoa) (i newCapacity : nat) : outcome aoa :=
  _ <- check_array chk a i ;;
  c <- capacityOfArray chk a i ;;
  if c <? newCapacity then setCapacityOfArray chk tv tw dual kind a i newCapacity else Ok a.

Variable dflt : V.
(** The calls of a history; the returned values are counts, a bool being 0 or 1 and void 0. *)
Inductive tcall : Type :=
| TResize (n cap : nat) | TResizeFromCapacities (caps : list nat) | TReserve (n : nat) | TReserveValues (n : nat) | TCompress
| TAppendSet (cap : nat) | TInsertSet (i cap : nat) | TEraseSet (i : nat)
| TInsert (i : nat) (v : V) | TInserts (i : nat) (vs : list V) | TRemove (i : nat) (v : V) | TRemoves (i : nat) (vs : list V)
| TClear (i : nat) | TSetCapacity (i c : nat) | TReserveCapacity (i c : nat).
Definition flag (b : bool) : nat := if b then 1 else 0.
Definition void (m : outcome aoa) : outcome (aoa * nat) := a <- m ;; Ok (a, 0).
Definition tstep (c : tcall) (a : aoa) : outcome (aoa * nat) :=
  match c with
  | TResize n cap => void (resizeImpl chk tv tw dual kind a n cap)
  | TResizeFromCapacities caps => void (resizeFromCapacities chk tv tw dual kind a caps)
  | TReserve n => void (aoa_reserve chk kind a n)
  | TReserveValues n => void (reserveValues chk tv tw dual kind a n)
  | TCompress => void (compress chk tv tw dual a)
  | TAppendSet cap => void (appendSet a cap)
  | TInsertSet i cap => void (insertSet a i cap)
  | TEraseSet i => void (eraseSet a i)
  | TInsert i v => '(a', r) <- insertIntoSet a i v ;; Ok (a', flag r)
  | TInserts i vs => insertsIntoSet a i vs
  | TRemove i v => '(a', r) <- removeFromSet a i v ;; Ok (a', flag r)
  | TRemoves i vs => removesFromSet a i vs
  | TClear i => void (clearSet dflt a i)
  | TSetCapacity i c => void (setCapacityOfArray chk tv tw dual kind a i c)
  | TReserveCapacity i c => void (reserveCapacityOfSet a i c)
  end.
Fixpoint trun (h : list tcall) (a : aoa) : outcome aoa :=
  match h with [] => Ok a | c :: h' => '(a', _) <- tstep c a ;; trun h' a' end.

(** ArrayOfArraysView.hpp:748-749 assimilate: the buffers of [src] are taken over, [src] is left empty. *)
(** ArrayOfSets.hpp:129-173 assimilate; [sort] is std::sort on a range. *)
Inductive description : Type := SortedUnique | UnsortedNoDuplicates | SortedWithDuplicates | UnsortedWithDuplicates.
Variable sort : buf V -> nat -> nat -> outcome (buf V).
Definition each_set (f : aoa -> nat -> outcome aoa) (a : aoa) : outcome aoa :=
  for_up (numArrays a) (fun i a => f a i) 0 a.
Definition sort_set (a : aoa) (i : nat) : outcome aoa :=
  p <- getSetValues chk a i ;; n <- sizeOfArray chk a i ;; b <- sort (vals a) p n ;; Ok (set_vals b a).
Definition unique_set (f : buf V -> nat -> nat -> outcome (buf V * nat)) (a : aoa) (i : nat) : outcome aoa :=
  p <- getSetValues chk a i ;; n <- sizeOfArray chk a i ;;
  '(b, u) <- f (vals a) p n ;;
  b' <- ArrayManip.resize tv b p n u dflt ;;
  put_size (set_vals b' a) i u.
Definition aos_assimilate (this src : aoa) (d : description) : outcome aoa :=
  _ <- aoa_free chk tv tw dual kind this ;;
  match d with
  | SortedUnique => Ok src
  | UnsortedNoDuplicates => each_set sort_set src
  | SortedWithDuplicates => each_set (unique_set (removeDuplicates tv lt)) src
  | UnsortedWithDuplicates => each_set (unique_set (makeSortedUnique tv lt sort)) src
  end.
End AoS.
Arguments TResize {V} n cap. Arguments TResizeFromCapacities {V} caps. Arguments TReserve {V} n. Arguments TReserveValues {V} n.
Arguments TCompress {V}. Arguments TAppendSet {V} cap. Arguments TInsertSet {V} i cap. Arguments TEraseSet {V} i.
Arguments TClear {V} i. Arguments TSetCapacity {V} i c. Arguments TReserveCapacity {V} i c.
