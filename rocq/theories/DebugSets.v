(** Model of a debug build, continued: src/ArrayOfSetsView.hpp and src/ArrayOfSets.hpp with the LVARRAY_ASSERTs of the functions
    they call. Each definition is that of AoS.v over the functions of Debug.v and DebugSorted.v; the only assertion of these two files
    (ArrayOfSets.hpp:337, a capacity is not negative) holds because the model uses natural numbers. *)
From Coq Require Import List Arith ZArith Lia Bool.
From Verif Require Import Base Mem BufferManip Debug AoA Sorted AoS DebugSorted.
Import ListNotations.
Set Implicit Arguments.

Section Impl.
Variable V W : Type.
(** [dbg]: NDEBUG not defined; the others as in AoS.v *)
Variable dbg chk tv : bool.
Variable kind : bkind.
Variable lt eqb : V -> V -> bool.
Notation aoa := (aoa V W).
Notation X := (aoa * nat)%type.
Variable cb : callbacks V X.
(** ArrayOfSetsView.hpp:364-375 insertIntoSetImpl *)
Definition d_insertIntoSetImpl (a : aoa) (e : nat) (i : nat) (v : V) : outcome (aoa * bool) :=
  _ <- check_array chk a i ;;
  setSize <- sizeOfArray chk a i ;;
  setValues <- getSetValues chk a i ;;
  '(b, x, success) <- d_sinsert dbg chk tv kind lt eqb cb (vals a) (a, e) setValues setSize v ;;
  let a1 := set_vals b (fst x) in
  s <- size_ a1 i ;;
  a2 <- put_size a1 i (s + if success : bool then 1 else 0) ;;
  Ok (a2, success).
(** 389-407 insertIntoSetImpl( first, last ) *)
Definition d_insertsIntoSetImpl (a : aoa) (e : nat) (i : nat) (vs : list V) : outcome (aoa * nat) :=
  _ <- check_array chk a i ;;
  setSize <- sizeOfArray chk a i ;;
  setValues <- getSetValues chk a i ;;
  '(b, x, nInserted) <- d_inserts dbg chk tv kind lt eqb cb (vals a) (a, e) setValues setSize vs ;;
  let a1 := set_vals b (fst x) in
  s <- size_ a1 i ;;
  a2 <- put_size a1 i (s + nInserted) ;;
  Ok (a2, nInserted).
(** 418-428 removeFromSetImpl *)
Definition d_removeFromSetImpl (a : aoa) (e : nat) (i : nat) (v : V) : outcome (aoa * bool) :=
  _ <- check_array chk a i ;;
  setSize <- sizeOfArray chk a i ;;
  setValues <- getSetValues chk a i ;;
  '(b, x, success) <- d_remove dbg chk tv kind lt eqb cb (vals a) (a, e) setValues setSize v ;;
  let a1 := set_vals b (fst x) in
  s <- size_ a1 i ;;
  s' <- sub_ix s (if success : bool then 1 else 0) ;;
  a2 <- put_size a1 i s' ;;
  Ok (a2, success).
(** 442-460 removeFromSetImpl( first, last ) *)
Definition d_removesFromSetImpl (a : aoa) (e : nat) (i : nat) (vs : list V) : outcome (aoa * nat) :=
  _ <- check_array chk a i ;;
  setSize <- sizeOfArray chk a i ;;
  setValues <- getSetValues chk a i ;;
  '(b, x, nRemoved) <- d_removes dbg chk tv kind lt eqb cb (vals a) (a, e) setValues setSize vs ;;
  let a1 := set_vals b (fst x) in
  s <- size_ a1 i ;;
  s' <- sub_ix s nRemoved ;;
  a2 <- put_size a1 i s' ;;
  Ok (a2, nRemoved).
End Impl.

Section DAoS.
Variable V W : Type.
Variable dbg chk tv tw dual : bool.
Variable kind : bkind.
Variable lt eqb : V -> V -> bool.
Notation aoa := (aoa V W).
Notation X := (aoa * nat)%type.

(** ArrayOfSetsView.hpp:192-200 contains *)
Definition d_aos_contains (a : aoa) (i : nat) (v : V) : outcome bool :=
  _ <- check_array chk a i ;;
  setSize <- sizeOfArray chk a i ;;
  setValues <- getSetValues chk a i ;;
  d_contains dbg kind lt eqb (vals a) setValues setSize v.

(** ArrayOfSets.hpp:488-535 CallBacks; those of the view (ArrayOfSetsView.hpp:472-512) have no assertion *)
Definition d_grow_cb (newCap : nat -> nat) (i : nat) : callbacks V X :=
  mkCB (fun nToAdd st =>
          let '(b, (x, e)) := st in
          let a := set_vals b x in
          s <- sizeOfArray chk a i ;;
          let newNNZ := s + nToAdd in
          c <- capacityOfArray chk a i ;;
          a' <- (if c <? newNNZ then g_setCapacityOfArray dbg chk kind tv tw dual a i (newCap newNNZ) else Ok a) ;;
          p <- getSetValues chk a' i ;;
          Ok (vals a', (a', e), p))
       (fun _ x => Ok x).
Definition d_aos_cb : nat -> callbacks V X := d_grow_cb (fun newNNZ => 2 * newNNZ).

(** ArrayOfSets.hpp:378, 392 insertIntoSet; 400, 416 removeFromSet *)
Definition d_insertIntoSet (a : aoa) (i : nat) (v : V) := d_insertIntoSetImpl dbg chk tv kind lt eqb (d_aos_cb i) a 0 i v.
Definition d_insertsIntoSet (a : aoa) (i : nat) (vs : list V) := d_insertsIntoSetImpl dbg chk tv kind lt eqb (d_aos_cb i) a 0 i vs.
Definition d_removeFromSet (a : aoa) (i : nat) (v : V) := d_removeFromSetImpl dbg chk tv kind lt eqb (view_cb V W chk i) a 0 i v.
Definition d_removesFromSet (a : aoa) (i : nat) (vs : list V) := d_removesFromSetImpl dbg chk tv kind lt eqb (view_cb V W chk i) a 0 i vs.

(** ArrayOfSets.hpp:318-326 appendSet *)
Definition d_appendSet (a : aoa) (setCapacity : nat) : outcome aoa :=
  a1 <- g_push_array dbg chk kind a ;; g_setCapacityOfArray dbg chk kind tv tw dual a1 (numArrays a1 - 1) setCapacity.
(** 334-348 insertSet *)
Definition d_insertSet (a : aoa) (i setCapacity : nat) : outcome aoa :=
  a1 <- g_open_array dbg chk kind a i ;; g_setCapacityOfArray dbg chk kind tv tw dual a1 i setCapacity.
(** 423-431 clearSet *)
Definition d_clearSet (dflt : V) (a : aoa) (i : nat) : outcome aoa :=
  _ <- check_array chk a i ;;
  prevSize <- sizeOfArray chk a i ;;
  values <- getSetValues chk a i ;;
  b <- d_resize dbg kind tv (vals a) values prevSize 0 dflt ;;
  put_size (set_vals b a) i 0.
(** 448-452 reserveCapacityOfSet *)
Definition d_reserveCapacityOfSet (a : aoa) (i newCapacity : nat) : outcome aoa :=
  _ <- check_array chk a i ;;
  c <- capacityOfArray chk a i ;;
  if c <? newCapacity then g_setCapacityOfArray dbg chk kind tv tw dual a i newCapacity else Ok a.

Variable dflt : V.
Definition d_tstep (c : tcall V) (a : aoa) : outcome (aoa * nat) :=
  match c with
  | TResize n cap => void (g_resizeImpl dbg chk kind tv tw dual a n cap)
  | TResizeFromCapacities caps => void (g_resizeFromCapacities dbg chk kind tv tw dual a caps)
  | TReserve n => void (g_aoa_reserve dbg chk kind a n)
  | TReserveValues n => void (g_reserveValues dbg chk kind tv tw dual a n)
  | TCompress => void (g_compress dbg chk kind tv tw dual a)
  | TAppendSet cap => void (d_appendSet a cap)
  | TInsertSet i cap => void (d_insertSet a i cap)
  | TEraseSet i => void (g_eraseArray dbg chk kind tv tw dual a i)
  | TInsert i v => '(a', r) <- d_insertIntoSet a i v ;; Ok (a', flag r)
  | TInserts i vs => d_insertsIntoSet a i vs
  | TRemove i v => '(a', r) <- d_removeFromSet a i v ;; Ok (a', flag r)
  | TRemoves i vs => d_removesFromSet a i vs
  | TClear i => void (d_clearSet dflt a i)
  | TSetCapacity i c => void (g_setCapacityOfArray dbg chk kind tv tw dual a i c)
  | TReserveCapacity i c => void (d_reserveCapacityOfSet a i c)
  end.
Fixpoint d_trun (h : list (tcall V)) (a : aoa) : outcome aoa :=
  match h with [] => Ok a | c :: h' => '(a', _) <- d_tstep c a ;; d_trun h' a' end.

(** sortedArrayManipulation.hpp:305-345 removeDuplicates, with the assertion on line 309; 355-362 makeSortedUnique *)
Definition d_removeDuplicates (b : buf V) (p n : nat) : outcome (buf V * nat) :=
  _ <- assert_range dbg (isSorted lt) b p n ;; removeDuplicates tv lt b p n.
Variable sort : buf V -> nat -> nat -> outcome (buf V).
Definition d_makeSortedUnique (b : buf V) (p n : nat) : outcome (buf V * nat) :=
  b' <- sort b p n ;; d_removeDuplicates b' p n.
(** ArrayOfSets.hpp:129-173 assimilate *)
Definition d_unique_set (f : buf V -> nat -> nat -> outcome (buf V * nat)) (a : aoa) (i : nat) : outcome aoa :=
  p <- getSetValues chk a i ;; n <- sizeOfArray chk a i ;;
  '(b, u) <- f (vals a) p n ;;
  b' <- d_resize dbg kind tv b p n u dflt ;;
  put_size (set_vals b' a) i u.
Definition d_aos_assimilate (this src : aoa) (d : description) : outcome aoa :=
  _ <- g_aoa_free dbg chk kind tv tw dual this ;;
  match d with
  | SortedUnique => Ok src
  | UnsortedNoDuplicates => each_set (sort_set chk sort) src
  | SortedWithDuplicates => each_set (d_unique_set d_removeDuplicates) src
  | UnsortedWithDuplicates => each_set (d_unique_set d_makeSortedUnique) src
  end.
End DAoS.
