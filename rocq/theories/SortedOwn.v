(** Calls of SortedArray and ArrayOfSets whose arguments are elements of the container itself: insert( s[ l ] ),
    insert( s.begin() + l, s.begin() + l + n ), insertIntoSet( i, s( k, l ) ), insertIntoSet( i, &s( k, l ), &s( k, l ) + n ) and the same for
    remove.

    As in OwnRange.v the argument is the address of a slot [q] of the values. It is read each time the code
    dereferences it, that is, also after values were shifted; if the buffer was reallocated it dangles. The qualifier LVARRAY_RESTRICT of
    the pointers is not modelled: it forbids reading slots which the same call writes. *)
From Coq Require Import List Arith ZArith Bool.
From Verif Require Import Base Mem BufferManip AoA Sorted SortedArray AoS OwnRange.
From Verif Require ArrayManip.
Import ListNotations.
Set Implicit Arguments.
Unset Strict Implicit.

Section Own.
Variable V X : Type.
Variable chk triv : bool.
Variable lt eqb : V -> V -> bool.
Variable cb : callbacks V X.
Notation buf := (buf V).

(** sortedArrayManipulation.hpp:618-656 insert; the value is read for the comparisons and again for the construction. *)
Definition insert1Own (b : buf) (x : X) (p size q : nat) : outcome (buf * X * bool) :=
  value <- rd b q ;;
  insertPos <- insert_pos lt b p size value ;;
  present <- (if insertPos =? size then Ok false else y <- rd b (p + insertPos) ;; Ok (eqb y value)) ;;
  if present : bool then
    '(b', x', _) <- cb_inc cb 0 (b, x) ;; Ok (b', x', false)
  else
    '(b1, x1, newPtr) <- cb_inc cb 1 (b, x) ;;
    b2 <- emplaceOwn chk triv b1 newPtr size insertPos q ;;
    x2 <- cb_ev cb (EInsert insertPos) x1 ;;
    Ok (b2, x2, true).

(** The loop of sortedArrayManipulation.hpp:697-702; [m] values are left. *)
Fixpoint set_loopOwn (b : buf) (x : X) (p n q m : nat) : outcome (buf * X * nat) :=
  match m with
  | O => Ok (b, x, n)
  | S m' =>
      v <- rd b q ;;
      b' <- construct triv b (p + n) v ;;
      x' <- cb_ev cb (ESet n n) x ;;
      set_loopOwn b' x' p (n + 1) (q + 1) m'
  end.
(** The loop of 712-721, from the last value to the first *)
Fixpoint count_loopOwn (b : buf) (p size ub n q m : nat) : outcome nat :=
  match m with
  | O => Ok n
  | S m' =>
      v <- rd b (q + m') ;;
      ub' <- find lt b p ub v ;;
      absent <- (if ub' =? size then Ok true else y <- rd b (p + ub') ;; Ok (negb (eqb y v))) ;;
      count_loopOwn b p size ub' (if absent : bool then n + 1 else n) q m'
  end.
(** The loop of 737-755 *)
Fixpoint insert_loopOwn (b : buf) (x : X) (p ub nLeft q m : nat) : outcome (buf * X) :=
  match m with
  | O => Ok (b, x)
  | S m' =>
      v <- rd b (q + m') ;;
      pos <- find lt b p ub v ;;
      present <- (if pos =? ub then Ok false else y <- rd b (p + pos) ;; Ok (eqb y v)) ;;
      if present : bool then insert_loopOwn b x p ub nLeft q m' else
      b1 <- ArrayManip.shiftUp chk triv b p ub pos nLeft ;;
      d <- sub_ix (p + pos + nLeft) 1 ;;
      w <- rd b1 (q + m') ;;
      b2 <- construct triv b1 d w ;;
      x' <- cb_ev cb (EInsertN nLeft m' pos ub) x ;;
      insert_loopOwn b2 x' p pos (nLeft - 1) q m'
  end.
(** sortedArrayManipulation.hpp:674-758 insert( first, last ) with the [m] values from slot [q] on *)
Definition insertsOwn (b : buf) (x : X) (p size q m : nat) : outcome (buf * X * nat) :=
  if size =? 0 then
    '(b1, x1, newPtr) <- cb_inc cb m (b, x) ;;
    set_loopOwn b1 x1 newPtr 0 q m
  else
    nToInsert <- count_loopOwn b p size size 0 q m ;;
    '(b1, x1, newPtr) <- cb_inc cb nToInsert (b, x) ;;
    if nToInsert =? 0 then Ok (b1, x1, 0) else
    '(b2, x2) <- insert_loopOwn b1 x1 newPtr size nToInsert q m ;;
    Ok (b2, x2, nToInsert).

(** 471-494 remove: the value is not read after a change of the array. *)
Definition remove1Own (b : buf) (x : X) (p size q : nat) : outcome (buf * X * bool) :=
  value <- rd b q ;; remove chk triv lt eqb cb b x p size value.
(** The search loops of 528-543 and 556-573; the position, and the address and number of the values from the one found on *)
Fixpoint seekOwn (b : buf) (p size pos q m : nat) : outcome (nat * nat * nat) :=
  match m with
  | O => Ok (pos, q, 0)
  | S m' =>
      v <- rd b q ;;
      k <- find lt b (p + pos) (size - pos) v ;;
      let pos' := pos + k in
      if pos' =? size then Ok (size, q, 0) else
      y <- rd b (p + pos') ;;
      if eqb y v then Ok (pos', q, m) else seekOwn b p size pos' (q + 1) m'
  end.
(** The loop of 551-594 *)
Fixpoint remove_loopOwn (fuel : nat) (b : buf) (x : X) (p size nRemoved pos q m : nat) : outcome (buf * X * nat) :=
  match m with
  | O => Ok (b, x, nRemoved)
  | S m' =>
      match fuel with
      | O => Fault FFuel
      | S fuel' =>
          '(np, q', next) <- seekOwn b p size pos (q + 1) m' ;;
          let np := match next with O => size | _ => np end in
          let nRemoved := nRemoved + 1 in
          b' <- ArrayManip.shiftDown chk triv b p np (pos + 1) nRemoved ;;
          x' <- cb_ev cb (ERemoveN nRemoved pos np) x ;;
          if np =? size then Ok (b', x', nRemoved)
          else remove_loopOwn fuel' b' x' p size nRemoved np q' next
      end
  end.
(** 511-604 remove( first, last ) with the [m] values from slot [q] on *)
Definition removesOwn (b : buf) (x : X) (p size q m : nat) : outcome (buf * X * nat) :=
  '(pos, q', found) <- seekOwn b p size 0 q m ;;
  match found with
  | O => Ok (b, x, 0)
  | _ =>
      '(b', x', nRemoved) <- remove_loopOwn m b x p size 0 pos q' found ;;
      b2 <- for_up nRemoved (fun i b => destroy1 triv b (p + i)) (size - nRemoved) b' ;;
      Ok (b2, x', nRemoved)
  end.
(** Callbacks which may free the block the argument points to: after incrementSize( nToAdd ) with nToAdd > 0 the values are read, so the
    fault is raised there; [again] tells whether the block is freed. *)
Definition losing (kind : bkind) (again : nat -> buf * X -> outcome bool) : callbacks V X :=
  mkCB (fun nToAdd st => r <- again nToAdd st ;; y <- cb_inc cb nToAdd st ;; _ <- dangles kind r ;; Ok y) (cb_ev cb).
End Own.

(** * SortedArray *)
Section SOwn.
Variable V : Type.
Variable chk triv : bool.
Variable kind : bkind.
Variable lt eqb : V -> V -> bool.
Notation sarray := (sarray V).
Definition s_cbOwn (size : nat) : callbacks V unit :=
  losing (s_cb V chk triv kind size) kind (fun nToAdd st => Ok (capacity (fst st) <? size + nToAdd)).
(** &s[ l ] (SortedArrayView.hpp:220) and s.begin() + l, which is not checked *)
Definition s_slot (a : sarray) (l : nat) : outcome nat := _ <- check_if chk (s_size a <=? l) ;; Ok l.
(** SortedArray.hpp:223-231 insert, 241-251 insert( first, last ), 259-267 remove, 277-287 remove( first, last ) *)
Definition s_insertOwn (a : sarray) (l : nat) : outcome (sarray * bool) :=
  q <- s_slot a l ;;
  '(b, _, success) <- insert1Own chk triv lt eqb (s_cbOwn (s_size a)) (s_buf a) tt 0 (s_size a) q ;;
  Ok (mkS b (s_size a + if success : bool then 1 else 0), success).
Definition s_insertsOwn (a : sarray) (l n : nat) : outcome (sarray * nat) :=
  '(b, _, nInserted) <- insertsOwn chk triv lt eqb (s_cbOwn (s_size a)) (s_buf a) tt 0 (s_size a) l n ;;
  Ok (mkS b (s_size a + nInserted), nInserted).
Definition s_removeOwn (a : sarray) (l : nat) : outcome (sarray * bool) :=
  q <- s_slot a l ;;
  '(b, _, success) <- remove1Own chk triv lt eqb (s_cbOwn (s_size a)) (s_buf a) tt 0 (s_size a) q ;;
  Ok (mkS b (s_size a - if success : bool then 1 else 0), success).
Definition s_removesOwn (a : sarray) (l n : nat) : outcome (sarray * nat) :=
  '(b, _, nRemoved) <- removesOwn chk triv lt eqb (s_cbOwn (s_size a)) (s_buf a) tt 0 (s_size a) l n ;;
  m <- sub_ix (s_size a) nRemoved ;;
  Ok (mkS b m, nRemoved).
End SOwn.

(** * ArrayOfSets *)
Section AoSOwn.
Variable V W : Type.
Variable chk tv tw dual : bool.
Variable kind : bkind.
Variable lt eqb : V -> V -> bool.
Notation aoa := (aoa V W).
Notation X := (aoa * nat)%type.
(** ArrayOfSets.hpp:511-521 incrementSize *)
Definition aos_cbOwn (i : nat) : callbacks V X :=
  losing (aos_cb V W chk tv tw dual kind i) kind (fun nToAdd st => reallocates chk (set_vals (fst st) (fst (snd st))) i nToAdd).
(** ArrayOfSetsView.hpp:364-375, 389-407, 418-428, 442-460 with the callbacks of ArrayOfSets.hpp:378, 392, for removal those of the view *)
Definition insertIntoSetOwn (a : aoa) (i k l : nat) : outcome (aoa * bool) :=
  q <- slot chk a k l ;;
  _ <- check_array chk a i ;; setSize <- sizeOfArray chk a i ;; setValues <- getSetValues chk a i ;;
  '(b, x, success) <- insert1Own chk tv lt eqb (aos_cbOwn i) (vals a) (a, 0) setValues setSize q ;;
  let a1 := set_vals b (fst x) in
  s <- size_ a1 i ;; a2 <- put_size a1 i (s + if success : bool then 1 else 0) ;; Ok (a2, success).
Definition insertsIntoSetOwn (a : aoa) (i k l n : nat) : outcome (aoa * nat) :=
  q <- address chk a k l ;;
  _ <- check_array chk a i ;; setSize <- sizeOfArray chk a i ;; setValues <- getSetValues chk a i ;;
  '(b, x, nInserted) <- insertsOwn chk tv lt eqb (aos_cbOwn i) (vals a) (a, 0) setValues setSize q n ;;
  let a1 := set_vals b (fst x) in
  s <- size_ a1 i ;; a2 <- put_size a1 i (s + nInserted) ;; Ok (a2, nInserted).
Definition removeFromSetOwn (a : aoa) (i k l : nat) : outcome (aoa * bool) :=
  q <- slot chk a k l ;;
  _ <- check_array chk a i ;; setSize <- sizeOfArray chk a i ;; setValues <- getSetValues chk a i ;;
  '(b, x, success) <- remove1Own chk tv lt eqb (view_cb V W chk i) (vals a) (a, 0) setValues setSize q ;;
  let a1 := set_vals b (fst x) in
  s <- size_ a1 i ;; s' <- sub_ix s (if success : bool then 1 else 0) ;; a2 <- put_size a1 i s' ;; Ok (a2, success).
Definition removesFromSetOwn (a : aoa) (i k l n : nat) : outcome (aoa * nat) :=
  q <- address chk a k l ;;
  _ <- check_array chk a i ;; setSize <- sizeOfArray chk a i ;; setValues <- getSetValues chk a i ;;
  '(b, x, nRemoved) <- removesOwn chk tv lt eqb (view_cb V W chk i) (vals a) (a, 0) setValues setSize q n ;;
  let a1 := set_vals b (fst x) in
  s <- size_ a1 i ;; s' <- sub_ix s nRemoved ;; a2 <- put_size a1 i s' ;; Ok (a2, nRemoved).
End AoSOwn.
