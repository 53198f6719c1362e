(** Model of a debug build, continued: the functions of src/sortedArrayManipulation.hpp and src/SortedArray.hpp with
    their LVARRAY_ASSERTs. Each definition is that of Sorted.v, SortedArray.v with the assertions added where the
    source has them; those that a size is not negative hold because the model uses natural numbers.

    An assertion about a range reads all of its values before it is evaluated; the source stops at the first pair
    that is out of order. *)
From Coq Require Import List Arith ZArith Lia Bool.
From Verif Require Import Base Mem BufferManip Debug Sorted SortedArray.
From Verif Require ArrayManip.
Import ListNotations.
Set Implicit Arguments.

Section DSorted.
Variable V : Type.
(** [dbg]: NDEBUG not defined; [chk]: LVARRAY_BOUNDS_CHECK; [triv]: T trivial; [kind]: the buffer class; [lt], [eqb]: < and == *)
Variable dbg chk triv : bool.
Variable kind : bkind.
Variable lt eqb : V -> V -> bool.
Notation buf := (buf V).

(** the values of the range [ ptr, ptr + n ) *)
Fixpoint reads (b : buf) (p n : nat) : outcome (list V) :=
  match n with O => Ok [] | S n' => x <- rd b p ;; l <- reads b (p + 1) n' ;; Ok (x :: l) end.
(** LVARRAY_ASSERT( test( ptr, ptr + n ) ) *)
Definition assert_range (test : list V -> bool) (b : buf) (p n : nat) : outcome unit :=
  if dbg then l <- reads b p n ;; assert_ dbg (test l) else Ok tt.

(** sortedArrayManipulation.hpp:411-436 find *)
Definition d_find (b : buf) (p size : nat) (value : V) : outcome nat :=
  _ <- assert_ dbg (nonnull kind b p || (size =? 0)) ;;
  _ <- assert_range (isSorted lt) b p size ;;
  find lt b p size value.
(** 449-457 contains *)
Definition d_contains (b : buf) (p size : nat) (value : V) : outcome bool :=
  pos <- d_find b p size value ;;
  if pos =? size then Ok false else x <- rd b (p + pos) ;; Ok (eqb x value).

Section CB.
Variable X : Type.
Variable cb : callbacks V X.

(** 471-494 remove (one value) *)
Definition d_remove (b : buf) (x : X) (p size : nat) (value : V) : outcome (buf * X * bool) :=
  _ <- assert_ dbg (nonnull kind b p || (size =? 0)) ;;
  index <- d_find b p size value ;;
  if index =? size then Ok (b, x, false) else
  y <- rd b (p + index) ;;
  if negb (eqb y value) then Ok (b, x, false) else
  b' <- d_erase dbg chk kind triv b p size index 1 ;;
  x' <- cb_ev cb (ERemove index) x ;;
  Ok (b', x', true).

(** The search loops of 528-543 and 556-573 *)
Fixpoint d_seek (b : buf) (p size pos : nat) (vs : list V) : outcome (nat * list V) :=
  match vs with
  | [] => Ok (pos, [])
  | v :: vs' =>
      k <- d_find b (p + pos) (size - pos) v ;;
      let pos' := pos + k in
      if pos' =? size then Ok (size, []) else
      y <- rd b (p + pos') ;;
      if eqb y v then Ok (pos', vs) else d_seek b p size pos' vs'
  end.

(** The loop of 551-594 *)
Fixpoint d_remove_loop (fuel : nat) (b : buf) (x : X) (p size nRemoved pos : nat) (vs : list V)
  : outcome (buf * X * nat) :=
  match vs with
  | [] => Ok (b, x, nRemoved)
  | _ :: rest =>
      match fuel with
      | O => Fault FFuel
      | S fuel' =>
          '(np, next) <- d_seek b p size pos rest ;;
          let np := match next with [] => size | _ => np end in
          let nRemoved := nRemoved + 1 in
          b' <- d_shiftDown dbg chk kind triv b p np (pos + 1) nRemoved ;;
          x' <- cb_ev cb (ERemoveN nRemoved pos np) x ;;
          if np =? size then Ok (b', x', nRemoved)
          else d_remove_loop fuel' b' x' p size nRemoved np next
      end
  end.

(** 511-604 remove (sorted range of values); the assertions are those of 519-523 *)
Definition d_removes (b : buf) (x : X) (p size : nat) (vs : list V) : outcome (buf * X * nat) :=
  _ <- assert_ dbg (nonnull kind b p || (size =? 0)) ;;
  _ <- assert_range (isSortedUnique lt) b p size ;;
  _ <- assert_ dbg (isSortedUnique lt vs) ;;
  '(pos, found) <- d_seek b p size 0 vs ;;
  match found with
  | [] => Ok (b, x, 0)
  | _ =>
      '(b', x', nRemoved) <- d_remove_loop (length vs) b x p size 0 pos found ;;
      b2 <- for_up nRemoved (fun i b => destroy1 triv b (p + i)) (size - nRemoved) b' ;;
      Ok (b2, x', nRemoved)
  end.

(** 618-656 insert (one value); the assertions are those of 625-627 *)
Definition d_insert_pos (b : buf) (p size : nat) (value : V) : outcome nat :=
  if size =? 0 then Ok 0 else
  x0 <- rd b (p + 0) ;;
  if lt value x0 then Ok 0 else
  xl <- rd b (p + (size - 1)) ;;
  if lt xl value then Ok size else d_find b p size value.
Definition d_sinsert (b : buf) (x : X) (p size : nat) (value : V) : outcome (buf * X * bool) :=
  _ <- assert_ dbg (nonnull kind b p || (size =? 0)) ;;
  _ <- assert_range (isSortedUnique lt) b p size ;;
  insertPos <- d_insert_pos b p size value ;;
  present <- (if insertPos =? size then Ok false else y <- rd b (p + insertPos) ;; Ok (eqb y value)) ;;
  if present : bool then
    '(b', x', _) <- cb_inc cb 0 (b, x) ;; Ok (b', x', false)
  else
    '(b1, x1, newPtr) <- cb_inc cb 1 (b, x) ;;
    b2 <- d_emplace dbg chk kind triv b1 newPtr size insertPos value ;;
    x2 <- cb_ev cb (EInsert insertPos) x1 ;;
    Ok (b2, x2, true).

(** The loop of 712-721 *)
Fixpoint d_count_loop (b : buf) (p size ub n : nat) (rvs : list V) : outcome nat :=
  match rvs with
  | [] => Ok n
  | v :: rvs' =>
      ub' <- d_find b p ub v ;;
      absent <- (if ub' =? size then Ok true else y <- rd b (p + ub') ;; Ok (negb (eqb y v))) ;;
      d_count_loop b p size ub' (if absent : bool then n + 1 else n) rvs'
  end.

(** The loop of 737-755 *)
Fixpoint d_insert_loop (b : buf) (x : X) (p ub nLeft : nat) (rvs : list V) : outcome (buf * X) :=
  match rvs with
  | [] => Ok (b, x)
  | v :: rvs' =>
      pos <- d_find b p ub v ;;
      present <- (if pos =? ub then Ok false else y <- rd b (p + pos) ;; Ok (eqb y v)) ;;
      if present : bool then d_insert_loop b x p ub nLeft rvs' else
      b1 <- d_shiftUp dbg chk kind triv b p ub pos nLeft ;;
      d <- sub_ix (p + pos + nLeft) 1 ;;
      b2 <- construct triv b1 d v ;;
      x' <- cb_ev cb (EInsertN nLeft (length rvs') pos ub) x ;;
      d_insert_loop b2 x' p pos (nLeft - 1) rvs'
  end.

(** 674-758 insert (sorted range of values); the assertions are those of 682-686 *)
Definition d_inserts (b : buf) (x : X) (p size : nat) (vs : list V) : outcome (buf * X * nat) :=
  _ <- assert_ dbg (nonnull kind b p || (size =? 0)) ;;
  _ <- assert_range (isSortedUnique lt) b p size ;;
  _ <- assert_ dbg (isSortedUnique lt vs) ;;
  if size =? 0 then
    '(b1, x1, newPtr) <- cb_inc cb (length vs) (b, x) ;;
    set_loop triv cb b1 x1 newPtr 0 vs
  else
    nToInsert <- d_count_loop b p size size 0 (rev vs) ;;
    '(b1, x1, newPtr) <- cb_inc cb nToInsert (b, x) ;;
    if nToInsert =? 0 then Ok (b1, x1, 0) else
    '(b2, x2) <- d_insert_loop b1 x1 newPtr size nToInsert (rev vs) ;;
    Ok (b2, x2, nToInsert).
End CB.

(** * SortedArray *)
Variable dflt : V.
Notation sarray := (sarray V).
(** SortedArray.hpp:346-383 CallBacks *)
Definition ds_cb (size : nat) : callbacks V unit :=
  mkCB (fun nToAdd st => b' <- b_dynamicReserve dbg chk kind triv (fst st) size (size + nToAdd) ;; Ok (b', tt, 0))
       (fun _ x => Ok x).
(** SortedArray.hpp:92 destructor *)
Definition ds_dtor (a : sarray) : outcome unit :=
  b <- b_free dbg chk kind triv (s_buf a) (s_size a) ;; Ok tt.
(** SortedArray.hpp:223-231 insert *)
Definition ds_insert (a : sarray) (v : V) : outcome (sarray * bool) :=
  '(b, _, success) <- d_sinsert (ds_cb (s_size a)) (s_buf a) tt 0 (s_size a) v ;;
  Ok (mkS b (s_size a + if success : bool then 1 else 0), success).
(** 241-251 insert( first, last ) *)
Definition ds_inserts (a : sarray) (vs : list V) : outcome (sarray * nat) :=
  '(b, _, nInserted) <- d_inserts (ds_cb (s_size a)) (s_buf a) tt 0 (s_size a) vs ;;
  Ok (mkS b (s_size a + nInserted), nInserted).
(** 259-267 remove *)
Definition ds_remove (a : sarray) (v : V) : outcome (sarray * bool) :=
  '(b, _, success) <- d_remove (ds_cb (s_size a)) (s_buf a) tt 0 (s_size a) v ;;
  Ok (mkS b (s_size a - if success : bool then 1 else 0), success).
(** 277-287 remove( first, last ) *)
Definition ds_removes (a : sarray) (vs : list V) : outcome (sarray * nat) :=
  '(b, _, nRemoved) <- d_removes (ds_cb (s_size a)) (s_buf a) tt 0 (s_size a) vs ;;
  n <- sub_ix (s_size a) nRemoved ;;
  Ok (mkS b n, nRemoved).
(** 300-304 clear *)
Definition ds_clear (a : sarray) : outcome sarray :=
  b <- b_resize dbg chk kind triv (s_buf a) (s_size a) 0 dflt ;; Ok (mkS b 0).
(** 311 reserve *)
Definition ds_reserve (a : sarray) (n : Z) : outcome sarray :=
  b <- b_reserve dbg chk kind triv (s_buf a) (s_size a) (Z.to_nat n) ;; Ok (mkS b (s_size a)).
(** SortedArrayView.hpp:196 contains, 205 count *)
Definition ds_contains (a : sarray) (v : V) : outcome bool := d_contains (s_buf a) 0 (s_size a) v.

Definition ds_step (c : scall V) (a : sarray) : outcome (sarray * nat) :=
  match c with
  | SInsert v => '(a', r) <- ds_insert a v ;; Ok (a', flag r)
  | SInsertRange vs => ds_inserts a vs
  | SRemove v => '(a', r) <- ds_remove a v ;; Ok (a', flag r)
  | SRemoveRange vs => ds_removes a vs
  | SClear => a' <- ds_clear a ;; Ok (a', 0)
  | SReserve n => a' <- ds_reserve a n ;; Ok (a', 0)
  end.
Fixpoint ds_run (h : list (scall V)) (a : sarray) : outcome (sarray * list nat) :=
  match h with
  | [] => Ok (a, [])
  | c :: h' => '(a', r) <- ds_step c a ;; '(a2, rs) <- ds_run h' a' ;; Ok (a2, r :: rs)
  end.
End DSorted.
