(** Model of src/sortedArrayManipulation.hpp. As in ArrayManip a pointer is a buffer plus an offset.

    The insert and remove functions take a CALLBACKS object. The callback that may reallocate
    (incrementSize) acts on the whole state: the buffer of values together with whatever else the
    caller owns ([X]). The notifications act on [X] only. *)
From Coq Require Import List Arith ZArith Lia Bool.
From Verif Require Import Base Mem.
From Verif Require ArrayManip.
Import ListNotations.
Set Implicit Arguments.

(** The notifications of sortedArrayManipulation.hpp:96-157. *)
Inductive event : Type :=
| ESet (pos valuePos : nat)
| EInsert (pos : nat)
| EInsertN (nLeft valuePos pos prevPos : nat)
| ERemove (pos : nat)
| ERemoveN (nRemoved curPos nextPos : nat).

Record callbacks (V X : Type) : Type := mkCB {
  (** incrementSize( ptr, nToAdd ): the new state and the returned pointer *)
  cb_inc : nat -> buf V * X -> outcome (buf V * X * nat);
  cb_ev : event -> X -> outcome X
}.

(** sortedArrayManipulation.hpp:72-158 the default CallBacks: everything is a no-op and incrementSize
    returns its argument [p]. *)
Definition no_callbacks (V : Type) (p : nat) : callbacks V unit :=
  mkCB (fun _ s => Ok (s, p)) (fun _ x => Ok x).

Section Sorted.
Variable V : Type.
(** [chk]: LVARRAY_BOUNDS_CHECK, [triv]: T trivial, [lt]: comp, or operator<, [eqb]: operator== *)
Variable chk triv : bool.
Variable lt eqb : V -> V -> bool.
Notation buf := (buf V).

(** sortedArrayManipulation.hpp:267-294 isSorted; the range is given by the list of its values. *)
Fixpoint isSorted_from (first : V) (rest : list V) : bool :=
  match rest with
  | [] => true
  | next :: rest' => if lt next first then false else isSorted_from next rest'
  end.
Definition isSorted (l : list V) : bool := match l with [] => true | x :: r => isSorted_from x r end.

(** sortedArrayManipulation.hpp:372-395 isSortedUnique *)
Fixpoint isSortedUnique_from (first : V) (rest : list V) : bool :=
  match rest with
  | [] => true
  | next :: rest' => if (lt next first || negb (lt first next))%bool then false else isSortedUnique_from next rest'
  end.
Definition isSortedUnique (l : list V) : bool := match l with [] => true | x :: r => isSortedUnique_from x r end.

(** sortedArrayManipulation.hpp:305-345 removeDuplicates on the [n] values at [p]; state of the loop:
    buffer, offset of first, numUnique. *)
Definition removeDuplicates (b : buf) (p n : nat) : outcome (buf * nat) :=
  if n =? 0 then Ok (b, 0) else
  '(b', _, u) <- for_up n (fun next st =>
      let '(b, first, numUnique) := st in
      x <- rd b (p + first) ;;
      y <- rd b (p + next) ;;
      if lt x y then
        (if first + 1 =? next then Ok (b, first + 1, numUnique + 1)
         else b' <- massign triv b (p + (first + 1)) (p + next) ;; Ok (b', first + 1, numUnique + 1))
      else Ok (b, first, numUnique)) 0 (b, 0, 1) ;;
  Ok (b', u).

(** sortedArrayManipulation.hpp:355-362 makeSortedUnique; [sort] is makeSorted (210-225): std::sort on the
    host, which is not part of this project, and the introsort of Introsort.v on a device. *)
Definition makeSortedUnique (sort : buf -> nat -> nat -> outcome buf) (b : buf) (p n : nat) : outcome (buf * nat) :=
  b' <- sort b p n ;; removeDuplicates b' p n.

(** sortedArrayManipulation.hpp:409-436 find. The while loop runs at most [size] times. *)
Fixpoint find_loop (fuel : nat) (b : buf) (p : nat) (value : V) (lower upper : nat) : outcome nat :=
  if lower =? upper then Ok lower else
  match fuel with
  | O => Fault FFuel
  | S fuel' =>
      let guess := (lower + upper) / 2 in
      x <- rd b (p + guess) ;;
      if lt x value then find_loop fuel' b p value (guess + 1) upper
      else find_loop fuel' b p value lower guess
  end.
Definition find (b : buf) (p size : nat) (value : V) : outcome nat := find_loop size b p value 0 size.

(** sortedArrayManipulation.hpp:449-457 contains *)
Definition contains (b : buf) (p size : nat) (value : V) : outcome bool :=
  pos <- find b p size value ;;
  if pos =? size then Ok false else x <- rd b (p + pos) ;; Ok (eqb x value).

Section CB.
Variable X : Type.
Variable cb : callbacks V X.

(** sortedArrayManipulation.hpp:471-494 remove (one value) *)
Definition remove (b : buf) (x : X) (p size : nat) (value : V) : outcome (buf * X * bool) :=
  index <- find b p size value ;;
  if index =? size then Ok (b, x, false) else
  y <- rd b (p + index) ;;
  if negb (eqb y value) then Ok (b, x, false) else
  b' <- ArrayManip.erase chk triv b p size index 1 ;;
  x' <- cb_ev cb (ERemove index) x ;;
  Ok (b', x', true).

(** The search loops of sortedArrayManipulation.hpp:528-543 and 556-573: starting at position [pos],
    find the first of the values which is in the array. Returns its position and the values from it
    on; no values when there is none. *)
Fixpoint seek (b : buf) (p size pos : nat) (vs : list V) : outcome (nat * list V) :=
  match vs with
  | [] => Ok (pos, [])
  | v :: vs' =>
      k <- find b (p + pos) (size - pos) v ;;
      let pos' := pos + k in
      if pos' =? size then Ok (size, []) else
      y <- rd b (p + pos') ;;
      if eqb y v then Ok (pos', vs) else seek b p size pos' vs'
  end.

(** The loop of sortedArrayManipulation.hpp:551-594; its iterations consume the values ([fuel] is their
    number). *)
Fixpoint remove_loop (fuel : nat) (b : buf) (x : X) (p size nRemoved pos : nat) (vs : list V)
  : outcome (buf * X * nat) :=
  match vs with
  | [] => Ok (b, x, nRemoved)
  | _ :: rest =>
      match fuel with
      | O => Fault FFuel
      | S fuel' =>
          '(np, next) <- seek b p size pos rest ;;
          let np := match next with [] => size | _ => np end in
          let nRemoved := nRemoved + 1 in
          b' <- ArrayManip.shiftDown chk triv b p np (pos + 1) nRemoved ;;
          x' <- cb_ev cb (ERemoveN nRemoved pos np) x ;;
          if np =? size then Ok (b', x', nRemoved)
          else remove_loop fuel' b' x' p size nRemoved np next
      end
  end.

(** sortedArrayManipulation.hpp:511-604 remove (sorted range of values) *)
Definition removes (b : buf) (x : X) (p size : nat) (vs : list V) : outcome (buf * X * nat) :=
  '(pos, found) <- seek b p size 0 vs ;;
  match found with
  | [] => Ok (b, x, 0)
  | _ =>
      '(b', x', nRemoved) <- remove_loop (length vs) b x p size 0 pos found ;;
      b2 <- for_up nRemoved (fun i b => destroy1 triv b (p + i)) (size - nRemoved) b' ;;
      Ok (b2, x', nRemoved)
  end.

(** sortedArrayManipulation.hpp:618-656 insert (one value) *)
Definition insert_pos (b : buf) (p size : nat) (value : V) : outcome nat :=
  if size =? 0 then Ok 0 else
  x0 <- rd b (p + 0) ;;
  if lt value x0 then Ok 0 else
  xl <- rd b (p + (size - 1)) ;;
  if lt xl value then Ok size else find b p size value.
Definition insert (b : buf) (x : X) (p size : nat) (value : V) : outcome (buf * X * bool) :=
  insertPos <- insert_pos b p size value ;;
  present <- (if insertPos =? size then Ok false else y <- rd b (p + insertPos) ;; Ok (eqb y value)) ;;
  if present : bool then
    '(b', x', _) <- cb_inc cb 0 (b, x) ;; Ok (b', x', false)
  else
    '(b1, x1, newPtr) <- cb_inc cb 1 (b, x) ;;
    b2 <- ArrayManip.emplace chk triv b1 newPtr size insertPos value ;;
    x2 <- cb_ev cb (EInsert insertPos) x1 ;;
    Ok (b2, x2, true).

(** The loop of sortedArrayManipulation.hpp:697-702 *)
Fixpoint set_loop (b : buf) (x : X) (p n : nat) (vs : list V) : outcome (buf * X * nat) :=
  match vs with
  | [] => Ok (b, x, n)
  | v :: vs' =>
      b' <- construct triv b (p + n) v ;;
      x' <- cb_ev cb (ESet n n) x ;;
      set_loop b' x' p (n + 1) vs'
  end.

(** The loop of sortedArrayManipulation.hpp:712-721, which runs through the values from the last to the
    first; [rvs] is the reversed range. Returns nToInsert. *)
Fixpoint count_loop (b : buf) (p size ub n : nat) (rvs : list V) : outcome nat :=
  match rvs with
  | [] => Ok n
  | v :: rvs' =>
      ub' <- find b p ub v ;;
      absent <- (if ub' =? size then Ok true else y <- rd b (p + ub') ;; Ok (negb (eqb y v))) ;;
      count_loop b p size ub' (if absent : bool then n + 1 else n) rvs'
  end.

(** The loop of sortedArrayManipulation.hpp:737-755; currentIndex is the number of values left of the
    current one, i.e. the length of [rvs']. *)
Fixpoint insert_loop (b : buf) (x : X) (p ub nLeft : nat) (rvs : list V) : outcome (buf * X) :=
  match rvs with
  | [] => Ok (b, x)
  | v :: rvs' =>
      pos <- find b p ub v ;;
      present <- (if pos =? ub then Ok false else y <- rd b (p + pos) ;; Ok (eqb y v)) ;;
      if present : bool then insert_loop b x p ub nLeft rvs' else
      b1 <- ArrayManip.shiftUp chk triv b p ub pos nLeft ;;
      d <- sub_ix (p + pos + nLeft) 1 ;;
      b2 <- construct triv b1 d v ;;
      x' <- cb_ev cb (EInsertN nLeft (length rvs') pos ub) x ;;
      insert_loop b2 x' p pos (nLeft - 1) rvs'
  end.

(** sortedArrayManipulation.hpp:674-758 insert (sorted range of values) *)
Definition inserts (b : buf) (x : X) (p size : nat) (vs : list V) : outcome (buf * X * nat) :=
  if size =? 0 then
    '(b1, x1, newPtr) <- cb_inc cb (length vs) (b, x) ;;
    set_loop b1 x1 newPtr 0 vs
  else
    nToInsert <- count_loop b p size size 0 (rev vs) ;;
    '(b1, x1, newPtr) <- cb_inc cb nToInsert (b, x) ;;
    if nToInsert =? 0 then Ok (b1, x1, 0) else
    '(b2, x2) <- insert_loop b1 x1 newPtr size nToInsert (rev vs) ;;
    Ok (b2, x2, nToInsert).
End CB.
End Sorted.
