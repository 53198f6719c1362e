(** Model of the sorting routines of src/sortedArrayManipulationHelpers.hpp and of dualSort and the device
    branch of makeSorted in src/sortedArrayManipulation.hpp.

    The routines are templates over the iterator type. They are modelled over [iter], the operations used
    on iterators, which is instantiated with a pointer ([plain_iter]) and with DualIterator
    ([dual_iter]). An iterator value is its distance from [first]. LVARRAY_ASSERT: see DebugSort.v. *)
From Coq Require Import List Arith ZArith Lia Bool.
From Verif Require Import Base Mem.
Import ListNotations.
Set Implicit Arguments.

(** The operations on iterators. [St] is the memory behind them, [T] the type of temporaries. *)
Record iter (V St T : Type) : Type := mkIter {
  (** the value of *it that is seen by the comparison *)
  it_key : nat -> St -> outcome V;
  (** *dst = std::move( *src ) *)
  it_move : nat -> nat -> St -> outcome St;
  (** auto val = createTemporary( *it ) *)
  it_take : nat -> St -> outcome (T * St);
  (** *it = std::move( val ) *)
  it_put : nat -> T -> St -> outcome St;
  (** the value of a temporary that is seen by the comparison *)
  it_tkey : T -> outcome V
}.

Section Sort.
Variable V St T : Type.
Variable lt : V -> V -> bool.
Variable I : iter V St T.

(** comp( *a, *b ) *)
Definition comp (a b : nat) (s : St) : outcome bool :=
  x <- it_key I a s ;; y <- it_key I b s ;; Ok (lt x y).
(** comp( val, *b ) *)
Definition tcomp (val : T) (b : nat) (s : St) : outcome bool :=
  x <- it_tkey I val ;; y <- it_key I b s ;; Ok (lt x y).

(** sortedArrayManipulationHelpers.hpp:435-440 exchange *)
Definition exchange (a b : nat) (s : St) : outcome St :=
  '(temp, s1) <- it_take I a s ;; s2 <- it_move I a b s1 ;; it_put I b temp s2.

(** sortedArrayManipulationHelpers.hpp:455-461 moveBackward( first, last, d_last ), [n] is last - first *)
Fixpoint moveBackward (n last d_last : nat) (s : St) : outcome St :=
  match n with
  | O => Ok s
  | S n' =>
      d <- sub_ix d_last 1 ;; l <- sub_ix last 1 ;;
      s' <- it_move I d l s ;; moveBackward n' l d s'
  end.

(** sortedArrayManipulationHelpers.hpp:478-507 computeMedian *)
Definition computeMedian (result a b c : nat) (s : St) : outcome St :=
  ab <- comp a b s ;;
  if ab : bool then
    bc <- comp b c s ;;
    if bc : bool then exchange result b s else
    ac <- comp a c s ;;
    if ac : bool then exchange result c s else exchange result a s
  else
    ac <- comp a c s ;;
    if ac : bool then exchange result a s else
    bc <- comp b c s ;;
    if bc : bool then exchange result c s else exchange result b s.

(** sortedArrayManipulationHelpers.hpp:528-531 while( comp( *first, *pivot ) ) ++first *)
Fixpoint scan_up (fuel first pivot : nat) (s : St) : outcome nat :=
  c <- comp first pivot s ;;
  if c : bool then
    match fuel with O => Fault FFuel | S fuel' => scan_up fuel' (first + 1) pivot s end
  else Ok first.

(** sortedArrayManipulationHelpers.hpp:534-537 while( comp( *pivot, *last ) ) --last *)
Fixpoint scan_down (fuel last pivot : nat) (s : St) : outcome nat :=
  c <- comp pivot last s ;;
  if c : bool then
    match fuel with O => Fault FFuel | S fuel' => l <- sub_ix last 1 ;; scan_down fuel' l pivot s end
  else Ok last.

(** sortedArrayManipulationHelpers.hpp:523-547 unguardedPartition; [n] bounds each of the loops. *)
Fixpoint unguardedPartition (n fuel first last pivot : nat) (s : St) : outcome (nat * St) :=
  match fuel with
  | O => Fault FFuel
  | S fuel' =>
      first' <- scan_up n first pivot s ;;
      l1 <- sub_ix last 1 ;;
      last' <- scan_down n l1 pivot s ;;
      if first' <? last' then
        s' <- exchange first' last' s ;; unguardedPartition n fuel' (first' + 1) last' pivot s'
      else Ok (first', s)
  end.

(** sortedArrayManipulationHelpers.hpp:562-567 unguardedPartitionPivot *)
Definition unguardedPartitionPivot (first last : nat) (s : St) : outcome (nat * St) :=
  let mid := first + (last - first) / 2 in
  lm1 <- sub_ix last 1 ;;
  s' <- computeMedian first (first + 1) mid lm1 s ;;
  unguardedPartition last last (first + 1) last first s'.

(** sortedArrayManipulationHelpers.hpp:580-592 unguardedLinearInsert; [last] bounds the loop. *)
Fixpoint linear_loop (fuel last next : nat) (val : T) (s : St) : outcome St :=
  c <- tcomp val next s ;;
  if c : bool then
    match fuel with
    | O => Fault FFuel
    | S fuel' => s' <- it_move I last next s ;; n' <- sub_ix next 1 ;; linear_loop fuel' next n' val s'
    end
  else it_put I last val s.
Definition unguardedLinearInsert (last : nat) (s : St) : outcome St :=
  '(val, s1) <- it_take I last s ;; next <- sub_ix last 1 ;; linear_loop last last next val s1.

(** sortedArrayManipulationHelpers.hpp:606-621 insertionSort( first, n, comp ) *)
Definition insertionSort (n : nat) (s : St) : outcome St :=
  for_up (n - 1) (fun i s =>
    c <- comp i 0 s ;;
    if c : bool then
      '(val, s1) <- it_take I i s ;; s2 <- moveBackward i i (i + 1) s1 ;; it_put I 0 val s2
    else unguardedLinearInsert i s) 1 s.

(** sortedArrayManipulationHelpers.hpp:30 *)
Definition INTROSORT_THRESHOLD := 64.

(** sortedArrayManipulationHelpers.hpp:641-665 introsortLoop( first, first + n, comp ). [ranges] is the local
    array (its entries are uninitialised at first, which is never observed: 0 here). *)
Fixpoint intro_loop (fuel : nat) (ranges : list nat) (nRanges : nat) (s : St) : outcome St :=
  if nRanges =? 0 then Ok s else
  match fuel with
  | O => Fault FFuel
  | S fuel' =>
      m_first <- aget ranges (nRanges - 1) ;;
      top <- aget ranges nRanges ;;
      if INTROSORT_THRESHOLD <? top - m_first then
        r1 <- aset ranges (nRanges + 1) top ;;
        '(cut, s') <- unguardedPartitionPivot m_first top s ;;
        r2 <- aset r1 nRanges cut ;;
        intro_loop fuel' r2 (nRanges + 1) s'
      else intro_loop fuel' ranges (nRanges - 1) s
  end.
(** [slots]: the number of entries of the array ranges; MAX_RANGES + 1 in the code *)
Definition introsortLoop (slots n : nat) (s : St) : outcome St :=
  r0 <- aset (repeat 0 slots) 0 0 ;; r1 <- aset r0 1 n ;; intro_loop (2 * n) r1 1 s.
Definition MAX_RANGES := 31.

(** The common body of sortedArrayManipulation.hpp:214-221 (makeSorted on a device) and 249-254 (dualSort) *)
Definition sort_with (slots n : nat) (s : St) : outcome St :=
  s' <- (if INTROSORT_THRESHOLD <? n then introsortLoop slots n s else Ok s) ;;
  insertionSort n s'.
End Sort.

Section Instances.
Variable V W : Type.
Variable tv tw : bool. (* V, W trivial *)

Definition obj_value {A} (c : cell A) : outcome A := match c with Obj v => Ok v | _ => Fault FRead end.

(** A pointer to the values at offset [p] of a buffer. *)
Definition plain_iter (p : nat) : iter V (buf V) (cell V) :=
  mkIter (fun i b => rd b (p + i))
         (fun dst src b => massign tv b (p + dst) (p + src))
         (fun i b => take tv b (p + i))
         (fun i t b => store tv b (p + i) t)
         (@obj_value V).

(** sortedArrayManipulationHelpers.hpp:223-400 DualIterator with DualIteratorAccessor (40-167),
    DualIteratorAccessor::Temporary (46-88) and DualIteratorComparator (178-214): values at offset [p] of
    one buffer, data at offset [q] of the other. *)
Definition dual_iter (p q : nat) : iter V (buf V * buf W) (cell V * cell W) :=
  mkIter (fun i s => rd (fst s) (p + i))
         (fun dst src s => a <- massign tv (fst s) (p + dst) (p + src) ;;
                           b <- massign tw (snd s) (q + dst) (q + src) ;; Ok (a, b))
         (fun i s => '(x, a) <- take tv (fst s) (p + i) ;;
                     '(y, b) <- take tw (snd s) (q + i) ;; Ok ((x, y), (a, b)))
         (fun i t s => a <- store tv (fst s) (p + i) (fst t) ;;
                       b <- store tw (snd s) (q + i) (snd t) ;; Ok (a, b))
         (fun t => obj_value (fst t)).

(** sortedArrayManipulation.hpp:241-255 dualSort( valueFirst, valueFirst + n, dataFirst ) *)
Definition dualSort_with (slots : nat) (lt : V -> V -> bool) (a : buf V) (p : nat) (b : buf W) (q n : nat)
  : outcome (buf V * buf W) := sort_with lt (dual_iter p q) slots n (a, b).
Definition dualSort := dualSort_with (MAX_RANGES + 1).

(** sortedArrayManipulation.hpp:210-225 makeSorted, the branch compiled for devices *)
Definition makeSorted_with (slots : nat) (lt : V -> V -> bool) (b : buf V) (p n : nat) : outcome (buf V) :=
  sort_with lt (plain_iter p) slots n b.
Definition makeSorted := makeSorted_with (MAX_RANGES + 1).
End Instances.
