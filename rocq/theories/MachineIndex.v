(** Model of the same index arithmetic as Indexing.v, computed in a machine integer type: INDEX_TYPE (or
    std::ptrdiff_t) is a two's complement type with largest value [hi], and an operation whose result does
    not fit is undefined behaviour, [Fault FOverflow]. Types narrower than int would be promoted first and
    unsigned ones would wrap; both are left out. The index arguments have type INDEX_TYPE. *)
From Coq Require Import List Arith ZArith Bool.
From Verif Require Import Base.
Import ListNotations.
Set Implicit Arguments.
Open Scope Z_scope.

Section Machine.
Variable hi : Z.

Definition fits (x : Z) : bool := (- hi - 1 <=? x) && (x <=? hi).
Definition mret (x : Z) : outcome Z := if fits x then Ok x else Fault FOverflow.
(** The operators of the type. *)
Definition mmul (a b : Z) : outcome Z := mret (a * b).
Definition madd (a b : Z) : outcome Z := mret (a + b).
Definition msub (a b : Z) : outcome Z := mret (a - b).
(** Division truncates; by zero it is undefined too. *)
Definition mdiv (a b : Z) : outcome Z := if b =? 0 then Fault FOverflow else mret (Z.quot a b).

(** indexing.hpp:76-92 multiplyAll: values[ 0 ] * multiplyAll( values + 1 ); ArrayView.hpp:396-407 size. *)
Fixpoint m_multiplyAll (vs : list Z) : outcome Z :=
  match vs with
  | [] => Ok 1
  | [v] => Ok v
  | v :: vs' => p <- m_multiplyAll vs' ;; mmul v p
  end.

(** indexing.hpp:227-234: foldedStrides[ i ] starts at 1 and is multiplied by dims[ perm[ j ] ] for
    j = i + 1 .. NDIM - 1; [ds] are these factors. *)
Fixpoint m_product_from (acc : Z) (ds : list Z) : outcome Z :=
  match ds with
  | [] => Ok acc
  | d :: ds' => a <- mmul acc d ;; m_product_from a ds'
  end.
(** The outer loop: one folded stride for each position of the permutation. *)
Fixpoint m_foldedStrides (ds : list Z) : outcome (list Z) :=
  match ds with
  | [] => Ok []
  | _ :: ds' => s <- m_product_from 1 ds' ;; r <- m_foldedStrides ds' ;; Ok (s :: r)
  end.
(** indexing.hpp:220-243 calculateStrides; strides[ perm[ i ] ] = foldedStrides[ i ] needs no arithmetic. *)
Definition m_calculateStrides (perm : list nat) (dims : list Z) : outcome (list Z) :=
  f <- m_foldedStrides (map (fun p => nth p dims 0) perm) ;;
  Ok (fold_left (fun acc pv => upd acc (fst pv) (snd pv)) (combine perm f) (repeat 0 (length dims))).

(** indexing.hpp:36-68 ConditionalMultiply and 104-127 getLinearIndex< USD > *)
Definition m_condMultiply (isOne : bool) (a b : Z) : outcome Z := if isOne then Ok a else mmul a b.
Fixpoint m_getLinearIndex (usd : Z) (strides idx : list Z) : outcome Z :=
  match strides, idx with
  | s :: _, [i] => m_condMultiply (usd =? 0) i s
  | s :: ss, i :: ii =>
      a <- m_condMultiply (usd =? 0) i s ;; r <- m_getLinearIndex (usd - 1) ss ii ;; madd a r
  | _, _ => Ok 0
  end.

(** The numbers Array.hpp:608-651 resizeDefaultDimension computes when the extent grows: per iteration
    [i] the offset of the values to shift, their number, the distance, and the offset of the new values. *)
Fixpoint m_grow_iters (n : nat) (toAdd toShift : Z) : outcome (list (Z * Z * Z)) :=
  match n with
  | O => Ok []
  | S i =>
      left <- mmul toAdd (Z.of_nat i) ;;
      start <- mmul toShift (Z.of_nat i) ;;
      r <- m_grow_iters i toAdd toShift ;;
      Ok ((start, toShift, left) :: r)
  end.
Definition m_grow (curLen stride curSize newLen newSize : Z) : outcome (Z * list (Z * Z * Z)) :=
  d <- msub newLen curLen ;;
  toAdd <- mmul stride d ;;
  toShift <- mmul stride curLen ;;
  sd <- msub newSize curSize ;;
  iters <- mdiv sd toAdd ;;
  l <- m_grow_iters (Z.to_nat iters) toAdd toShift ;;
  Ok (toAdd, l).

(** Array.hpp:652-680: the same when the extent shrinks, iterations 1 .. numIterations - 1: the offset, the
    number of values of the shifted range, the amount; and the number of values to destroy. *)
Fixpoint m_shrink_iters (n : nat) (i toRemove toShift : Z) : outcome (list (Z * Z * Z)) :=
  match n with
  | O => Ok []
  | S n' =>
      amount <- mmul toRemove i ;;
      start <- mmul toShift i ;;
      count <- madd toShift amount ;;
      i' <- madd i 1 ;;
      r <- m_shrink_iters n' i' toRemove toShift ;;
      Ok ((start, count, amount) :: r)
  end.
Definition m_shrink (curLen stride curSize newLen newSize : Z) : outcome (Z * list (Z * Z * Z)) :=
  d <- msub curLen newLen ;;
  toRemove <- mmul stride d ;;
  toShift <- mmul stride newLen ;;
  sd <- msub curSize newSize ;;
  iters <- mdiv sd toRemove ;;
  l <- m_shrink_iters (Z.to_nat (iters - 1)) 1 toRemove toShift ;;
  total <- mmul toRemove iters ;;
  Ok (total, l).

(** bufferManipulation.hpp:250-260 dynamicReserve: the capacity asked for. *)
Definition m_dynamicReserve (capacity newCapacity : Z) : outcome Z :=
  if capacity <? newCapacity then mmul 2 newCapacity else Ok capacity.

(** sortedArrayManipulation.hpp:409-436 find; [less k] stands for comp( ptr[ k ], value ). *)
Fixpoint m_find (fuel : nat) (less : Z -> bool) (lower upper : Z) : outcome Z :=
  if lower =? upper then Ok lower else
  match fuel with
  | O => Fault FFuel
  | S fuel' =>
      s <- madd lower upper ;;
      guess <- mdiv s 2 ;;
      if less guess then l <- madd guess 1 ;; m_find fuel' less l upper
      else m_find fuel' less lower guess
  end.
End Machine.

(** MallocBuffer.hpp:128-143 reallocate: the number of bytes asked for, newCapacity * sizeof( T ), is
    computed in std::size_t, where it wraps; [word] is 2 ^ 64. std::malloc may return a null pointer:
    [None]. The code neither looks at the pointer nor at the wrapped product: m_capacity is newCapacity.
    The result is (bytes of the block, m_capacity). *)
Definition m_reallocate (word sizeofT newCapacity : Z) (malloc : Z -> option Z) : option Z * Z :=
  (malloc (((newCapacity mod word) * sizeofT) mod word), newCapacity).
