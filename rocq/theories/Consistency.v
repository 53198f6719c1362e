(** Model of ArrayOfSetsView::consistencyCheck and of the end of ArrayOfSets::assimilate, where it is called. *)
From Coq Require Import List Arith ZArith Bool.
From Verif Require Import Base Mem BufferManip AoA Sorted AoS.
Import ListNotations.
Set Implicit Arguments.

Section Check.
Variable V W : Type.
Variable chk : bool.
Variable lt : V -> V -> bool.
Notation aoa := (aoa V W).

(** sortedArrayManipulation.hpp:372-395 isSortedUnique on the [n] values at [p] of a buffer, reading one value
    after the other; [x] is *first. *)
Fixpoint sorted_unique_from (b : buf V) (x : V) (p n : nat) : outcome bool :=
  match n with
  | 0 => Ok true
  | S n' =>
      y <- rd b p ;;
      if (lt y x || negb (lt x y))%bool then Ok false else sorted_unique_from b y (p + 1) n'
  end.
Definition sorted_unique (b : buf V) (p n : nat) : outcome bool :=
  match n with 0 => Ok true | S n' => x <- rd b p ;; sorted_unique_from b x (p + 1) n' end.

(** ArrayOfSetsView.hpp:207-219 consistencyCheck. LVARRAY_ERROR_IF and LVARRAY_ERROR_IF_GT do not depend on
    LVARRAY_BOUNDS_CHECK; sizeOfSet, capacityOfSet and getSetValues do. *)
Definition check_set (a : aoa) (i : nat) : outcome unit :=
  s <- sizeOfArray chk a i ;;
  c <- capacityOfArray chk a i ;;
  _ <- error_if (c <? s) ;;
  setValues <- getSetValues chk a i ;;
  numValues <- sizeOfArray chk a i ;;
  ok <- sorted_unique (vals a) setValues numValues ;;
  error_if (negb ok).
Definition consistencyCheck (a : aoa) : outcome unit :=
  for_up (numArrays a) (fun i _ => check_set a i) 0 tt.

(** ArrayOfSets.hpp:128-173 assimilate with its last lines 170-172: [defined] tells whether the macro
    ARRAY_BOUNDS_CHECK is defined. Nothing in src, in the CMake files or in LvArrayConfig.hpp.in defines it: the
    macro of the library is LVARRAY_BOUNDS_CHECK. *)
Variable tv tw dual : bool.
Variable kind : bkind.
Variable dflt : V.
Variable sort : buf V -> nat -> nat -> outcome (buf V).
Definition full_assimilate (defined : bool) (this src : aoa) (d : description) : outcome aoa :=
  a <- aos_assimilate chk tv tw dual kind lt dflt sort this src d ;;
  _ <- (if defined then consistencyCheck a else Ok tt) ;;
  Ok a.
End Check.
