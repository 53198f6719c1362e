(** introsortLoop, dualSort and the device branch of makeSorted with the LVARRAY_ASSERT of a debug build. The
    assertion of DualIterator::operator- (sortedArrayManipulationHelpers.hpp:322, both iterators at the same
    distance) always holds here: an iterator is one distance from the two starts (Introsort.v). *)
From Coq Require Import List Arith Bool.
From Verif Require Import Base Mem Debug Introsort.
Import ListNotations.
Set Implicit Arguments.

Section Sort.
Variable dbg : bool.
Variable V St T : Type.
Variable lt : V -> V -> bool.
Variable I : iter V St T.

(** sortedArrayManipulationHelpers.hpp:648-664, the loop of introsortLoop; 655 is the assertion. [maxRanges]:
    MAX_RANGES *)
Fixpoint d_intro_loop (maxRanges fuel : nat) (ranges : list nat) (nRanges : nat) (s : St) : outcome St :=
  if nRanges =? 0 then Ok s else
  match fuel with
  | O => Fault FFuel
  | S fuel' =>
      m_first <- aget ranges (nRanges - 1) ;;
      top <- aget ranges nRanges ;;
      if INTROSORT_THRESHOLD <? top - m_first then
        _ <- assert_ dbg (nRanges <? maxRanges) ;;
        r1 <- aset ranges (nRanges + 1) top ;;
        '(cut, s') <- unguardedPartitionPivot lt I m_first top s ;;
        r2 <- aset r1 nRanges cut ;;
        d_intro_loop maxRanges fuel' r2 (nRanges + 1) s'
      else d_intro_loop maxRanges fuel' ranges (nRanges - 1) s
  end.
(** 641-647 introsortLoop: the array ranges has MAX_RANGES + 1 entries *)
Definition d_introsortLoop (maxRanges n : nat) (s : St) : outcome St :=
  r0 <- aset (repeat 0 (maxRanges + 1)) 0 0 ;; r1 <- aset r0 1 n ;; d_intro_loop maxRanges (2 * n) r1 1 s.
(** sortedArrayManipulation.hpp:214-221 and 249-254 *)
Definition d_sort_with (maxRanges n : nat) (s : St) : outcome St :=
  s' <- (if INTROSORT_THRESHOLD <? n then d_introsortLoop maxRanges n s else Ok s) ;;
  insertionSort lt I n s'.
End Sort.

Section Instances.
Variable dbg : bool.
Variable V W : Type.
Variable tv tw : bool.
(** sortedArrayManipulation.hpp:241-255 dualSort *)
Definition d_dualSort (maxRanges : nat) (lt : V -> V -> bool) (a : buf V) (p : nat) (b : buf W) (q n : nat)
  : outcome (buf V * buf W) := d_sort_with dbg lt (@dual_iter V W tv tw p q) maxRanges n (a, b).
(** sortedArrayManipulation.hpp:210-225 makeSorted, the branch compiled for devices *)
Definition d_makeSorted (maxRanges : nat) (lt : V -> V -> bool) (b : buf V) (p n : nat) : outcome (buf V) :=
  d_sort_with dbg lt (@plain_iter V tv p) maxRanges n b.
End Instances.
