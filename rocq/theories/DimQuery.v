(** size( dim ) and stride( dim ) of ArrayView and ArraySlice, with the checks of the different builds. *)
From Coq Require Import List Arith ZArith Bool.
From Verif Require Import Base Debug.
Import ListNotations.
Set Implicit Arguments.

Section Query.
(** [dbg]: a debug build (the LVARRAY_ASSERTs); [chk]: LVARRAY_BOUNDS_CHECK *)
Variables dbg chk : bool.
(** ptr[ dim ] for a pointer [off] entries into [block], one of the arrays m_dims and m_strides of an ArrayView
    (ArrayView.hpp:748-755), which have NDIM entries *)
Definition entry (block : list nat) (off : nat) (dim : Z) : outcome nat :=
  k <- to_ix (Z.of_nat off + dim) ;; aget block k.

(** ArrayView.hpp:415-423 size( dim ) *)
Definition view_size (dims : list nat) (dim : Z) : outcome nat :=
  _ <- (if chk then
          _ <- assert_ dbg (0 <=? dim)%Z ;;
          assert_ dbg (dim <? Z.of_nat (length dims))%Z
        else Ok tt) ;;
  entry dims 0 dim.

(** ArraySlice.hpp:190-196 size( dim ) and 203-209 stride( dim ) of the slice reached by [depth] times operator[]: its
    m_dims and m_strides point [depth] entries into those of the array (276-282), and its NDIM is smaller by [depth]. *)
Definition slice_entry (block : list nat) (depth : nat) (dim : Z) : outcome nat :=
  _ <- check_if chk (Z.of_nat (length block - depth) <=? dim)%Z ;;
  entry block depth dim.
End Query.
