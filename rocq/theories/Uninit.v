(** Model of Array::resizeWithoutInitializationOrDestruction (src/Array.hpp:347-384), for a trivially destructible T only
    (static_assert in Array.hpp:367). The memory space is the host. *)
From Coq Require Import List Arith ZArith Bool.
From Verif Require Import Base Mem Indexing Array.
From Verif Require BufferManip.
Import ListNotations.
Set Implicit Arguments.
Unset Strict Implicit.
Section U.
Variable V : Type.
Variable chk : bool.
Variable kind : BufferManip.bkind.
Variable perm : list nat.
(** Array.hpp:364-384; the number of extents is checked at compile time. The old size is taken before the extents change;
    only reserve is called on the buffer. *)
Definition resizeWithoutInitializationOrDestruction (a : array V) (newDims : list Z) : outcome (array V) :=
  dims <- set_dims (a_dims a) (combine (seq 0 (length perm)) newDims) ;;
  b <- BufferManip.reserve chk true kind (a_buf a) (size a) (multiplyAll dims) ;;
  Ok (set_shape perm a dims b).
(** What a program does with such an array: change its extents and write elements. *)
Inductive ucall : Type := UResize (dims : list Z) | USet (idx : list Z) (v : V).
Definition ustep (c : ucall) (a : array V) : outcome (array V) :=
  match c with
  | UResize dims => resizeWithoutInitializationOrDestruction a dims
  | USet idx v => set_ chk true perm a idx v
  end.
Fixpoint urun (h : list ucall) (a : array V) : outcome (array V) :=
  match h with [] => Ok a | c :: h' => a' <- ustep c a ;; urun h' a' end.
End U.
Arguments UResize {V} dims.
