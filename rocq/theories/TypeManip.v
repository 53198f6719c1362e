(** Model of parts of src/typeManipulation.hpp and of the reinterpreting constructor of ArrayView. *)
From Coq Require Import List Arith ZArith Bool.
From Verif Require Import Base Indexing.
Import ListNotations.
Set Implicit Arguments.

(** typeManipulation.hpp:398-413 contains: a non-empty sequence *)
Fixpoint contains (x : Z) (s : list Z) : bool :=
  match s with
  | [] => false
  | [i] => (x =? i)%Z
  | i :: s' => ((x =? i)%Z || contains x s')%bool
  end.
(** 419-421 internal::isValidPermutation, 450-455 isValidPermutation: every index of 0 .. NDIM - 1 is contained *)
Definition isValidPermutation (perm : list Z) : bool :=
  forallb (fun i => contains (Z.of_nat i) perm) (seq 0 (length perm)).

(** 466-474 and 485-497 convertSize< T, U >, by sizeof( T ) and sizeof( U ); overflow of INDEX_TYPE is not modelled.
    The static_asserts are premises of the theorems. *)
Definition convertSize (szT szU numU : nat) : outcome nat :=
  if szT <=? szU then Ok (numU * szU / szT)
  else
    let numUPerT := szT / szU in
    _ <- error_if (negb (numU mod numUPerT =? 0)) ;;
    Ok (numU / numUPerT).

(** ArrayView.hpp:151-167 with MallocBuffer.hpp:89-92: the extents, strides and capacity of the new view; [usd] is USD,
    a dimension of the array (static_assert at ArrayView.hpp:79-80). The data pointer stays. *)
Record vshape : Type := mkShape { v_dims : list nat; v_strides : list nat; v_cap : nat }.
Fixpoint convert_others (szT szU usd i : nat) (strides : list nat) : outcome (list nat) :=
  match strides with
  | [] => Ok []
  | s :: ss =>
      s' <- (if i =? usd then Ok s else convertSize szT szU s) ;;
      ss' <- convert_others szT szU usd (i + 1) ss ;;
      Ok (s' :: ss')
  end.
Definition reinterpret (szT szU usd : nat) (v : vshape) : outcome vshape :=
  cap <- convertSize szT szU (v_cap v) ;;
  d <- aget (v_dims v) usd ;;
  d' <- convertSize szT szU d ;;
  ss <- convert_others szT szU usd 0 (v_strides v) ;;
  Ok (mkShape (upd (v_dims v) usd d') ss cap).
(** The byte at which the element with these indices starts, relative to the data pointer (ArrayView.hpp:518-522). *)
Definition byte_of (sz usd : nat) (v : vshape) (idx : list Z) : Z :=
  (getLinearIndex (Z.of_nat usd) (v_strides v) idx * Z.of_nat sz)%Z.
