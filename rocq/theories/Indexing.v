(** Model of src/indexing.hpp, the indexing part of src/ArraySlice.hpp / src/ArrayView.hpp and of
    src/sliceHelpers.hpp. Extents and strides are natural numbers (the Array constructors and resize
    methods abort on negative extents); indices are signed. *)
From Coq Require Import List Arith ZArith Lia Bool.
From Verif Require Import Base.
Import ListNotations.
Set Implicit Arguments.

(** indexing.hpp:76-92 multiplyAll. NDIM >= 1 in the library; the empty case is not used. *)
Fixpoint multiplyAll (vs : list nat) : nat :=
  match vs with
  | [] => 1
  | [v] => v
  | v :: vs' => v * multiplyAll vs'
  end.

(** indexing.hpp:227-234: foldedStrides[ i ], the inner loop over j. [perm] is the PERMUTATION, a
    compile time sequence already validated by isValidPermutation (ArrayView.hpp:77). *)
Definition foldedStride (perm dims : list nat) (i : nat) : nat :=
  fold_left (fun acc j => acc * nth (nth j perm 0) dims 0)
            (seq (i + 1) (length dims - (i + 1))) 1.

(** indexing.hpp:236-240: strides[ perm[ i ] ] = vals[ i ]. The array starts uninitialised in C++,
    here with zeros; for a valid permutation every slot is written. *)
Definition scatter (n : nat) (perm vals : list nat) : list nat :=
  fold_left (fun acc pv => upd acc (fst pv) (snd pv)) (combine perm vals) (repeat 0 n).

(** indexing.hpp:220-243 calculateStrides *)
Definition calculateStrides (perm dims : list nat) : list nat :=
  scatter (length dims) perm (map (foldedStride perm dims) (seq 0 (length dims))).

(** typeManipulation.hpp:438-445 getStrideOneDimension: the last entry of the permutation. *)
Definition strideOneDim (perm : list nat) : nat := last perm 0.

(** indexing.hpp:36-68 ConditionalMultiply *)
Definition condMultiply (isOne : bool) (a : Z) (b : nat) : Z :=
  if isOne then a else (a * Z.of_nat b)%Z.

(** indexing.hpp:104-127 getLinearIndex< USD > *)
Fixpoint getLinearIndex (usd : Z) (strides : list nat) (idx : list Z) : Z :=
  match strides, idx with
  | s :: _, [i] => condMultiply (usd =? 0)%Z i s
  | s :: ss, i :: ii => (condMultiply (usd =? 0)%Z i s + getLinearIndex (usd - 1) ss ii)%Z
  | _, _ => 0%Z
  end.

(** indexing.hpp:184-197 invalidIndices (the fold over the argument pack) *)
Fixpoint invalidIndices (dims : list nat) (idx : list Z) : bool :=
  match dims, idx with
  | d :: ds, i :: ii => ((i <? 0)%Z || (Z.of_nat d <=? i)%Z || invalidIndices ds ii)%bool
  | _, _ => false
  end.

(** indexing.hpp:206-209 checkIndices *)
Definition checkIndices (dims : list nat) (idx : list Z) : outcome unit :=
  error_if (invalidIndices dims idx).

(** ArraySlice.hpp:88-127: data pointer (as an offset into the buffer), extents, strides and the
    USD template parameter (negative once the unit stride dimension has been sliced away). *)
Record slice : Type := mkSlice { s_off : Z; s_dims : list nat; s_strides : list nat; s_usd : Z }.

(** ArraySlice.hpp:170 size, ArrayView.hpp:396 size *)
Definition slice_size (s : slice) : nat := multiplyAll (s_dims s).

(** ArraySlice.hpp:242-249 linearIndex; ArrayView.hpp:453-460 is the same code. *)
Definition linearIndex (chk : bool) (s : slice) (idx : list Z) : outcome Z :=
  _ <- (if chk then checkIndices (s_dims s) idx else Ok tt) ;;
  Ok (getLinearIndex (s_usd s) (s_strides s) idx).

(** ArraySlice.hpp:305-309 operator(): the slot referred to. *)
Definition slice_call (chk : bool) (s : slice) (idx : list Z) : outcome Z :=
  k <- linearIndex chk s idx ;; Ok (s_off s + k)%Z.

(** ArraySlice.hpp:276-282 operator[] for NDIM > 1 and 292-296 for NDIM == 1: here both give the
    remaining slice; for NDIM == 1 the remaining slice has no dimensions and [s_off] is the slot. *)
Definition slice_index (chk : bool) (s : slice) (i : Z) : outcome slice :=
  match s_dims s, s_strides s with
  | d :: ds, st :: sts =>
      _ <- (if chk then error_if ((i <? 0)%Z || (Z.of_nat d <=? i)%Z)%bool else Ok tt) ;;
      Ok (mkSlice (s_off s + condMultiply (s_usd s =? 0)%Z i st) ds sts (s_usd s - 1))
  | _, _ => Fault FOob
  end.

(** Repeated operator[]. *)
Fixpoint slice_chain (chk : bool) (s : slice) (idx : list Z) : outcome slice :=
  match idx with
  | [] => Ok s
  | i :: ii => s' <- slice_index chk s i ;; slice_chain chk s' ii
  end.

(** ArraySlice.hpp:216-233 isContiguous *)
Definition prod_except (dims : list nat) (i : nat) : nat :=
  fold_left (fun acc j => if j =? i then acc else acc * nth j dims 0) (seq 0 (length dims)) 1.
Definition isContiguous (s : slice) : bool :=
  let ndim := length (s_dims s) in
  if (s_usd s <? 0)%Z then false
  else if ((ndim =? 1) && (s_usd s =? 0)%Z)%bool then true
  else fold_left (fun rval i => if (Z.of_nat i =? s_usd s)%Z then rval
                                else (rval && (nth i (s_strides s) 0 <=? prod_except (s_dims s) i))%bool)
                 (seq 0 ndim) true.

(** ArraySlice.hpp:318-324 dataIfContiguous: the USD >= 0 part is a static_assert in C++. *)
Definition dataIfContiguous (s : slice) : outcome Z :=
  _ <- error_if (negb (isContiguous s)) ;; Ok (s_off s).

(** The slice of a whole array with given permutation and extents: ArrayView.hpp:318 toSlice. *)
Definition whole (perm dims : list nat) : slice :=
  mkSlice 0 dims (calculateStrides perm dims) (Z.of_nat (strideOneDim perm)).

(** sliceHelpers.hpp:28-54 forValuesInSlice and 65-96 forValuesInSliceWithIndices: [f] receives the
    slot and the indices; the recursion is on the number of dimensions, as in the C++ overloads. *)
Fixpoint forValuesInSlice {S} (ndim : nat) (chk : bool) (s : slice) (pre : list Z)
         (f : Z -> list Z -> S -> outcome S) (st : S) : outcome S :=
  match ndim with
  | O => f (s_off s) pre st
  | Datatypes.S n' =>
      match s_dims s with
      | [] => Fault FOob
      | d :: _ => for_up d (fun i st => s' <- slice_index chk s (Z.of_nat i) ;;
                                        forValuesInSlice n' chk s' (pre ++ [Z.of_nat i]) f st) 0 st
      end
  end.

Section Sum.
Variable V : Type.
Variable add : V -> V -> V.

(** Reading and writing T at a slot of a fully constructed block of storage. *)
Definition slot_get (data : list V) (k : Z) : outcome V := i <- to_ix k ;; aget data i.
Definition slot_set (data : list V) (k : Z) (v : V) : outcome (list V) := i <- to_ix k ;; aset data i v.

(** sliceHelpers.hpp:107-116 sumOverFirstDimension, one dimensional source, scalar destination *)
Definition sumOverFirstDimension1 (chk : bool) (src : slice) (sdata : list V) (dst : V) : outcome V :=
  match s_dims src with
  | [d] => for_up d (fun i acc => k <- slice_call chk src [Z.of_nat i] ;;
                                  v <- slot_get sdata k ;; Ok (add acc v)) 0 dst
  | _ => Fault FOob
  end.

(** sliceHelpers.hpp:128-146 sumOverFirstDimension. ARRAY_SLICE_CHECK_BOUNDS is a function-like macro
    defined in both branches of ArraySlice.hpp:34-58, so the #ifdef is always taken. *)
Definition sumOverFirstDimension (chk : bool) (src : slice) (sdata : list V)
           (dst : slice) (ddata : list V) : outcome (list V) :=
  _ <- error_if (negb (if list_eq_dec Nat.eq_dec (tl (s_dims src)) (s_dims dst) then true else false)) ;;
  forValuesInSlice (length (s_dims src)) chk src []
    (fun k idx dd => v <- slot_get sdata k ;;
                     k' <- slice_call chk dst (tl idx) ;;
                     old <- slot_get dd k' ;;
                     slot_set dd k' (add old v)) ddata.
End Sum.
