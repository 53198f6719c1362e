(** Model of src/memcpy.hpp (host memory). One block of memory holds both arrays, so that copies between parts of one array
    are covered; the data pointer of a view is its slot in the block. *)
From Coq Require Import List Arith ZArith Bool.
From Verif Require Import Base Indexing.
Import ListNotations.
Set Implicit Arguments.

Section Memcpy.
Variable V : Type.
Implicit Types memory : list V.

(** std::memcpy, called by umpireInterface.cpp:26-38 with the number of bytes of [n] values: undefined outside the block
    and for overlapping ranges. *)
Definition std_memcpy (memory : list V) (dst src : Z) (n : nat) : outcome (list V) :=
  match n with
  | O => Ok memory
  | S _ =>
      d <- to_ix dst ;; s <- to_ix src ;;
      if ((d + n <=? length memory) && (s + n <=? length memory) && ((d + n <=? s) || (s + n <=? d)))%bool
      then Ok (firstn d memory ++ firstn n (skipn s memory) ++ skipn (d + n) memory)
      else Fault FOob
  end.

(** memcpy.hpp:74-92 (108-126 with a resource is the same on the host). NDIM and USD agree by the template parameters. *)
Definition memcpy_slices (dst src : slice) (memory : list V) : outcome (list V) :=
  _ <- error_if (negb (slice_size dst =? slice_size src)) ;;
  _ <- for_up (length (s_dims dst))
         (fun i _ => d <- aget (s_strides dst) i ;; s <- aget (s_strides src) i ;; error_if (negb (d =? s))) 0 tt ;;
  dstPointer <- dataIfContiguous dst ;;
  srcPointer <- dataIfContiguous src ;;
  std_memcpy memory dstPointer srcPointer (slice_size dst).

(** memcpy.hpp:41 and 57 internal::slice; 152-178 memcpy of views with indices: the views are moved to the space they are in,
    which does nothing on the host. *)
Definition memcpy_views (chk : bool) (dst : slice) (dstIndices : list Z) (src : slice) (srcIndices : list Z) (memory : list V) : outcome (list V) :=
  dstSlice <- slice_chain chk dst dstIndices ;;
  srcSlice <- slice_chain chk src srcIndices ;;
  memcpy_slices dstSlice srcSlice memory.
End Memcpy.

(** A view whose data pointer is slot [b] of the block. *)
Definition placed (b : nat) (s : slice) : slice := mkSlice (Z.of_nat b + s_off s) (s_dims s) (s_strides s) (s_usd s).
