(** Copies and moves of Array and SortedArray objects (MallocBuffer). *)
From Coq Require Import List Arith ZArith Bool.
From Verif Require Import Base Mem BufferManip Indexing Array SortedArray Values.
Import ListNotations.
Set Implicit Arguments.

Section CM.
Variable V : Type.
Variable chk triv : bool.
Variable perm : list nat.
Variable dflt : V.

(** bufferManipulation.hpp:393-411 copyInto when dst and src are the same buffer object. *)
Definition copyIntoSelf (b : buf V) (size : nat) : outcome (buf V) :=
  _ <- check chk b size ;;
  _ <- check chk b size ;;
  b1 <- resize chk triv BMalloc b size size dflt ;;
  for_up size (fun i b => v <- rd b i ;; assign triv b i v) 0 b1.

(** Array.hpp:173-185 operator=( Array const & ) *)
Definition array_assign (this rhs : array V) : outcome (array V) :=
  b <- copyInto chk triv BMalloc (a_buf this) (size this) (a_buf rhs) (size rhs) dflt ;;
  setSingleParameterResizeIndex perm (mkArray (a_dims rhs) (a_strides rhs) (a_rix this) b) (Z.of_nat (a_rix rhs)).
Definition array_assign_self (this : array V) : outcome (array V) :=
  b <- copyIntoSelf (a_buf this) (size this) ;;
  setSingleParameterResizeIndex perm (mkArray (a_dims this) (a_strides this) (a_rix this) b) (Z.of_nat (a_rix this)).

(** The members besides the buffer: m_dims, m_strides, m_singleParameterResizeIndex. *)
Notation amembers := (list nat * list nat * nat)%type.
Definition pack (v : amembers * buf V) : array V := let '(d, s, r, b) := v in mkArray d s r b.
Definition unpack (a : array V) : amembers * buf V := ((a_dims a, a_strides a, a_rix a), a_buf a).
(** Array.hpp:150-158 and 193-204: the source's extents and strides become 0; the index stays (ArrayView.hpp:231). *)
Definition amoved (m : amembers) : amembers := let '(d, s, r) := m in (map (fun _ => 0) d, map (fun _ => 0) s, r).
(** Array.hpp:193-204 with ArrayView.hpp:228-239 and MallocBuffer.hpp:113-120: nothing is freed by a move assignment.
    MallocBuffer.hpp:51 the default buffer is null with capacity 0; a null pointer and capacity 0 are identified. *)
Definition array_class {C} (step : C -> array V -> outcome (array V)) : class amembers (buf V) C :=
  mkClass (St := buf V) [] (fun b => match b with [] => true | _ => false end)
    (fst (unpack (new_array V BMalloc perm))) []
    (fun c v => a <- step c (pack v) ;; Ok (unpack a))
    (fun v w => a <- array_assign (pack v) (pack w) ;; Ok (unpack a))
    (fun v => a <- array_assign_self (pack v) ;; Ok (unpack a))
    amoved false (fun m => m)
    (fun v => dtor chk triv BMalloc (pack v)).

(** SortedArray.hpp:101-106, 114 and SortedArrayView.hpp:84-92, 120-127; the member is m_size. *)
Variable lt eqb : V -> V -> bool.
Definition s_assign (this src : sarray V) : outcome (sarray V) :=
  b <- copyInto chk triv BMalloc (s_buf this) (s_size this) (s_buf src) (s_size src) dflt ;; Ok (mkS b (s_size src)).
Definition s_assign_self (this : sarray V) : outcome (sarray V) :=
  b <- copyIntoSelf (s_buf this) (s_size this) ;; Ok (mkS b (s_size this)).
Definition sorted_class : class nat (buf V) (scall V) :=
  mkClass (St := buf V) [] (fun b => match b with [] => true | _ => false end)
    0 []
    (fun c v => '(a, _) <- sstep chk triv BMalloc lt eqb dflt c (mkS (snd v) (fst v)) ;; Ok (s_size a, s_buf a))
    (fun v w => a <- s_assign (mkS (snd v) (fst v)) (mkS (snd w) (fst w)) ;; Ok (s_size a, s_buf a))
    (fun v => a <- s_assign_self (mkS (snd v) (fst v)) ;; Ok (s_size a, s_buf a))
    (fun _ => 0) false (fun m => m)
    (fun v => s_dtor chk triv BMalloc (mkS (snd v) (fst v))).
End CM.
