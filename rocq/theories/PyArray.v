(** Model of src/python/PyArray.cpp, of the wrapper in PyArray.hpp and of createNumpyArrayImpl (numpyHelpers.cpp:114-150): the methods of
    pylvarray.Array as Python calls them, together with what a program does with the NumPy arrays that to_numpy returns and what
    C++ does to the array meanwhile.

    repr and dtype are not modelled; T is not std::string, and the element type has a NumPy type. A NumPy array is its address, extents,
    strides and flag; of the operations on it reading and writing one element and taking a part with integers are modelled; writing a
    whole part is not (a fault here). *)
From Coq Require Import List Arith ZArith Bool.
From Verif Require Import Base Mem Indexing Array PyBase.
From Verif Require BufferManip.
Import ListNotations.
Set Implicit Arguments.
Unset Strict Implicit.

(** What a call returns: None, an integer, the [k]-th NumPy array of the program, an element, an exception *)
Inductive ares (V : Type) : Type := RNone | RInt (z : Z) | RArray (k : nat) (dims : list nat) (writeable : bool) | RElem (v : V) | RRaise (e : perr).
Arguments RNone {V}. Arguments RInt {V} z. Arguments RArray {V} k dims writeable. Arguments RRaise {V} e.

Inductive acall (V : Type) : Type :=
| AGetIndex
| ASetIndex (dim : Z)
| AResize (size : Z)
| AResizeAll (new_dims : option (npy Z))
| AToNumPy
| AGetLevel
| ASetLevel (level : Z) (space : option Z)
| WGet (k : nat) (idx : list Z)              (* w[ i, j, ... ], w the k-th NumPy array *)
| WSet (k : nat) (idx : list Z) (v : V)      (* w[ i, j, ... ] = v, one integer for each dimension *)
| ACpp (c : ncall V).                        (* C++ calls a method of the array *)
Arguments AGetIndex {V}. Arguments ASetIndex {V} dim. Arguments AResize {V} size. Arguments AResizeAll {V} new_dims.
Arguments AToNumPy {V}. Arguments AGetLevel {V}. Arguments ASetLevel {V} level space. Arguments WGet {V} k idx.

(** A NumPy array on the memory of an Array: which block of memory, the offset of its first element, extents, strides in bytes,
    NPY_ARRAY_WRITEABLE *)
Record npview : Type := mkW { w_block : nat; w_off : Z; w_dims : list nat; w_strides : list Z; w_write : bool }.

Section PyArray.
Variable V : Type.
Variable chk : bool.
Variable perm : list nat.
Variable dflt : V.
(** The conversion of NumPy types to long long in parseNumPyArray *)
Variable safe : nat -> nat -> bool.
Variable conv : nat -> nat -> Z -> Z.
Variable longlong : nat.
(** The largest INDEX_TYPE, sizeof( T ), the value of MemorySpace::host *)
Variable imax : Z.
Variable sz : Z.
Variable host : Z.
Notation NDIM := (length perm).
Notation step := (nstep chk true BufferManip.BMalloc perm dflt).

(** PyArray.cpp:55-66 struct PyArray, PyArray.hpp:130 m_accessLevel; the number of the block of memory m_array.data() points to;
    the NumPy arrays made so far *)
Record pyarray : Type := mkPR { r_array : option (array V); r_level : Z; r_block : nat; r_views : list npview }.

Definition praise (s : pyarray) (e : perr) : outcome (pyarray * ares V) := Ok (s, RRaise e).
(** The buffer is reallocated exactly when its capacity changes (bufferManipulation.hpp:230-238, MallocBuffer.hpp:128-142): the
    old block is freed. *)
Definition after (s : pyarray) (a a' : array V) : pyarray :=
  mkPR (Some a') (r_level s) (if length (a_buf a') =? length (a_buf a) then r_block s else S (r_block s)) (r_views s).
Definition do (s : pyarray) (a : array V) (c : ncall V) : outcome (pyarray * ares V) := a' <- step c a ;; Ok (after s a a', RNone).
(** limits.hpp:113-175 integerConversion to INDEX_TYPE: of the negative values some are errors here and the others in Array::resize *)
Definition to_index (z : Z) : outcome Z := _ <- error_if ((z <? 0) || (imax <? z))%Z ;; Ok z.
Fixpoint to_indices (l : list Z) : outcome (list Z) :=
  match l with [] => Ok [] | z :: l' => i <- to_index z ;; is <- to_indices l' ;; Ok (i :: is) end.

(** numpyHelpers.cpp:135-139: the product of a long long and a std::size_t is a std::size_t. *)
Fixpoint byteStrides (strides : list nat) : outcome (list Z) :=
  match strides with
  | [] => Ok []
  | s :: ss =>
      let b := ((Z.of_nat s * sz) mod 2 ^ 64)%Z in
      _ <- error_if (2 ^ 63 <=? b)%Z ;;
      bs <- byteStrides ss ;; Ok (b :: bs)
  end.
(** PyArray.hpp:225-234 toNumPyImpl, numpyHelpers.hpp:107-137 createNumPyArray *)
Definition toNumPy (s : pyarray) (a : array V) : outcome npview :=
  bs <- byteStrides (a_strides a) ;;
  Ok (mkW (r_block s) 0 (a_dims a) bs (MODIFIABLE <=? r_level s)%Z).

(** NumPy: an index counts from the end when it is negative; [None]: IndexError *)
Definition np_index (n : nat) (i : Z) : option Z :=
  if negb (in_ll i) then None
  else if ((i <? - Z.of_nat n) || (Z.of_nat n <=? i))%Z then None
  else Some (if (i <? 0)%Z then i + Z.of_nat n else i)%Z.
(** NumPy: the part at an index *)
Fixpoint np_part (off : Z) (dims : list nat) (strides : list Z) (idx : list Z) : option (Z * list nat * list Z) :=
  match idx, dims, strides with
  | [], _, _ => Some (off, dims, strides)
  | i :: idx', n :: dims', b :: strides' =>
      match np_index n i with Some j => np_part (off + j * b) dims' strides' idx' | None => None end
  | _ :: _, _, _ => None
  end.
(** The slot of the buffer at an address; reading or writing a freed block is a fault. *)
Definition address (s : pyarray) (w : npview) (off : Z) : outcome nat :=
  if negb (w_block w =? r_block s) then Fault FDangling
  else if negb (off mod sz =? 0)%Z then Fault FOob else to_ix (off / sz)%Z.

Definition pa_step (c : acall V) (s : pyarray) : outcome (pyarray * ares V) :=
  match c with
  | WGet k idx =>
      match nth_error (r_views s) k with
      | None => praise s EOther
      | Some w =>
          match np_part (w_off w) (w_dims w) (w_strides w) idx with
          | None => praise s EIndex
          | Some (off, [], _) =>
              p <- address s w off ;; a <- deref (r_array s) ;; v <- rd (a_buf a) p ;; Ok (s, RElem v)
          | Some (off, dims, bs) =>
              Ok (mkPR (r_array s) (r_level s) (r_block s) (r_views s ++ [mkW (w_block w) off dims bs (w_write w)]),
                  RArray (length (r_views s)) dims (w_write w))
          end
      end
  | WSet k idx v =>
      match nth_error (r_views s) k with
      | None => praise s EOther
      | Some w =>
          if negb (w_write w) then praise s EValue
          else match np_part (w_off w) (w_dims w) (w_strides w) idx with
          | None => praise s EIndex
          | Some (_, _ :: _, _) => Fault FOob
          | Some (off, [], _) =>
              p <- address s w off ;; a <- deref (r_array s) ;; b <- assign true (a_buf a) p v ;;
              Ok (mkPR (Some (mkArray (a_dims a) (a_strides a) (a_rix a) b)) (r_level s) (r_block s) (r_views s), RNone)
          end
      end
  | _ =>
      match r_array s with
      | None => praise s ERuntime                       (* VERIFY_INITIALIZED *)
      | Some a =>
          let resizeable k := if (r_level s <? RESIZEABLE)%Z then praise s ERuntime else k in
          match c with
          | AGetIndex => Ok (s, RInt (Z.of_nat (a_rix a)))                                          (* 96-103 *)
          | ASetIndex dim => resizeable (                                                           (* 109-127 *)
              if negb (in_int dim) then praise s EOverflow
              else if ((dim <? 0) || (Z.of_nat NDIM <=? dim))%Z then praise s EValue
              else do s a (NSetIndex dim))
          | AResize n => resizeable (                                                               (* 133-151 *)
              if negb (in_ll n) then praise s EOverflow
              else if (n <? 0)%Z then praise s EValue
              else i <- to_index n ;; do s a (NResize1 i))
          | AResizeAll obj => resizeable (                                                          (* 157-184 *)
              match parseNumPyArray safe conv longlong obj with
              | inr e => praise s e
              | inl ds => if negb (length ds =? NDIM) then praise s ERuntime else is <- to_indices ds ;; do s a (NResize is)
              end)
          | AToNumPy =>                                                                             (* 192-200 *)
              w <- toNumPy s a ;;
              Ok (mkPR (r_array s) (r_level s) (r_block s) (r_views s ++ [w]), RArray (length (r_views s)) (w_dims w) (w_write w))
          | AGetLevel => Ok (s, RInt (r_level s))                                                   (* 206-214 *)
          | ASetLevel level space =>                                                                (* 221-240, PyArray.hpp:199-207 *)
              if negb (in_int level && in_int (match space with Some p => p | None => host end)) then praise s EOverflow
              else if negb (match space with Some p => p | None => host end =? host)%Z then praise s EValue
              else Ok (mkPR (r_array s) level (r_block s) (r_views s), RNone)
          | ACpp c => do s a c
          | WGet _ _ | WSet _ _ _ => praise s EOther
          end
      end
  end.
Fixpoint pa_run (h : list (acall V)) (s : pyarray) : outcome (pyarray * list (ares V)) :=
  match h with
  | [] => Ok (s, [])
  | c :: h' => '(s1, r) <- pa_step c s ;; '(s2, rs) <- pa_run h' s1 ;; Ok (s2, r :: rs)
  end.
End PyArray.
Arguments mkPR {V} r_array r_level r_block r_views.
