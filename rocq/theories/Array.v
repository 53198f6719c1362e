(** Model of src/Array.hpp and of the parts of src/ArrayView.hpp it inherits. *)
From Coq Require Import List Arith ZArith Lia Bool.
From Verif Require Import Base Mem Indexing.
From Verif Require ArrayManip BufferManip.
Import ListNotations.
Set Implicit Arguments.

(** ArrayView.hpp:748-761 members: m_dims, m_strides, m_dataBuffer, m_singleParameterResizeIndex. *)
Record array (V : Type) : Type :=
  mkArray { a_dims : list nat; a_strides : list nat; a_rix : nat; a_buf : buf V }.

Section Arr.
Variable V : Type.
(** [chk]: LVARRAY_BOUNDS_CHECK; [triv]: T is trivial; [kind]: BUFFER_TYPE; [perm]: PERMUTATION, whose
    length is NDIM; [dflt]: the value of T(). *)
Variable chk triv : bool.
Variable kind : BufferManip.bkind.
Variable perm : list nat.
Variable dflt : V.
Notation array := (array V).
Notation NDIM := (length perm).

(** ArrayView.hpp:396 size *)
Definition size (a : array) : nat := multiplyAll (a_dims a).
(** ArrayView.hpp:436 capacity *)
Definition capacity (a : array) : nat := BufferManip.capacity (a_buf a).

(** ArrayView.hpp:318-335 toSlice: the same members seen as a slice. *)
Definition toSlice (a : array) : slice :=
  mkSlice 0 (a_dims a) (a_strides a) (Z.of_nat (strideOneDim perm)).

(** ArrayView.hpp:555-559 operator() (and 513/542 operator[]) used to read. *)
Definition at_ (a : array) (idx : list Z) : outcome V :=
  k <- slice_call chk (toSlice a) idx ;; i <- to_ix k ;; rd (a_buf a) i.

(** The same used as the target of an assignment. *)
Definition set_ (a : array) (idx : list Z) (v : V) : outcome array :=
  k <- slice_call chk (toSlice a) idx ;; i <- to_ix k ;;
  b <- assign triv (a_buf a) i v ;; Ok (mkArray (a_dims a) (a_strides a) (a_rix a) b).

(** Array.hpp:86-99 default constructor with ArrayView.hpp:741-745. *)
Definition new_array : array :=
  let dims := repeat 0 NDIM in
  mkArray dims (calculateStrides perm dims) 0 (BufferManip.empty_buf V kind).

(** Array.hpp:163-166 destructor *)
Definition dtor (a : array) : outcome unit :=
  _ <- BufferManip.free chk triv kind (a_buf a) (size a) ;; Ok tt.

(** The loop "m_dims[ i ] = dims[ i ]; LVARRAY_ERROR_IF_LT( m_dims[ i ], 0 )" of Array.hpp:302-306,
    327-333, 401-406; assignments to the members before an abort are not observable. Conversion of the
    argument to INDEX_TYPE (integerConversion) is modelled separately in IntConv.v. *)
Fixpoint set_dims (dims : list nat) (pairs : list (nat * Z)) : outcome (list nat) :=
  match pairs with
  | [] => Ok dims
  | (i, d) :: ps => _ <- error_if (d <? 0)%Z ;; set_dims (upd dims i (Z.to_nat d)) ps
  end.

Definition set_shape (a : array) (dims : list nat) (b : buf V) : array :=
  mkArray dims (calculateStrides perm dims) (a_rix a) b.

(** Array.hpp:293-312 resize( numDims, dims ); 319-338 resize( newDims... ) is the same with the number
    of extents checked at compile time. *)
Definition resize_dims (a : array) (newDims : list Z) : outcome array :=
  _ <- error_if (negb (length newDims =? NDIM)) ;;
  dims <- set_dims (a_dims a) (combine (seq 0 NDIM) newDims) ;;
  b <- BufferManip.resize chk triv kind (a_buf a) (size a) (multiplyAll dims) dflt ;;
  Ok (set_shape a dims b).

(** Array.hpp:392-414 resizeDimension< INDICES... >( newDims... ) *)
Definition resizeDimension (a : array) (pairs : list (nat * Z)) : outcome array :=
  dims <- set_dims (a_dims a) pairs ;;
  b <- BufferManip.resize chk triv kind (a_buf a) (size a) (multiplyAll dims) dflt ;;
  Ok (set_shape a dims b).

(** Array.hpp:590-680 resizeDefaultDimension; [v] is the value of T( args... ). *)
Definition resizeDefaultDimension (a : array) (newDim : Z) (v : V) : outcome array :=
  _ <- error_if (newDim <? 0)%Z ;;
  let n := Z.to_nat newDim in
  let dims := upd (a_dims a) (a_rix a) n in
  if ((NDIM =? 1) || (nth 0 perm 0 =? a_rix a))%bool then
    b <- BufferManip.resize chk triv kind (a_buf a) (size a) (multiplyAll dims) v ;;
    Ok (set_shape a dims b)
  else
    let curDimLength := nth (a_rix a) (a_dims a) 0 in
    let curDimStride := nth (a_rix a) (a_strides a) 0 in
    let curSize := size a in
    let newSize := multiplyAll dims in
    if newSize =? curSize then Ok (set_shape a dims (a_buf a))
    else if curDimLength <? n then
      b <- BufferManip.reserve chk triv kind (a_buf a) curSize newSize ;;
      let toAdd := curDimStride * (n - curDimLength) in
      let toShift := curDimStride * curDimLength in
      let iters := (newSize - curSize) / toAdd in
      b' <- for_down iters (fun i b =>
              let left := toAdd * i in
              b1 <- ArrayManip.shiftUp chk triv b (toShift * i) toShift 0 left ;;
              for_up toAdd (fun j b => construct triv b (toShift * i + toShift + left + j) v) 0 b1) b ;;
      Ok (set_shape a dims b')
    else
      let toRemove := curDimStride * (curDimLength - n) in
      let toShift := curDimStride * n in
      let iters := (curSize - newSize) / toRemove in
      b <- for_up (iters - 1) (fun i b =>
             let amount := toRemove * i in
             ArrayManip.shiftDown chk triv b (toShift * i) (toShift + amount) amount amount) 1 (a_buf a) ;;
      let total := toRemove * iters in
      b' <- for_up total (fun i b => destroy1 triv b (newSize + i)) 0 b ;;
      Ok (set_shape a dims b').

(** Array.hpp:441-449 clear *)
Definition clear (a : array) : outcome array :=
  b <- BufferManip.resize chk triv kind (a_buf a) (size a) 0 dflt ;;
  Ok (set_shape a (upd (a_dims a) (a_rix a) 0) b).

(** Array.hpp:454-461 setSingleParameterResizeIndex *)
Definition setSingleParameterResizeIndex (a : array) (i : Z) : outcome array :=
  _ <- error_if (i <? 0)%Z ;;
  _ <- error_if (Z.of_nat NDIM <=? i)%Z ;;
  Ok (mkArray (a_dims a) (a_strides a) (Z.to_nat i) (a_buf a)).

(** Array.hpp:474-476 reserve; a negative capacity compares below the current one: no effect. *)
Definition reserve (a : array) (n : Z) : outcome array :=
  b <- BufferManip.reserve chk triv kind (a_buf a) (size a) (Z.to_nat n) ;;
  Ok (mkArray (a_dims a) (a_strides a) (a_rix a) b).

(** ++ / -- / += on m_dims[ 0 ] of a one dimensional array. *)
Definition set_dim0 (a : array) (n : nat) (b : buf V) : array :=
  mkArray (upd (a_dims a) 0 n) (a_strides a) (a_rix a) b.

(** Array.hpp:493-499 emplace_back *)
Definition emplace_back (a : array) (v : V) : outcome array :=
  b <- BufferManip.emplaceBack chk triv kind (a_buf a) (size a) v ;;
  Ok (set_dim0 a (nth 0 (a_dims a) 0 + 1) b).

(** emplace_back( a[ i ] ): the argument is a reference into the array itself. *)
Definition emplace_back_self (a : array) (i : nat) : outcome array :=
  b <- BufferManip.emplaceBackSelf chk triv kind (a_buf a) (size a) i ;;
  Ok (set_dim0 a (nth 0 (a_dims a) 0 + 1) b).

(** Array.hpp:509-515 emplace *)
Definition emplace (a : array) (pos : Z) (v : V) : outcome array :=
  b <- BufferManip.emplace chk triv kind (a_buf a) (size a) pos v ;;
  Ok (set_dim0 a (nth 0 (a_dims a) 0 + 1) b).

(** emplace( pos, a[ i ] ) *)
Definition emplace_self (a : array) (pos : Z) (i : nat) : outcome array :=
  b <- BufferManip.emplaceSelf chk triv kind (a_buf a) (size a) pos i ;;
  Ok (set_dim0 a (nth 0 (a_dims a) 0 + 1) b).

(** Array.hpp:526-529 insert *)
Definition insert (a : array) (pos : Z) (vs : list V) : outcome array :=
  '(b, n) <- BufferManip.insert chk triv kind (a_buf a) (size a) pos vs ;;
  Ok (set_dim0 a (nth 0 (a_dims a) 0 + n) b).

(** Array.hpp:536-542 pop_back *)
Definition pop_back (a : array) : outcome array :=
  b <- BufferManip.popBack chk triv (a_buf a) (size a) ;;
  Ok (set_dim0 a (nth 0 (a_dims a) 0 - 1) b).

(** Array.hpp:550-556 erase *)
Definition erase (a : array) (pos : Z) : outcome array :=
  b <- BufferManip.erase chk triv (a_buf a) (size a) pos ;;
  Ok (set_dim0 a (nth 0 (a_dims a) 0 - 1) b).

(** Calls available for every NDIM ... *)
Inductive ncall : Type :=
| NResize (dims : list Z)                (* one extent per dimension *)
| NResizeDimension (pairs : list (nat * Z))
| NResize1 (n : Z)                       (* Array.hpp:422-424 resize( newdim ) *)
| NResizeDefault (n : Z) (v : V)         (* Array.hpp:433-435 resizeDefault *)
| NClear
| NSetIndex (i : Z)                      (* setSingleParameterResizeIndex *)
| NReserve (n : Z)
| NSet (idx : list Z) (v : V).           (* a( idx... ) = v *)

Definition nstep (c : ncall) (a : array) : outcome array :=
  match c with
  | NResize dims => resize_dims a dims
  | NResizeDimension ps => resizeDimension a ps
  | NResize1 n => resizeDefaultDimension a n dflt
  | NResizeDefault n v => resizeDefaultDimension a n v
  | NClear => clear a
  | NSetIndex i => setSingleParameterResizeIndex a i
  | NReserve n => reserve a n
  | NSet idx v => set_ a idx v
  end.

(** ... and those available only when NDIM == 1 (enable_if in Array.hpp:494, 510, 527, 537, 551). *)
Inductive vcall : Type :=
| VEmplaceBack (v : V)
| VEmplace (pos : Z) (v : V)
| VInsert (pos : Z) (vs : list V)
| VPopBack
| VErase (pos : Z)
| VResize (n : Z)
| VResizeDefault (n : Z) (v : V)
| VReserve (n : Z)
| VClear
| VSet (i : Z) (v : V).

Definition vstep (c : vcall) (a : array) : outcome array :=
  match c with
  | VEmplaceBack v => emplace_back a v
  | VEmplace pos v => emplace a pos v
  | VInsert pos vs => insert a pos vs
  | VPopBack => pop_back a
  | VErase pos => erase a pos
  | VResize n => resizeDefaultDimension a n dflt
  | VResizeDefault n v => resizeDefaultDimension a n v
  | VReserve n => reserve a n
  | VClear => clear a
  | VSet i v => set_ a [i] v
  end.

Fixpoint run {C} (step : C -> array -> outcome array) (h : list C) (a : array) : outcome array :=
  match h with
  | [] => Ok a
  | c :: h' => a' <- step c a ;; run step h' a'
  end.

(** The arrays seen along a history, the initial one included. *)
Fixpoint visited {C} (step : C -> array -> outcome array) (h : list C) (a : array) : outcome (list array) :=
  match h with
  | [] => Ok [a]
  | c :: h' => a' <- step c a ;; as_ <- visited step h' a' ;; Ok (a :: as_)
  end.

End Arr.

Arguments NResize {V} dims. Arguments NResizeDimension {V} pairs. Arguments NResize1 {V} n.
Arguments NClear {V}. Arguments NSetIndex {V} i. Arguments NReserve {V} n.
Arguments VPopBack {V}. Arguments VErase {V} pos. Arguments VResize {V} n.
Arguments VReserve {V} n. Arguments VClear {V}.
