(** What happens to an Array when an exception leaves one of its methods.

    The library never catches: whatever throws inside a method leaves the container in the state it had
    reached. Two things throw.
    - Elements: a constructor of T called with arguments or on a const reference, or a copy assignment
      ([Element]). The budget [n] counts how many of these still succeed; with an arbitrary budget the
      exception comes at an arbitrary one. Simplifications: move constructors, move assignments and
      destructors of T do not throw; a failed assignment leaves its target as it was; trivial T never
      throw.
    - Errors: an LVARRAY_ERROR* macro whose handler throws ([Error]). The handler is replaceable
      (system.hpp:68 setErrorHandler, Macros.hpp:122-135); the rest of the model lets it abort.

    The state an exception leaves may have negative extents, hence the record [tarray]. *)
From Coq Require Import List Arith ZArith Lia Bool.
From Verif Require Import Base Mem Indexing Array.
From Verif Require ArrayManip BufferManip.
Import ListNotations.
Set Implicit Arguments.

Inductive why : Type := Element | Error.

(** Normal return with the remaining budget; exception with the state left behind; undefined behaviour. *)
Inductive xout (A X : Type) : Type :=
| XOk (n : nat) (a : A)
| XThrow (w : why) (x : X)
| XFault (f : fault).
Arguments XOk {A X} n a. Arguments XThrow {A X} w x. Arguments XFault {A X} f.

Definition xbind {A B X} (m : xout A X) (k : nat -> A -> xout B X) : xout B X :=
  match m with
  | XOk n a => k n a
  | XThrow w x => XThrow w x
  | XFault f => XFault f
  end.
Notation "'let!' n x <~ m ;; k" := (xbind m (fun n x => k))
  (at level 61, n name, x name, m at next level, right associativity).

(** A part in which no element throws; an error leaves the state [x]. *)
Definition xlift {A X} (n : nat) (x : X) (m : outcome A) : xout A X :=
  match m with
  | Ok a => XOk n a
  | Abort => XThrow Error x
  | Fault f => XFault f
  end.

(** The state left behind, seen from the caller of the function that threw. *)
Definition xleft {A X Y} (f : X -> Y) (m : xout A X) : xout A Y :=
  match m with
  | XOk n a => XOk n a
  | XThrow w x => XThrow w (f x)
  | XFault f => XFault f
  end.

Fixpoint xfor_up {S X} (k : nat) (f : nat -> nat -> S -> xout S X) (i n : nat) (s : S) : xout S X :=
  match k with
  | O => XOk n s
  | Datatypes.S k' => let! n' s' <~ f i n s ;; xfor_up k' f (i + 1) n' s'
  end.
Fixpoint xfor_down {S X} (k : nat) (f : nat -> nat -> S -> xout S X) (n : nat) (s : S) : xout S X :=
  match k with
  | O => XOk n s
  | Datatypes.S k' => let! n' s' <~ f k' n s ;; xfor_down k' f n' s'
  end.

Section Buf.
Variable V : Type.
Variable chk triv : bool.
Variable kind : BufferManip.bkind.
Notation buf := (buf V).

(** [new ( ptr + i ) T( v )] *)
Definition x_construct (n : nat) (b : buf) (i : nat) (v : V) : xout buf buf :=
  if triv then xlift n b (construct triv b i v)
  else match n with
       | O => XThrow Element b
       | S n' => xlift n' b (construct triv b i v)
       end.
(** [ptr[ i ] = v] *)
Definition x_assign (n : nat) (b : buf) (i : nat) (v : V) : xout buf buf :=
  if triv then xlift n b (assign triv b i v)
  else match n with
       | O => XThrow Element b
       | S n' => xlift n' b (assign triv b i v)
       end.

(** arrayManipulation.hpp:176-188 uninitializedCopy, and the loop of insert (515-518) *)
Fixpoint x_uninitializedCopy (vs : list V) (n : nat) (b : buf) (p : nat) : xout buf buf :=
  match vs with
  | [] => XOk n b
  | v :: vs' => let! n' b' <~ x_construct n b p v ;; x_uninitializedCopy vs' n' b' (p + 1)
  end.

(** arrayManipulation.hpp:282-309 resize *)
Definition x_am_resize (n : nat) (b : buf) (p size newSize : nat) (v : V) : xout buf buf :=
  let! n1 b1 <~ xlift n b (ArrayManip.destroy triv b (p + newSize) (size - newSize)) ;;
  xfor_up (newSize - size) (fun i n b => x_construct n b (p + i) v) size n1 b1.

(** arrayManipulation.hpp:475-487 emplace *)
Definition x_am_emplace (n : nat) (b : buf) (p size index : nat) (v : V) : xout buf buf :=
  let! n0 _u <~ xlift n b (ArrayManip.check_insert_bounds chk size index) ;;
  let! n1 b1 <~ xlift n0 b (ArrayManip.shiftUp chk triv b p size index 1) ;;
  x_construct n1 b1 (p + index) v.

(** arrayManipulation.hpp:502-519 insert *)
Definition x_am_insert (n : nat) (b : buf) (p size index : nat) (vs : list V) : xout buf buf :=
  let! n0 _u <~ xlift n b (ArrayManip.check_insert_bounds chk size index) ;;
  let! n1 b1 <~ xlift n0 b (ArrayManip.shiftUp chk triv b p size index (length vs)) ;;
  x_uninitializedCopy vs n1 b1 (p + index).

(** bufferManipulation.hpp:272-286 resize *)
Definition x_resize (n : nat) (b : buf) (size newSize : nat) (v : V) : xout buf buf :=
  let! n0 _u <~ xlift n b (BufferManip.check chk b size) ;;
  let! n1 b1 <~ xlift n0 b (BufferManip.reserve chk triv kind b size newSize) ;;
  x_am_resize n1 b1 0 size newSize v.

(** bufferManipulation.hpp:297-303 emplaceBack, with arrayManipulation.hpp:422-429 *)
Definition x_emplaceBack (n : nat) (b : buf) (size : nat) (v : V) : xout buf buf :=
  let! n0 _u <~ xlift n b (BufferManip.check chk b size) ;;
  let! n1 b1 <~ xlift n0 b (BufferManip.dynamicReserve chk triv kind b size (size + 1)) ;;
  x_construct n1 b1 (0 + size) v.

(** bufferManipulation.hpp:315-324 emplace *)
Definition x_emplace (n : nat) (b : buf) (size : nat) (pos : Z) (v : V) : xout buf buf :=
  let! n0 _u <~ xlift n b (BufferManip.checkInsert chk b size pos) ;;
  let! n1 b1 <~ xlift n0 b (BufferManip.dynamicReserve chk triv kind b size (size + 1)) ;;
  let! n2 p <~ xlift n1 b1 (to_ix pos) ;;
  x_am_emplace n2 b1 0 size p v.

(** bufferManipulation.hpp:338-350 insert *)
Definition x_insert (n : nat) (b : buf) (size : nat) (pos : Z) (vs : list V) : xout (buf * nat) buf :=
  let! n0 _u <~ xlift n b (BufferManip.checkInsert chk b size pos) ;;
  let! n1 b1 <~ xlift n0 b (BufferManip.dynamicReserve chk triv kind b size (size + length vs)) ;;
  let! n2 p <~ xlift n1 b1 (to_ix pos) ;;
  let! n3 b2 <~ x_am_insert n2 b1 0 size p vs ;;
  XOk n3 (b2, length vs).

(** bufferManipulation.hpp:393-411 copyInto *)
Definition x_copyInto (n : nat) (dst : buf) (dstSize : nat) (src : buf) (srcSize : nat) (d : V) : xout buf buf :=
  let! n0 _u <~ xlift n dst (BufferManip.check chk dst dstSize) ;;
  let! n1 _u1 <~ xlift n0 dst (BufferManip.check chk src srcSize) ;;
  let! n2 dst1 <~ x_resize n1 dst dstSize srcSize d ;;
  xfor_up srcSize (fun i n b => let! n' v <~ xlift n b (rd src i) ;; x_assign n' b i v) 0 n2 dst1.

End Buf.

(** An Array left behind by an exception. *)
Record tarray (V : Type) : Type :=
  mkT { t_dims : list Z; t_strides : list nat; t_rix : nat; t_buf : buf V }.

Section Arr.
Variable V : Type.
Variable chk triv : bool.
Variable kind : BufferManip.bkind.
Variable perm : list nat.
Variable dflt : V.
Notation array := (array V).
Notation tarray := (tarray V).
Notation NDIM := (length perm).

Definition as_left (a : array) : tarray :=
  mkT (map Z.of_nat (a_dims a)) (a_strides a) (a_rix a) (a_buf a).
(** The array with other extents (and the strides computed from them) or another buffer. *)
Definition left_buf (a : array) (b : buf V) : tarray :=
  mkT (map Z.of_nat (a_dims a)) (a_strides a) (a_rix a) b.
Definition left_shape (a : array) (dims : list nat) (b : buf V) : tarray :=
  mkT (map Z.of_nat dims) (calculateStrides perm dims) (a_rix a) b.

(** ArrayView.hpp:396 size *)
Definition t_size (t : tarray) : Z := fold_right Z.mul 1%Z (t_dims t).

(** Array.hpp:163-166 destructor, with the first checks of bufferManipulation.hpp:147-149. Destructors are
    noexcept: an error there ends the program whatever the handler does. *)
Definition t_dtor (t : tarray) : outcome unit :=
  _ <- check_if chk (t_size t <? 0)%Z ;;
  _ <- BufferManip.free chk triv kind (t_buf t) (Z.to_nat (t_size t)) ;; Ok tt.

(** Array.hpp:302-306, 327-333, 401-406: the extents are stored one by one, each checked after it has been
    stored. *)
Fixpoint x_set_dims (n : nat) (dims : list nat) (pairs : list (nat * Z)) : xout (list nat) (list Z) :=
  match pairs with
  | [] => XOk n dims
  | (i, d) :: ps =>
      if (d <? 0)%Z then XThrow Error (upd (map Z.of_nat dims) i d)
      else x_set_dims n (upd dims i (Z.to_nat d)) ps
  end.

Definition x_reshape (n : nat) (a : array) (pairs : list (nat * Z)) : xout array tarray :=
  let! n1 dims <~ xleft (fun ds => mkT ds (a_strides a) (a_rix a) (a_buf a)) (x_set_dims n (a_dims a) pairs) ;;
  let! n2 b <~ xleft (left_shape a dims) (x_resize chk triv kind n1 (a_buf a) (size a) (multiplyAll dims) dflt) ;;
  XOk n2 (set_shape perm a dims b).

(** Array.hpp:293-312 resize( numDims, dims ) and 319-338 *)
Definition x_resize_dims (n : nat) (a : array) (newDims : list Z) : xout array tarray :=
  let! n0 _u <~ xlift n (as_left a) (error_if (negb (length newDims =? NDIM))) ;;
  x_reshape n0 a (combine (seq 0 NDIM) newDims).

(** Array.hpp:392-414 resizeDimension *)
Definition x_resizeDimension (n : nat) (a : array) (pairs : list (nat * Z)) : xout array tarray :=
  x_reshape n a pairs.

(** Array.hpp:590-680 resizeDefaultDimension: the extents and strides are stored before anything else is
    done. *)
Definition x_resizeDefaultDimension (m : nat) (a : array) (newDim : Z) (v : V) : xout array tarray :=
  let! m0 _u <~ xlift m (as_left a) (error_if (newDim <? 0)%Z) ;;
  let n := Z.to_nat newDim in
  let dims := upd (a_dims a) (a_rix a) n in
  if ((NDIM =? 1) || (nth 0 perm 0 =? a_rix a))%bool then
    let! m1 b <~ xleft (left_shape a dims) (x_resize chk triv kind m0 (a_buf a) (size a) (multiplyAll dims) v) ;;
    XOk m1 (set_shape perm a dims b)
  else
    let curDimLength := nth (a_rix a) (a_dims a) 0 in
    let curDimStride := nth (a_rix a) (a_strides a) 0 in
    let curSize := size a in
    let newSize := multiplyAll dims in
    if newSize =? curSize then XOk m0 (set_shape perm a dims (a_buf a))
    else if curDimLength <? n then
      let! m1 b <~ xlift m0 (left_shape a dims (a_buf a))
                 (BufferManip.reserve chk triv kind (a_buf a) curSize newSize) ;;
      let toAdd := curDimStride * (n - curDimLength) in
      let toShift := curDimStride * curDimLength in
      let iters := (newSize - curSize) / toAdd in
      let! m2 b' <~ xleft (left_shape a dims)
             (xfor_down iters (fun i k b =>
                let left := toAdd * i in
                let! k1 b1 <~ xlift k b (ArrayManip.shiftUp chk triv b (toShift * i) toShift 0 left) ;;
                xfor_up toAdd (fun j k b => x_construct triv k b (toShift * i + toShift + left + j) v) 0 k1 b1)
                m1 b) ;;
      XOk m2 (set_shape perm a dims b')
    else
      (* only moves and destructors: as in Array.resizeDefaultDimension *)
      xlift m0 (left_shape a dims (a_buf a)) (resizeDefaultDimension chk triv kind perm a newDim v).

(** Array.hpp:493-499 emplace_back *)
Definition x_emplace_back (n : nat) (a : array) (v : V) : xout array tarray :=
  let! n1 b <~ xleft (left_buf a) (x_emplaceBack chk triv kind n (a_buf a) (size a) v) ;;
  XOk n1 (set_dim0 a (nth 0 (a_dims a) 0 + 1) b).
(** Array.hpp:509-515 emplace *)
Definition x_emplace_at (n : nat) (a : array) (pos : Z) (v : V) : xout array tarray :=
  let! n1 b <~ xleft (left_buf a) (x_emplace chk triv kind n (a_buf a) (size a) pos v) ;;
  XOk n1 (set_dim0 a (nth 0 (a_dims a) 0 + 1) b).
(** Array.hpp:526-529 insert *)
Definition x_insert_at (n : nat) (a : array) (pos : Z) (vs : list V) : xout array tarray :=
  let! n1 r <~ xleft (left_buf a) (x_insert chk triv kind n (a_buf a) (size a) pos vs) ;;
  XOk n1 (set_dim0 a (nth 0 (a_dims a) 0 + snd r) (fst r)).
(** ArrayView.hpp:555-559: assignment to an element *)
Definition x_set (n : nat) (a : array) (idx : list Z) (v : V) : xout array tarray :=
  let! n1 k <~ xlift n (as_left a) (slice_call chk (toSlice perm a) idx) ;;
  let! n2 i <~ xlift n1 (as_left a) (to_ix k) ;;
  let! n3 b <~ xleft (left_buf a) (x_assign triv n2 (a_buf a) i v) ;;
  XOk n3 (mkArray (a_dims a) (a_strides a) (a_rix a) b).

(** Array.hpp:172-185 copy assignment: the elements first, then extents, strides and resize index. *)
Definition x_copy_assign (n : nat) (a src : array) : xout array tarray :=
  let! n1 b <~ xleft (left_buf a) (x_copyInto chk triv kind n (a_buf a) (size a) (a_buf src) (size src) dflt) ;;
  let! n2 _u <~ xlift n1 (mkT (map Z.of_nat (a_dims src)) (a_strides src) (a_rix a) b)
             (error_if (negb (a_rix src <? NDIM))) ;;
  XOk n2 (mkArray (a_dims src) (a_strides src) (a_rix src) b).

(** The remaining methods neither construct from arguments nor copy: Array.hpp:441-449 clear (the buffer
    first), 454-461 setSingleParameterResizeIndex, 474-476 reserve, 536-542 pop_back, 550-556 erase. Their
    errors come before any change. *)
Definition x_vstep (n : nat) (c : vcall V) (a : array) : xout array tarray :=
  match c with
  | VEmplaceBack v => x_emplace_back n a v
  | VEmplace pos v => x_emplace_at n a pos v
  | VInsert pos vs => x_insert_at n a pos vs
  | VResize m => x_resizeDefaultDimension n a m dflt
  | VResizeDefault m v => x_resizeDefaultDimension n a m v
  | VSet i v => x_set n a [i] v
  | VPopBack | VErase _ | VReserve _ | VClear => xlift n (as_left a) (vstep chk triv kind perm dflt c a)
  end.

Definition x_nstep (n : nat) (c : ncall V) (a : array) : xout array tarray :=
  match c with
  | NResize dims => x_resize_dims n a dims
  | NResizeDimension ps => x_resizeDimension n a ps
  | NResize1 m => x_resizeDefaultDimension n a m dflt
  | NResizeDefault m v => x_resizeDefaultDimension n a m v
  | NSet idx v => x_set n a idx v
  | NClear | NSetIndex _ | NReserve _ => xlift n (as_left a) (nstep chk triv kind perm dflt c a)
  end.

(** Array.hpp:106-112 Array( dims... ) and 137-140 the copy constructor: both delegate to the default
    constructor, so an exception from their body runs the destructor. *)
Definition x_ctor_dims (n : nat) (dims : list Z) : xout array (outcome unit) :=
  xleft t_dtor (x_resize_dims n (new_array V kind perm) dims).
Definition x_ctor_copy (n : nat) (src : array) : xout array (outcome unit) :=
  xleft t_dtor (x_copy_assign n (new_array V kind perm) src).

End Arr.
