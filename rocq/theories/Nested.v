(** ChaiBuffer::moveNested (ChaiBuffer.hpp:361-391, 463-482): an array whose values are themselves arrays,
    as in Array< Array< V > >. A value of the outer buffer is the ChaiBuffer of an inner array, so that
    memory in every space holds handles, which are copied bytewise.

    The outer and the inner buffers are those of Chai.v, with two spaces; the inner world has no handles
    of its own, they are in the blocks of the outer world. Array and ArrayView carry besides the buffer
    the number of values [n_sizes], one for each outer handle. Dimensions of the inner arrays do not move
    and are left out. *)
From Coq Require Import List Arith Bool.
From Verif Require Import Base Chai.
Import ListNotations.
Set Implicit Arguments.

Section Ops.
Variable V : Type.
(** h: an outer Array or ArrayView, by the order of construction; 0 is the Array. *)
Inductive nop : Type :=
| NCopy (h : nat) (es : option nat)                  (* ArrayView( ArrayView const & ), es: execution space *)
| NMove (h : nat) (s : option nat) (touch : bool)    (* h.move( s, touch ) *)
| NTouch (h s : nat)                                 (* h.registerTouch( s ) *)
| NPush (h : nat)                                    (* h.emplace_back(), on the host *)
| NInner (h i size cap : nat)                        (* h[ i ] is reallocated, on the host; its first size values are kept *)
| NWrite (h i j s : nat) (v : V)                     (* code running in space s assigns to h[ i ][ j ] *)
| NRead (h i j s : nat).                             (* code running in space s reads h[ i ][ j ] *)
End Ops.
Arguments NCopy {V}. Arguments NMove {V}. Arguments NTouch {V}. Arguments NPush {V}. Arguments NInner {V}. Arguments NRead {V}.

Section Nested.
Variable V : Type.
Record nworld : Type := mkN { n_outer : world cbuf; n_sizes : list nat; n_inner : world V }.

(** A member function called on the handle [c], which lies in a block of the outer buffer: the result is
    the new value of the handle. *)
Definition rebuf {A} (l : list cbuf) (w : world A) : world A := mkWorld (w_blocks w) (w_recs w) l.
Definition on_handle (w : world V) (c : cbuf) (f : world V -> nat -> outcome (world V)) : outcome (world V * cbuf) :=
  w1 <- f (rebuf [c] w) 0 ;;
  c1 <- aget (w_bufs w1) 0 ;;
  Ok (rebuf [] w1, c1).

(** ChaiBuffer.hpp:472-482 moveInnerData: host code, which goes through m_pointer. *)
Definition move_inner (h size s : nat) (touch : bool) (w : world cbuf * world V) : outcome (world cbuf * world V) :=
  for_up size (fun i w =>
    let '(ow, iw) := w in
    c <- chai_read ow h i 0 ;;
    '(iw1, c1) <- on_handle iw c (fun w k => chai_move 2 w k (Some s) touch) ;;
    ow1 <- chai_write ow h i 0 c1 ;;
    Ok (ow1, iw1)) 0 w.
(** ChaiBuffer.hpp:370-385 moveNested *)
Definition is_last (p : option nat) (s : nat) : bool := match p with Some l => l =? s | None => false end.
Definition move_nested (ow : world cbuf) (iw : world V) (h size : nat) (s : option nat) (touch : bool) : outcome (world cbuf * world V) :=
  c <- aget (w_bufs ow) h ;;
  match s, c_rec c with
  | Some s, Some ri =>
      if c_cap c =? 0 then Ok (ow, iw)
      else
      r <- live (w_recs ow) ri ;;
      let prev := r_last r in
      '(ow1, iw1) <- (if (is_last prev 0 && negb (is_last prev s))%bool then move_inner h size s touch (ow, iw) else Ok (ow, iw)) ;;
      ow2 <- chai_move 2 ow1 h (Some s) touch ;;
      if (is_last prev 1 && negb (is_last prev s))%bool then move_inner h size s touch (ow2, iw1) else Ok (ow2, iw1)
  | _, _ => Ok (ow, iw)
  end.

(** ArrayView.hpp:686-687 *)
Definition n_move (w : nworld) (h : nat) (s : option nat) (touch : bool) : outcome nworld :=
  size <- aget (n_sizes w) h ;;
  '(ow, iw) <- move_nested (n_outer w) (n_inner w) h size s touch ;;
  Ok (mkN ow (n_sizes w) iw).
(** ArrayView.hpp:127-132, ChaiBuffer.hpp:201-214: a shallow copy, moved with its values. *)
Definition n_copy (w : nworld) (h : nat) (es : option nat) : outcome nworld :=
  c <- aget (w_bufs (n_outer w)) h ;;
  size <- aget (n_sizes w) h ;;
  n_move (mkN (push_buf (n_outer w) c) (n_sizes w ++ [size]) (n_inner w)) (length (w_bufs (n_outer w))) es true.
(** ArrayView.hpp:676-677 *)
Definition n_touch (w : nworld) (h s : nat) : outcome nworld :=
  ow <- chai_touch (n_outer w) h s ;; Ok (mkN ow (n_sizes w) (n_inner w)).
(** Array.hpp:494-500, bufferManipulation.hpp:250-259, 297-304: emplace_back of an empty Array. The inner
    arrays are move constructed and destroyed by reallocate, that is, their handles are copied bytewise. *)
Definition n_push (w : nworld) (h : nat) : outcome nworld :=
  c <- aget (w_bufs (n_outer w)) h ;;
  size <- aget (n_sizes w) h ;;
  ow <- (if c_cap c <? size + 1 then chai_reallocate 2 (n_outer w) h size 0 (2 * (size + 1)) else Ok (n_outer w)) ;;
  let iw := chai_new 2 (rebuf [] (n_inner w)) in
  c1 <- aget (w_bufs iw) 0 ;;
  ow1 <- chai_write ow h size 0 c1 ;;
  sizes <- aset (n_sizes w) h (size + 1) ;;
  Ok (mkN ow1 sizes (rebuf [] iw)).
(** h[ i ].resize: ChaiBuffer.hpp:281-313 reallocate of the inner buffer, by host code. *)
Definition n_realloc (w : nworld) (h i size cap : nat) : outcome nworld :=
  c <- chai_read (n_outer w) h i 0 ;;
  '(iw, c1) <- on_handle (n_inner w) c (fun w k => chai_reallocate 2 w k size 0 cap) ;;
  ow <- chai_write (n_outer w) h i 0 c1 ;;
  Ok (mkN ow (n_sizes w) iw).
(** h[ i ][ j ]: ArrayView.hpp:541-549; code running in space s. *)
Definition n_write (w : nworld) (h i j s : nat) (v : V) : outcome nworld :=
  c <- chai_read (n_outer w) h i s ;;
  '(iw, _) <- on_handle (n_inner w) c (fun w k => chai_write w k j s v) ;;
  Ok (mkN (n_outer w) (n_sizes w) iw).
Definition n_read (w : nworld) (h i j s : nat) : outcome V :=
  c <- chai_read (n_outer w) h i s ;;
  chai_read (rebuf [c] (n_inner w)) 0 j s.

Definition n_step (o : nop V) (w : nworld) : outcome (nworld * option V) :=
  let plain m := w1 <- m ;; Ok (w1, None) in
  match o with
  | NCopy h es => plain (n_copy w h es)
  | NMove h s touch => plain (n_move w h s touch)
  | NTouch h s => plain (n_touch w h s)
  | NPush h => plain (n_push w h)
  | NInner h i size cap => plain (n_realloc w h i size cap)
  | NWrite h i j s v => plain (n_write w h i j s v)
  | NRead h i j s => v <- n_read w h i j s ;; Ok (w, Some v)
  end.
Fixpoint n_run (l : list (nop V)) (w : nworld) : outcome (nworld * list V) :=
  match l with
  | [] => Ok (w, [])
  | o :: l' =>
      '(w1, x) <- n_step o w ;;
      '(w2, ys) <- n_run l' w1 ;;
      Ok (w2, match x with Some v => v :: ys | None => ys end)
  end.
(** Array< Array< V > > a; *)
Definition n_start : nworld := mkN (chai_new 2 (empty_world cbuf)) [0] (empty_world V).
End Nested.
