(** Containers made of several ChaiBuffers in two memory spaces.

    A container (ArrayOfArrays, SortedArray, CRSMatrix, ...) has some plain members and k buffers; in the
    model they are the buffers 0, ..., k - 1 of a [world] of Chai.v. Programs call host methods of the
    container, launch kernels which capture a view of it by value, and move or touch the container.

    Simplifications: a host method or a kernel is a function of the plain members and the contents of the
    buffers; it reaches all buffers, also where the code would leave some of them alone. A method which changes the
    capacity of a buffer reallocates it once; the others write to it in place. Values are trivially
    copyable. The buffers of a container are handled in the order of their numbers; they share nothing,
    so that the order of the code does not matter. Space 0 is the host, space 1 the device. *)
From Coq Require Import List Arith Bool.
From Verif Require Import Base Chai.
Import ListNotations.
Set Implicit Arguments.

Section Spaces.
Variable X : Type.   (* what a slot holds *)
Variable N : Type.   (* the plain members *)
Variable O : Type.   (* what a method or a kernel reports *)

(** One list of slots per buffer. *)
Definition contents : Type := list (list (option X)).
Inductive sop : Type :=
(** A host method: the new members, the new contents, which buffers it calls registerTouch( host ) for, its report. *)
| SHost (f : N -> contents -> outcome (N * contents * list bool * O))
(** A kernel run in space [s]; [mut]: which buffers are not const in the captured view. *)
| SKernel (s : nat) (mut : list bool) (g : N -> contents -> outcome (contents * O))
(** Code in space [s] that uses the container itself or a view made outside of kernels; [mut]: which buffers it may write to.
    E.g. ordinary host code with a view, or a device kernel launched without an execution space set. *)
| SDirect (s : nat) (mut : list bool) (g : N -> contents -> outcome (contents * O))
| SMove (s : nat) (touch : bool)
| STouch (s : nat).

(** [dev]: which buffers move( device, true ) touches, e.g. not m_offsets, ArrayOfArraysView.hpp:581-590. *)
Variable dev : list bool.
Notation world := (world X).
Record obj : Type := mkObj { ob_n : N; ob_w : world }.

(** Code running in space [s] reads all slots of buffer [h]. *)
Definition fetch (w : world) (h s : nat) : outcome (list (option X)) :=
  c <- aget (w_bufs w) h ;;
  if c_cap c =? 0 then Ok [] else
  p <- nonnull (c_ptr c) ;;
  b <- live (w_blocks w) p ;;
  _ <- (if k_space b =? s then Ok tt else Fault FDangling) ;;
  Ok (k_data b).
Fixpoint fetch_all (w : world) (hs : list nat) (s : nat) : outcome contents :=
  match hs with [] => Ok [] | h :: hs' => d <- fetch w h s ;; ds <- fetch_all w hs' s ;; Ok (d :: ds) end.
(** ... and writes them. *)
Definition store (w : world) (h s : nat) (d : list (option X)) : outcome world :=
  c <- aget (w_bufs w) h ;;
  _ <- (if c_cap c =? length d then Ok tt else Fault FOob) ;;
  if c_cap c =? 0 then Ok w else
  p <- nonnull (c_ptr c) ;;
  b <- live (w_blocks w) p ;;
  _ <- (if k_space b =? s then Ok tt else Fault FDangling) ;;
  bs <- aset (w_blocks w) p (Some (mkBlock (k_space b) d)) ;;
  Ok (mkWorld bs (w_recs w) (w_bufs w)).

(** A host method leaves [d] in buffer [h]; ChaiBuffer.hpp:281-313, 430-436. The touch only sets flags and nothing
    moves before the method ends, so that it may come before the writes. *)
Definition put_back (w : world) (h : nat) (d : list (option X)) (t : bool) : outcome world :=
  c <- aget (w_bufs w) h ;;
  w1 <- (if c_cap c =? length d then Ok w else chai_reallocate 2 w h 0 0 (length d)) ;;
  w2 <- (if t then chai_touch w1 h 0 else Ok w1) ;;
  store w2 h 0 d.
Fixpoint put_back_all (w : world) (h : nat) (ds : contents) (ts : list bool) : outcome world :=
  match ds, ts with
  | [], [] => Ok w
  | d :: ds', t :: ts' => w1 <- put_back w h d t ;; put_back_all w1 (S h) ds' ts'
  | _, _ => Fault FOob
  end.

(** A view is made outside of a kernel (ChaiBuffer.hpp:183-191 with chai::NONE, or 231-239 if it is const) and then
    copied with the execution space set to [s] (183-191). *)
Definition capture (w : world) (h : nat) (m : bool) (s : nat) : outcome world :=
  w1 <- (if m then chai_copy 2 w h None else chai_const w h) ;;
  chai_copy 2 w1 (length (w_bufs w)) (Some s).
Fixpoint capture_all (w : world) (h : nat) (mut : list bool) (s : nat) : outcome (world * list nat) :=
  match mut with
  | [] => Ok (w, [])
  | m :: mut' =>
      w1 <- capture w h m s ;;
      '(w2, vs) <- capture_all w1 (S h) mut' s ;;
      Ok (w2, length (w_bufs w) + 1 :: vs)
  end.
(** The kernel wrote through the captured buffers [vs]; const ones cannot be written to. *)
Fixpoint kernel_store (w : world) (vs : list nat) (mut : list bool) (s : nat) (ds : contents) : outcome world :=
  match vs, mut, ds with
  | [], [], [] => Ok w
  | v :: vs', m :: mut', d :: ds' =>
      w1 <- (if m then store w v s d else Ok w) ;; kernel_store w1 vs' mut' s ds'
  | _, _, _ => Fault FOob
  end.

(** ArrayOfArraysView.hpp:581-590, CRSMatrixView.hpp:539-543, SortedArrayView.hpp:273-279 move *)
Fixpoint move_all (w : world) (h : nat) (dev : list bool) (s : nat) (touch : bool) : outcome world :=
  match dev with
  | [] => Ok w
  | t :: dev' =>
      w1 <- chai_move 2 w h (Some s) (touch && (t || (s =? 0)))%bool ;;
      move_all w1 (S h) dev' s touch
  end.
(** ArrayOfArraysView.hpp:568-573 registerTouch *)
Fixpoint touch_all (w : world) (h k s : nat) : outcome world :=
  match k with 0 => Ok w | S k' => w1 <- chai_touch w h s ;; touch_all w1 (S h) k' s end.

Definition space_step (o : sop) (x : obj) : outcome (obj * list O) :=
  let k := length dev in
  match o with
  | SHost f =>
      cs <- fetch_all (ob_w x) (seq 0 k) 0 ;;
      '(n, ds, ts, r) <- f (ob_n x) cs ;;
      _ <- (if ((length ds =? k) && (length ts =? k))%bool then Ok tt else Fault FOob) ;;
      w <- put_back_all (ob_w x) 0 ds ts ;;
      Ok (mkObj n w, [r])
  | SKernel s mut g =>
      _ <- (if length mut =? k then Ok tt else Fault FOob) ;;
      '(w1, vs) <- capture_all (ob_w x) 0 mut s ;;
      cs <- fetch_all w1 vs s ;;
      '(ds, r) <- g (ob_n x) cs ;;
      w2 <- kernel_store w1 vs mut s ds ;;
      Ok (mkObj (ob_n x) w2, [r])
  | SDirect s mut g =>
      _ <- (if length mut =? k then Ok tt else Fault FOob) ;;
      cs <- fetch_all (ob_w x) (seq 0 k) s ;;
      '(ds, r) <- g (ob_n x) cs ;;
      w <- kernel_store (ob_w x) (seq 0 k) mut s ds ;;
      Ok (mkObj (ob_n x) w, [r])
  | SMove s touch => w <- move_all (ob_w x) 0 dev s touch ;; Ok (mkObj (ob_n x) w, [])
  | STouch s => w <- touch_all (ob_w x) 0 k s ;; Ok (mkObj (ob_n x) w, [])
  end.
Fixpoint space_run (l : list sop) (x : obj) : outcome (obj * list O) :=
  match l with
  | [] => Ok (x, [])
  | o :: l' =>
      '(x1, r) <- space_step o x ;;
      '(x2, rs) <- space_run l' x1 ;;
      Ok (x2, r ++ rs)
  end.
(** k buffers made by ChaiBuffer( true ) *)
Fixpoint new_bufs (k : nat) (w : world) : world := match k with 0 => w | S k' => new_bufs k' (chai_new 2 w) end.
Definition new_obj (n : N) : obj := mkObj n (new_bufs (length dev) (empty_world X)).
End Spaces.
Arguments SMove {X N O}. Arguments STouch {X N O}.
