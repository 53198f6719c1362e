(** Model of ArrayOfArraysView::emplaceBackAtomic called by many threads. *)
From Coq Require Import List Arith Bool.
From Verif Require Import Base Mem AoA Conc.
From Verif Require ArrayManip.
Import ListNotations.
Set Implicit Arguments.

Section Atomic.
Variables V W : Type.
Variables chk tv : bool.
Notation aoa := (aoa V W).

(** Where a thread is within ArrayOfArraysView.hpp:462-472: before the call, after 466 (the pointer is known),
    after 467 (previousSize is known). *)
Inductive place_in : Type :=
| Outside
| HasPtr (i : nat) (v : V) (ptr : nat)
| HasSlot (i : nat) (v : V) (ptr previousSize : nat).
(** A thread: its place and the calls ( i, value ) still to be made. *)
Notation athread := (place_in * list (nat * V))%type.

(** One step of a thread. 464-466: m_numArrays and m_offsets are not written by any of the threads;
    467 RAJA::atomicInc adds one to m_sizes[ i ] and returns the value before, in one step;
    468 ARRAYOFARRAYS_ATOMIC_CAPACITY_CHECK (103-108); 470 placement new. *)
Definition emplace_step (a : aoa) (t : athread) : outcome (aoa * athread) :=
  match t with
  | (Outside, []) => Ok (a, t)
  | (Outside, (i, v) :: q) =>
      _ <- check_array chk a i ;; o <- offset a i ;; Ok (a, (HasPtr i v o, q))
  | (HasPtr i v o, q) =>
      s <- size_ a i ;; a' <- put_size a i (s + 1) ;; Ok (a', (HasSlot i v o s, q))
  | (HasSlot i v o s, q) =>
      _ <- (if chk then c <- capacityOfArray chk a i ;; error_if (c <? s + 1) else Ok tt) ;;
      b <- ArrayManip.emplaceBack tv (vals a) o s v ;;
      Ok (set_vals b a, (Outside, q))
  end.
Definition start (calls : list (list (nat * V))) : list athread := map (fun q => (Outside, q)) calls.
Definition finished (ths : list athread) : Prop := Forall (fun t => t = (Outside, [])) ths.
End Atomic.
Arguments Outside {V}.
