(** Model of src/SortedArray.hpp and src/SortedArrayView.hpp: a buffer and m_size. *)
From Coq Require Import List Arith ZArith Lia Bool.
From Verif Require Import Base Mem BufferManip Sorted.
Import ListNotations.
Set Implicit Arguments.

Record sarray (V : Type) : Type := mkS { s_buf : buf V; s_size : nat }.

Section SArr.
Variable V : Type.
(** [chk]: LVARRAY_BOUNDS_CHECK, [triv]: T trivial, [kind]: the buffer class, [lt], [eqb]: operator< and == *)
Variable chk triv : bool.
Variable kind : bkind.
Variable lt eqb : V -> V -> bool.
(** the value T() used by resize in clear; never constructed there since the size only shrinks *)
Variable dflt : V.
Notation sarray := (sarray V).

(** SortedArray.hpp:67 default constructor *)
Definition new_s : sarray := mkS (empty_buf V kind) 0.
(** SortedArray.hpp:92 destructor *)
Definition s_dtor (a : sarray) : outcome unit :=
  b <- free chk triv kind (s_buf a) (s_size a) ;; Ok tt.

(** SortedArray.hpp:346-383 CallBacks: incrementSize is dynamicReserve and returns m_buffer.data(); the
    notifications are the no-ops inherited from sortedArrayManipulation.hpp:96-157. *)
Definition s_cb (size : nat) : callbacks V unit :=
  mkCB (fun nToAdd st => b' <- dynamicReserve chk triv kind (fst st) size (size + nToAdd) ;; Ok (b', tt, 0))
       (fun _ x => Ok x).

(** SortedArray.hpp:223-231 insert *)
Definition s_insert (a : sarray) (v : V) : outcome (sarray * bool) :=
  '(b, _, success) <- insert chk triv lt eqb (s_cb (s_size a)) (s_buf a) tt 0 (s_size a) v ;;
  Ok (mkS b (s_size a + if success : bool then 1 else 0), success).
(** SortedArray.hpp:241-251 insert( first, last ) *)
Definition s_inserts (a : sarray) (vs : list V) : outcome (sarray * nat) :=
  '(b, _, nInserted) <- inserts chk triv lt eqb (s_cb (s_size a)) (s_buf a) tt 0 (s_size a) vs ;;
  Ok (mkS b (s_size a + nInserted), nInserted).
(** SortedArray.hpp:259-267 remove *)
Definition s_remove (a : sarray) (v : V) : outcome (sarray * bool) :=
  '(b, _, success) <- remove chk triv lt eqb (s_cb (s_size a)) (s_buf a) tt 0 (s_size a) v ;;
  Ok (mkS b (s_size a - if success : bool then 1 else 0), success).
(** SortedArray.hpp:277-287 remove( first, last ); m_size may not become negative. *)
Definition s_removes (a : sarray) (vs : list V) : outcome (sarray * nat) :=
  '(b, _, nRemoved) <- removes chk triv lt eqb (s_cb (s_size a)) (s_buf a) tt 0 (s_size a) vs ;;
  n <- sub_ix (s_size a) nRemoved ;;
  Ok (mkS b n, nRemoved).
(** SortedArray.hpp:300-304 clear *)
Definition s_clear (a : sarray) : outcome sarray :=
  b <- resize chk triv kind (s_buf a) (s_size a) 0 dflt ;; Ok (mkS b 0).
(** SortedArray.hpp:311 reserve; a negative argument is never more than the capacity *)
Definition s_reserve (a : sarray) (n : Z) : outcome sarray :=
  b <- reserve chk triv kind (s_buf a) (s_size a) (Z.to_nat n) ;; Ok (mkS b (s_size a)).

(** SortedArrayView.hpp:196 contains, 205 count *)
Definition s_contains (a : sarray) (v : V) : outcome bool := contains lt eqb (s_buf a) 0 (s_size a) v.
(** SortedArrayView.hpp operator[]: the bounds check of SORTEDARRAY_CHECK_BOUNDS (lines 27, 220), then m_values[ i ] *)
Definition s_at (a : sarray) (i : Z) : outcome V :=
  _ <- check_if chk ((i <? 0) || (Z.of_nat (s_size a) <=? i))%Z ;;
  k <- to_ix i ;; rd (s_buf a) k.

(** One call; the result is the returned count, a bool counting as 0 or 1 and void as 0. *)
Inductive scall : Type :=
| SInsert (v : V) | SInsertRange (vs : list V) | SRemove (v : V) | SRemoveRange (vs : list V)
| SClear | SReserve (n : Z).
Definition flag (b : bool) : nat := if b then 1 else 0.
Definition sstep (c : scall) (a : sarray) : outcome (sarray * nat) :=
  match c with
  | SInsert v => '(a', r) <- s_insert a v ;; Ok (a', flag r)
  | SInsertRange vs => s_inserts a vs
  | SRemove v => '(a', r) <- s_remove a v ;; Ok (a', flag r)
  | SRemoveRange vs => s_removes a vs
  | SClear => a' <- s_clear a ;; Ok (a', 0)
  | SReserve n => a' <- s_reserve a n ;; Ok (a', 0)
  end.
Fixpoint srun (h : list scall) (a : sarray) : outcome (sarray * list nat) :=
  match h with
  | [] => Ok (a, [])
  | c :: h' => '(a', r) <- sstep c a ;; '(a2, rs) <- srun h' a' ;; Ok (a2, r :: rs)
  end.
End SArr.
Arguments SClear {V}.
Arguments SReserve {V} n.
