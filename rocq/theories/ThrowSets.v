(** What happens to an ArrayOfSets when an exception leaves one of its methods. As in ThrowSorted.v: the copies of
    elements made from arguments throw once the budget [n] is used up; moves, destructors, comparisons and operations
    on integers do not throw. *)
From Coq Require Import List Arith ZArith Lia Bool.
From Verif Require Import Base Mem BufferManip AoA Sorted AoS Throw ThrowAoA ThrowSorted.
Import ListNotations.
Set Implicit Arguments.

Section XImpl.
Variable V W : Type.
Variable chk tv : bool.
Variable lt eqb : V -> V -> bool.
Notation aoa := (aoa V W).
Notation X := (aoa * nat)%type.
Variable cb : xcallbacks V X.
(** The container the callbacks refer to, with the values sortedArrayManipulation works on *)
Definition put_back (t : buf V * X) : aoa := set_vals (fst t) (fst (snd t)).

(** ArrayOfSetsView.hpp:364-375 insertIntoSetImpl: the size is stored last. *)
Definition x_insertIntoSetImpl (n : nat) (a : aoa) (e i : nat) (v : V) : xout (aoa * bool) aoa :=
  let! n1 sp <~ xlift n a (_ <- check_array chk a i ;; s <- sizeOfArray chk a i ;; p <- getSetValues chk a i ;; Ok (s, p)) ;;
  let! n2 r <~ xleft put_back (x_insert1 chk tv lt eqb cb n1 (vals a) (a, e) (snd sp) (fst sp) v) ;;
  let '(b, x, success) := r in
  let a1 := set_vals b (fst x) in
  xlift n2 a1 (s <- size_ a1 i ;; a2 <- put_size a1 i (s + if success : bool then 1 else 0) ;; Ok (a2, success)).
(** 389-407 insertIntoSetImpl( first, last ) *)
Definition x_insertsIntoSetImpl (n : nat) (a : aoa) (e i : nat) (vs : list V) : xout (aoa * nat) aoa :=
  let! n1 sp <~ xlift n a (_ <- check_array chk a i ;; s <- sizeOfArray chk a i ;; p <- getSetValues chk a i ;; Ok (s, p)) ;;
  let! n2 r <~ xleft put_back (x_inserts chk tv lt eqb cb n1 (vals a) (a, e) (snd sp) (fst sp) vs) ;;
  let '(b, x, nInserted) := r in
  let a1 := set_vals b (fst x) in
  xlift n2 a1 (s <- size_ a1 i ;; a2 <- put_size a1 i (s + nInserted) ;; Ok (a2, nInserted)).
End XImpl.

Section XAoS.
Variable V : Type.
Variable chk tv : bool.
Variable lt eqb : V -> V -> bool.
Variable dflt : V.
Notation aoa := (aoa V unit).
Notation kind := BMalloc.

(** ArrayOfSets.hpp:378, 392 insertIntoSet *)
Definition x_insertIntoSet n (a : aoa) (i : nat) (v : V) :=
  x_insertIntoSetImpl chk tv lt eqb (still (aos_cb V unit chk tv true false kind i)) n a 0 i v.
Definition x_insertsIntoSet n (a : aoa) (i : nat) (vs : list V) :=
  x_insertsIntoSetImpl chk tv lt eqb (still (aos_cb V unit chk tv true false kind i)) n a 0 i vs.
(** ArrayOfSetsView.hpp:261-285 *)
Definition x_v_insertIntoSet n (a : aoa) (i : nat) (v : V) :=
  x_insertIntoSetImpl chk tv lt eqb (still (view_cb V unit chk i)) n a 0 i v.
Definition x_v_insertsIntoSet n (a : aoa) (i : nat) (vs : list V) :=
  x_insertsIntoSetImpl chk tv lt eqb (still (view_cb V unit chk i)) n a 0 i vs.

(** The remaining methods build no elements from arguments; ArrayOfSets.hpp:423 clearSet resizes to 0. *)
Definition x_tstep (n : nat) (c : tcall V) (a : aoa) : xout (aoa * nat) aoa :=
  match c with
  | TInsert i v => let! n1 r <~ x_insertIntoSet n a i v ;; XOk n1 (fst r, flag (snd r))
  | TInserts i vs => x_insertsIntoSet n a i vs
  | _ => xlift n a (tstep chk tv true false kind lt eqb dflt c a)
  end.

(** A program that catches every exception: it stops at the first object whose destructor would not work. *)
Fixpoint x_trun (h : list (nat * tcall V)) (a : aoa) : outcome aoa :=
  match h with
  | [] => Ok a
  | (n, c) :: h' =>
      match x_tstep n c a with
      | XOk _ r => x_trun h' (fst r)
      | XThrow _ t => match aoa_dtor chk tv true false kind t with Ok _ => x_trun h' t | _ => Ok t end
      | XFault f => Fault f
      end
  end.
End XAoS.
