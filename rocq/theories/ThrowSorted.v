(** What happens to a SortedArray when an exception leaves one of its methods. As in Throw.v: the copies of
    elements made from arguments and the assignments to elements throw once the budget [n] is used up. Moves,
    destructors and comparisons do not throw. *)
From Coq Require Import List Arith ZArith Lia Bool.
From Verif Require Import Base Mem BufferManip Sorted SortedArray Throw.
From Verif Require ArrayManip.
Import ListNotations.
Set Implicit Arguments.

(** The callbacks of Sorted.v. incrementSize only moves elements; a notification may build an element. *)
Record xcallbacks (V X : Type) : Type := mkXCB {
  xcb_inc : nat -> buf V * X -> outcome (buf V * X * nat);
  xcb_ev : nat -> event -> X -> xout X X
}.

Section XSorted.
Variable V X : Type.
Variable chk triv : bool.
Variable lt eqb : V -> V -> bool.
Variable cb : xcallbacks V X.
Notation buf := (buf V).
(** Both the buffer and the state of the callbacks are left behind. *)
Notation xs A := (xout A (buf * X)).

(** sortedArrayManipulation.hpp:618-656 insert (one value) *)
Definition x_insert1 (n : nat) (b : buf) (x : X) (p size : nat) (value : V) : xs (buf * X * bool) :=
  let! n1 insertPos <~ xlift n (b, x) (insert_pos lt b p size value) ;;
  let! n2 present <~ xlift n1 (b, x) (if insertPos =? size then Ok false else y <- rd b (p + insertPos) ;; Ok (eqb y value)) ;;
  if present : bool then
    xlift n2 (b, x) ('(b', x', _) <- xcb_inc cb 0 (b, x) ;; Ok (b', x', false))
  else
    let! n3 r <~ xlift n2 (b, x) (xcb_inc cb 1 (b, x)) ;;
    let '(b1, x1, newPtr) := r in
    let! n4 b2 <~ xleft (fun b => (b, x1)) (x_am_emplace chk triv n3 b1 newPtr size insertPos value) ;;
    let! n5 x2 <~ xleft (fun x => (b2, x)) (xcb_ev cb n4 (EInsert insertPos) x1) ;;
    XOk n5 (b2, x2, true).

(** The loop of sortedArrayManipulation.hpp:697-702 *)
Fixpoint x_set_loop (n : nat) (b : buf) (x : X) (p k : nat) (vs : list V) : xs (buf * X * nat) :=
  match vs with
  | [] => XOk n (b, x, k)
  | v :: vs' =>
      let! n1 b' <~ xleft (fun b => (b, x)) (x_construct triv n b (p + k) v) ;;
      let! n2 x' <~ xleft (fun x => (b', x)) (xcb_ev cb n1 (ESet k k) x) ;;
      x_set_loop n2 b' x' p (k + 1) vs'
  end.

(** The loop of sortedArrayManipulation.hpp:737-755 *)
Fixpoint x_insert_loop (n : nat) (b : buf) (x : X) (p ub nLeft : nat) (rvs : list V) : xs (buf * X) :=
  match rvs with
  | [] => XOk n (b, x)
  | v :: rvs' =>
      let! n1 pos <~ xlift n (b, x) (find lt b p ub v) ;;
      let! n2 present <~ xlift n1 (b, x) (if pos =? ub then Ok false else y <- rd b (p + pos) ;; Ok (eqb y v)) ;;
      if present : bool then x_insert_loop n2 b x p ub nLeft rvs' else
      let! n3 b1 <~ xlift n2 (b, x) (ArrayManip.shiftUp chk triv b p ub pos nLeft) ;;
      let! n4 d <~ xlift n3 (b1, x) (sub_ix (p + pos + nLeft) 1) ;;
      let! n5 b2 <~ xleft (fun b => (b, x)) (x_construct triv n4 b1 d v) ;;
      let! n6 x' <~ xleft (fun x => (b2, x)) (xcb_ev cb n5 (EInsertN nLeft (length rvs') pos ub) x) ;;
      x_insert_loop n6 b2 x' p pos (nLeft - 1) rvs'
  end.

(** sortedArrayManipulation.hpp:674-758 insert (sorted range of values) *)
Definition x_inserts (n : nat) (b : buf) (x : X) (p size : nat) (vs : list V) : xs (buf * X * nat) :=
  if size =? 0 then
    let! n1 r <~ xlift n (b, x) (xcb_inc cb (length vs) (b, x)) ;;
    let '(b1, x1, newPtr) := r in x_set_loop n1 b1 x1 newPtr 0 vs
  else
    let! n1 nToInsert <~ xlift n (b, x) (count_loop lt eqb b p size size 0 (rev vs)) ;;
    let! n2 r <~ xlift n1 (b, x) (xcb_inc cb nToInsert (b, x)) ;;
    let '(b1, x1, newPtr) := r in
    if nToInsert =? 0 then XOk n2 (b1, x1, 0) else
    let! n3 r2 <~ x_insert_loop n2 b1 x1 newPtr size nToInsert (rev vs) ;;
    XOk n3 (fst r2, snd r2, nToInsert).
End XSorted.

(** Callbacks whose notifications do nothing *)
Definition still {V X} (cb : callbacks V X) : xcallbacks V X := mkXCB (cb_inc cb) (fun n _ x => XOk n x).

Section XSArr.
Variable V : Type.
Variable chk triv : bool.
Variable lt eqb : V -> V -> bool.
Variable dflt : V.
Notation kind := BMalloc.
Notation sarray := (sarray V).

(** SortedArray.hpp:223-231, 241-251 insert: m_size is stored last. *)
Definition x_s_insert (n : nat) (a : sarray) (v : V) : xout (sarray * nat) sarray :=
  let! n1 r <~ xleft (fun t => mkS (fst t) (s_size a))
      (x_insert1 chk triv lt eqb (still (s_cb V chk triv kind (s_size a))) n (s_buf a) tt 0 (s_size a) v) ;;
  let '(b, _, success) := r in XOk n1 (mkS b (s_size a + flag success), flag success).
Definition x_s_inserts (n : nat) (a : sarray) (vs : list V) : xout (sarray * nat) sarray :=
  let! n1 r <~ xleft (fun t => mkS (fst t) (s_size a))
      (x_inserts chk triv lt eqb (still (s_cb V chk triv kind (s_size a))) n (s_buf a) tt 0 (s_size a) vs) ;;
  let '(b, _, nInserted) := r in XOk n1 (mkS b (s_size a + nInserted), nInserted).
(** The remaining methods build no elements from arguments. *)
Definition x_sstep (n : nat) (c : scall V) (a : sarray) : xout (sarray * nat) sarray :=
  match c with
  | SInsert v => x_s_insert n a v
  | SInsertRange vs => x_s_inserts n a vs
  | _ => xlift n a (sstep chk triv kind lt eqb dflt c a)
  end.

(** A program that catches every exception: it stops at the first object whose destructor would not work. *)
Fixpoint x_srun (h : list (nat * scall V)) (a : sarray) : outcome sarray :=
  match h with
  | [] => Ok a
  | (n, c) :: h' =>
      match x_sstep n c a with
      | XOk _ r => x_srun h' (fst r)
      | XThrow _ t => match s_dtor chk triv kind t with Ok _ => x_srun h' t | _ => Ok t end
      | XFault f => Fault f
      end
  end.

(** SortedArray.hpp:100-106 operator=: the elements are copied, then m_size is stored. *)
Definition x_s_assign (n : nat) (a src : sarray) : xout sarray sarray :=
  let! n1 b <~ xleft (fun b => mkS b (s_size a))
      (x_copyInto chk triv kind n (s_buf a) (s_size a) (s_buf src) (s_size src) dflt) ;;
  XOk n1 (mkS b (s_size src)).
(** SortedArray.hpp:76-79 the copy constructor does not delegate: when its body throws, the destructor (92) does
    not run, and those of the base class and of the buffer free nothing. *)
Definition x_s_copy_ctor (n : nat) (src : sarray) : xout sarray sarray := x_s_assign n (new_s V kind) src.
End XSArr.
