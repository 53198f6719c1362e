(** Outcomes, counted loops and list updates shared by the whole model.

    [Ok x]   : the C++ function returned normally.
    [Abort]  : an LVARRAY_ERROR* macro fired (src/Macros.hpp:84-140, which ends in
               LvArray::system::callErrorHandler, by default std::abort).
    [Fault r]: undefined behaviour; [r] records which rule was broken. *)
From Coq Require Import List Arith ZArith Lia Bool.
Import ListNotations.
Set Implicit Arguments.

Inductive fault : Type :=
| FOob        (* access outside the allocation (includes null pointers) *)
| FRead       (* read of a slot which holds no value *)
| FMove       (* std::move out of a slot which holds no object *)
| FDestroy    (* destructor call on a slot which holds no object *)
| FOver       (* placement new on top of a live value (leaks it) *)
| FAssign     (* assignment to a slot which holds no object *)
| FLeak       (* storage released while it still holds objects *)
| FDangling   (* use of a reference into storage that has been released *)
| FOverflow   (* signed overflow of machine arithmetic *)
| FFuel.      (* model artefact: iteration budget exhausted; excluded by theorems *)

Inductive outcome (A : Type) : Type :=
| Ok (a : A)
| Abort
| Fault (f : fault).
Arguments Ok {A} a.
Arguments Abort {A}.
Arguments Fault {A} f.

Definition bind {A B} (m : outcome A) (k : A -> outcome B) : outcome B :=
  match m with
  | Ok a => k a
  | Abort => Abort
  | Fault f => Fault f
  end.

Notation "x <- m ;; k" := (bind m (fun x => k))
  (at level 61, m at next level, right associativity).
Notation "' p <- m ;; k" := (bind m (fun x => match x with p => k end))
  (at level 61, p pattern, m at next level, right associativity).

(** LVARRAY_ERROR_IF( c ): src/Macros.hpp:112. *)
Definition error_if (c : bool) : outcome unit := if c then Abort else Ok tt.

(** A check compiled only under LVARRAY_BOUNDS_CHECK. *)
Definition check_if (chk c : bool) : outcome unit := if (chk && c)%bool then Abort else Ok tt.

(** [for( i = i0; i < i0 + n; ++i ) s = f( i, s )] *)
Fixpoint for_up {S} (n : nat) (f : nat -> S -> outcome S) (i : nat) (s : S) : outcome S :=
  match n with
  | O => Ok s
  | Datatypes.S n' => s' <- f i s ;; for_up n' f (i + 1) s'
  end.

(** [for( i = n - 1; i >= 0; --i ) s = f( i, s )] *)
Fixpoint for_down {S} (n : nat) (f : nat -> S -> outcome S) (s : S) : outcome S :=
  match n with
  | O => Ok s
  | Datatypes.S n' => s' <- f n' s ;; for_down n' f s'
  end.

(** Pointer subtraction that stays inside the allocation. *)
Definition sub_ix (a b : nat) : outcome nat := if b <=? a then Ok (a - b) else Fault FOob.

(** A signed index used for pointer arithmetic: negative means outside. *)
Definition to_ix (z : Z) : outcome nat := if (z <? 0)%Z then Fault FOob else Ok (Z.to_nat z).

(** [l] with position [i] replaced. *)
Fixpoint upd {A} (l : list A) (i : nat) (x : A) : list A :=
  match l, i with
  | [], _ => []
  | _ :: t, O => x :: t
  | h :: t, S i' => h :: upd t i' x
  end.

(** Array read and write with the bounds rule. *)
Definition aget {A} (l : list A) (i : nat) : outcome A :=
  match nth_error l i with Some x => Ok x | None => Fault FOob end.
Definition aset {A} (l : list A) (i : nat) (x : A) : outcome (list A) :=
  if i <? length l then Ok (upd l i x) else Fault FOob.
