(** What an exception may leave of an array of arrays, on vectors of vectors. Nothing here mentions offsets,
    buffers or memory. *)
From Coq Require Import List Arith Bool.
From Verif Require Import AoA AoASpec.
Import ListNotations.
Set Implicit Arguments.
Unset Strict Implicit.

(** The object left behind can be used and destroyed; its destructor forgets objects; its destructor destroys
    places that hold none. *)
Inductive state_left : Type := Usable | Forgets | Corrupt.

Section Spec.
Variable V : Type.
Variable dflt : V.
Notation row M i := (nth i M []).

(** Operations on elements that may throw: the elements built from arguments and the elements assigned. *)
Definition acost (c : acall V) (M : list (list V)) : nat :=
  match c with
  | AEmplaceBack _ _ | AEmplace _ _ _ | ASet _ _ _ => 1
  | AAppendFrom vs | AInsertArray _ vs | AAppendTo _ vs | AInsertInto _ _ vs => length vs
  | AAppend m => m
  | AResizeArray i m _ => m - length (row M i)
  | _ => 0
  end.

(** The state when [n] of these succeed and the next one throws. *)
Definition aleft (c : acall V) (M : list (list V)) (n : nat) : state_left :=
  match c with
  | AEmplace i j _ => if j =? length (row M i) then Usable else Corrupt
  | AInsertInto i j _ =>
      if j + n <? length (row M i) then Corrupt
      else if ((j =? length (row M i)) && (n =? 0))%bool then Usable else Forgets
  | AAppendFrom _ | AInsertArray _ _ | AAppendTo _ _ | AAppend _ | AResizeArray _ _ _ =>
      if n =? 0 then Usable else Forgets
  | _ => Usable
  end.

(** The contents shown then. A new array is there, empty; an insertion which filled its gap shows the beginning
    of the inserted values in place of the last elements. *)
Definition acontents (c : acall V) (M : list (list V)) (n : nat) : list (list V) :=
  match c with
  | AAppend _ | AAppendFrom _ => M ++ [[]]
  | AInsertArray i _ => insert_at M i []
  | AInsertInto i j vs => put_at M i (firstn (length (row M i)) (firstn j (row M i) ++ firstn n vs))
  | _ => M
  end.

(** The place where an insertion begins. *)
Definition gap_at (c : acall V) : nat * nat :=
  match c with AEmplace i j _ | AInsertInto i j _ => (i, j) | _ => (0, 0) end.

(** A program that catches: the calls with the budget of each. It goes on as long as the object is usable. *)
Fixpoint afate (h : list (nat * acall V)) (M : list (list V)) : option (list (list V) * state_left) :=
  match h with
  | [] => Some (M, Usable)
  | (n, c) :: h' =>
      match vec_step dflt c M with
      | None => None
      | Some M' =>
          if acost c M <=? n then afate h' M'
          else match aleft c M n with
               | Usable => afate h' (acontents c M n)
               | s => Some (acontents c M n, s)
               end
      end
  end.
(** Whether the arrays had no unused capacity before every call. *)
Fixpoint afull (h : list (nat * acall V)) (M : list (list V)) (K : list nat) : bool :=
  match h with
  | [] => true
  | (n, c) :: h' =>
      (full M K && match vec_step dflt c M with
                   | None => true
                   | Some M' => afull h' (if acost c M <=? n then M' else acontents c M n) (cap_step c M K)
                   end)%bool
  end.
End Spec.
