(** What an exception may leave of a sorted set: specification on increasing lists. Nothing here mentions buffers. *)
From Coq Require Import List Arith ZArith Bool.
From Verif Require Import SortedSpec SortedArray ThrowAoASpec.
Import ListNotations.
Set Implicit Arguments.
Unset Strict Implicit.

Section Spec.
Variable V : Type.
Variable lt eqb : V -> V -> bool.

Definition among (l : list V) (v : V) : bool := existsb (eqb v) l.
(** The increasing list with one more value *)
Definition put (v : V) (l : list V) : list V := filter (fun x => lt x v) l ++ v :: filter (fun x => lt v x) l.
Definition contents_after (c : scall V) (l : list V) : list V :=
  match c with
  | SInsert v => put v l
  | SInsertRange vs => fold_right put l vs
  | SRemove v => filter (fun x => negb (eqb x v)) l
  | SRemoveRange vs => filter (fun x => negb (among vs x)) l
  | SClear => []
  | SReserve _ => l
  end.

(** The values of a range which have to be built. *)
Definition new_values (vs l : list V) : list V := filter (fun v => negb (among l v)) vs.
Definition asked (c : scall V) (l : list V) : list V :=
  match c with SInsert v => new_values [v] l | SInsertRange vs => new_values vs l | _ => [] end.
Definition scost (c : scall V) (l : list V) : nat := length (asked c l).

(** The state when [n] of them have been built, the greatest first, and the next construction throws: values which
    belong behind all elements leave these alone, any other has its gap opened. *)
Definition sleft (c : scall V) (l : list V) (n : nat) : state_left :=
  match nth_error (rev (asked c l)) n with
  | None => Usable
  | Some v => if number_less lt l v <? length l then Corrupt else if n =? 0 then Usable else Forgets
  end.

(** A program that catches: it goes on as long as the object is usable, with the elements from before the call. *)
Fixpoint sfate (h : list (nat * scall V)) (l : list V) : list V * state_left :=
  match h with
  | [] => (l, Usable)
  | (n, c) :: h' =>
      if scost c l <=? n then sfate h' (contents_after c l)
      else match sleft c l n with Usable => sfate h' l | s => (l, s) end
  end.
End Spec.
