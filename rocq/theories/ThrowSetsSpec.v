(** What an exception may leave of a vector of sets, the sets given by their increasing lists. Nothing here mentions
    offsets, buffers or memory. *)
From Coq Require Import List Arith ZArith Bool.
From Verif Require Import SortedSpec SortedArray AoASpec AoS AoSSpec ThrowAoASpec ThrowSortedSpec.
Import ListNotations.
Set Implicit Arguments.
Unset Strict Implicit.

Section Spec.
Variable V : Type.
Variable lt eqb : V -> V -> bool.

(** A call which concerns the elements of one set *)
Definition on_set (c : tcall V) : option (nat * scall V) :=
  match c with
  | TInsert i v => Some (i, SInsert v)
  | TInserts i vs => Some (i, SInsertRange vs)
  | TRemove i v => Some (i, SRemove v)
  | TRemoves i vs => Some (i, SRemoveRange vs)
  | TClear i => Some (i, SClear)
  | _ => None
  end.
Definition sets_after (c : tcall V) (M : list (list V)) : option (list (list V)) :=
  match on_set c with
  | Some (i, s) => on_elem M i (contents_after lt eqb s)
  | None =>
      match c with
      | TResize n _ => Some (resized_to M n [])
      | TResizeFromCapacities caps => Some (map (fun _ => []) caps)
      | TAppendSet _ => Some (M ++ [[]])
      | TInsertSet i _ => if i <=? length M then Some (insert_at M i []) else None
      | TEraseSet i => if i <? length M then Some (remove_at M i) else None
      | TSetCapacity i c => on_elem M i (firstn c)
      | TReserveCapacity i _ => on_elem M i (fun l => l)
      | _ => Some M
      end
  end.

(** How many values have to be built, the state when [n] of them are, and where the gap is then. *)
Definition tcost (c : tcall V) (M : list (list V)) : nat :=
  match on_set c with Some (i, s) => scost eqb s (nth i M []) | None => 0 end.
Definition tleft (c : tcall V) (M : list (list V)) (n : nat) : state_left :=
  match on_set c with Some (i, s) => sleft lt eqb s (nth i M []) n | None => Usable end.
Definition tgap (c : tcall V) (M : list (list V)) (n : nat) : nat * nat :=
  match on_set c with
  | Some (i, s) => match nth_error (rev (asked eqb s (nth i M []))) n with
                   | Some v => (i, number_less lt (nth i M []) v)
                   | None => (0, 0)
                   end
  | None => (0, 0)
  end.

(** A program that catches: it goes on as long as the object is usable, with the elements from before the call. *)
Fixpoint tfate (h : list (nat * tcall V)) (M : list (list V)) : option (list (list V) * state_left) :=
  match h with
  | [] => Some (M, Usable)
  | (n, c) :: h' =>
      match sets_after c M with
      | None => None
      | Some M' =>
          if tcost c M <=? n then tfate h' M'
          else match tleft c M n with Usable => tfate h' M | s => Some (M, s) end
      end
  end.
End Spec.

(** A history without exceptions *)
Fixpoint sets_run {V} (lt eqb : V -> V -> bool) (h : list (tcall V)) (M : list (list V)) : option (list (list V)) :=
  match h with [] => Some M | c :: h' => match sets_after lt eqb c M with Some M' => sets_run lt eqb h' M' | None => None end end.
