(** What the calls on an ArrayOfSets mean for a vector of mathematical sets (predicates on values). *)
From Coq Require Import List Arith Permutation.
From Verif Require Import Base Mem SortedSpec SortedArraySpec AoASpec AoS.
Import ListNotations.
Set Implicit Arguments.
Unset Strict Implicit.

(** Change element [i], which must exist, with [f]. *)
Definition on_elem {X} (M : list X) (i : nat) (f : X -> X) : option (list X) :=
  match nth_error M i with Some x => Some (put_at M i (f x)) | None => None end.
Definition none {X} : X -> Prop := fun _ => False.
(** The elements of [S] with fewer than [c] smaller ones. *)
Definition smallest {X} (less : X -> X -> Prop) (c : nat) (S : X -> Prop) : X -> Prop :=
  fun x => S x /\ exists n, n < c /\ cardinal (fun y => S y /\ less y x) n.

Section Spec.
Variable V : Type.
Variable lt : V -> V -> bool.

(** Ranges have to be sorted and unique (ArrayOfSets.hpp:383, 405). *)
Definition tallowed (c : tcall V) : Prop :=
  match c with TInserts _ vs | TRemoves _ vs => increasing lt vs | _ => True end.

(** vector<set<V>>; [None] when an index is out of range. *)
Definition set_step (c : tcall V) (M : list (V -> Prop)) : option (list (V -> Prop)) :=
  match c with
  | TResize n _ => Some (resized_to M n none)
  | TResizeFromCapacities caps => Some (map (fun _ => none) caps)
  | TReserve _ | TReserveValues _ | TCompress => Some M
  | TAppendSet _ => Some (M ++ [none])
  | TInsertSet i _ => if i <=? length M then Some (insert_at M i none) else None
  | TEraseSet i => if i <? length M then Some (remove_at M i) else None
  | TInsert i v => on_elem M i (fun S x => x = v \/ S x)
  | TInserts i vs => on_elem M i (fun S x => In x vs \/ S x)
  | TRemove i v => on_elem M i (fun S x => S x /\ x <> v)
  | TRemoves i vs => on_elem M i (fun S x => S x /\ ~ In x vs)
  | TClear i => on_elem M i (fun _ => none)
  | TSetCapacity i c => on_elem M i (smallest (fun y x => lt y x = true) c)
  | TReserveCapacity i _ => on_elem M i (fun S => S)
  end.
Fixpoint set_run (h : list (tcall V)) (M : list (V -> Prop)) : option (list (V -> Prop)) :=
  match h with [] => Some M | c :: h' => match set_step c M with Some M' => set_run h' M' | None => None end end.

(** The value [r] returned by the call [c] which turns [M] into [M']: by how many elements the set grows or
    shrinks. *)
Definition treturns (c : tcall V) (M M' : list (V -> Prop)) (r : nat) : Prop :=
  match c with
  | TInsert i _ | TInserts i _ => forall S S' n n', nth_error M i = Some S -> nth_error M' i = Some S' ->
      cardinal S n -> cardinal S' n' -> n' = n + r
  | TRemove i _ | TRemoves i _ => forall S S' n n', nth_error M i = Some S -> nth_error M' i = Some S' ->
      cardinal S n -> cardinal S' n' -> n = n' + r
  | _ => r = 0
  end.
End Spec.

(** What std::sort is trusted to do: sort the [length l] values at [length p], and touch nothing else. *)
Definition sorts {V} (lt : V -> V -> bool) (sort : buf V -> nat -> nat -> outcome (buf V)) : Prop :=
  forall (p s : buf V) l, exists l', sort (p ++ map Obj l ++ s) (length p) (length l) = Ok (p ++ map Obj l' ++ s) /\
    Permutation l l' /\ sorted lt l'.
(** A description which is true of an array. *)
Definition truthful {V} (lt : V -> V -> bool) (d : description) (r : list V) : Prop :=
  match d with
  | SortedUnique => increasing lt r
  | UnsortedNoDuplicates => NoDup r
  | SortedWithDuplicates => sorted lt r
  | UnsortedWithDuplicates => True
  end.
