(** What assimilate makes of arrays which are not what their description says. *)
From Coq Require Import List Permutation.
From Verif Require Import SortedSpec AoS.
Import ListNotations.
Set Implicit Arguments.

Section Spec.
Variable V : Type.
Variable lt : V -> V -> bool.

(** [x] occurs in [l] where it is larger than everything before it. *)
Definition new_maximum (l : list V) (x : V) : Prop :=
  exists before after, l = before ++ x :: after /\ Forall (fun y => lt y x = true) before.

(** The array [r'] which [r] becomes. *)
Definition turned (d : description) (r r' : list V) : Prop :=
  match d with
  | SortedUnique => r' = r
  | UnsortedNoDuplicates => Permutation r r' /\ sorted lt r'
  | SortedWithDuplicates => is_set lt r' (new_maximum r)
  | UnsortedWithDuplicates => is_set lt r' (fun x => In x r)
  end.

(** The arrays for which the result is a set, and the set it is. *)
Definition acceptable (d : description) (r : list V) : Prop :=
  match d with
  | SortedUnique => increasing lt r
  | UnsortedNoDuplicates => NoDup r
  | _ => True
  end.
Definition made_set (d : description) (r : list V) : V -> Prop :=
  match d with SortedWithDuplicates => new_maximum r | _ => fun x => In x r end.
End Spec.
