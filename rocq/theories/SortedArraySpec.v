(** What the calls on a SortedArray mean for a mathematical set (a predicate on values). *)
From Coq Require Import List Arith ZArith.
From Verif Require Import SortedSpec SortedArray.
Import ListNotations.
Set Implicit Arguments.
Unset Strict Implicit.

Section Spec.
Variable V : Type.
Variable lt : V -> V -> bool.

(** The range arguments have to be sorted and unique (SortedArray.hpp:239, 275). *)
Definition allowed (c : scall V) : Prop :=
  match c with SInsertRange vs | SRemoveRange vs => increasing lt vs | _ => True end.

Definition set_after (c : scall V) (S : V -> Prop) : V -> Prop :=
  match c with
  | SInsert v => fun x => x = v \/ S x
  | SInsertRange vs => fun x => In x vs \/ S x
  | SRemove v => fun x => S x /\ x <> v
  | SRemoveRange vs => fun x => S x /\ ~ In x vs
  | SClear => fun _ => False
  | SReserve _ => S
  end.
Definition set_of (h : list (scall V)) : V -> Prop := fold_left (fun S c => set_after c S) h (fun _ => False).

Definition cardinal (S : V -> Prop) (n : nat) : Prop :=
  exists l, NoDup l /\ (forall x, In x l <-> S x) /\ length l = n.

(** the returned value [r] of a call on a set with [n] elements which has [n'] afterwards *)
Definition counts (c : scall V) (n n' r : nat) : Prop :=
  match c with
  | SInsert _ | SInsertRange _ => n' = n + r
  | SRemove _ | SRemoveRange _ => n = n' + r
  | SClear | SReserve _ => r = 0
  end.
End Spec.
