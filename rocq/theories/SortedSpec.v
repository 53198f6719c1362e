(** Orders, sorted lists and finite sets as sorted lists. *)
From Coq Require Import List Arith.
From Verif Require Import Mem.
Import ListNotations.
Set Implicit Arguments.
Unset Strict Implicit.

Section Spec.
Variable V : Type.
Variable lt eqb : V -> V -> bool.

(** What is asked of a comparison function. *)
Record strict_weak_order : Prop := {
  swo_irr : forall x, lt x x = false;
  swo_trans : forall x y z, lt x y = true -> lt y z = true -> lt x z = true;
  swo_cotrans : forall x y z, lt x z = true -> lt x y = true \/ lt y z = true
}.
(** operator< and operator== of the same total order *)
Record total_order : Prop := {
  to_swo : strict_weak_order;
  to_total : forall x y, lt x y = false -> lt y x = false -> x = y;
  to_eq : forall x y, eqb x y = true <-> x = y
}.

(** no later element is less than an earlier one *)
Definition sorted (l : list V) : Prop :=
  forall i j x y, i < j -> nth_error l i = Some x -> nth_error l j = Some y -> lt y x = false.
(** every element is less than every later one *)
Definition increasing (l : list V) : Prop :=
  forall i j x y, i < j -> nth_error l i = Some x -> nth_error l j = Some y -> lt x y = true.

Definition number_less (l : list V) (v : V) : nat := length (filter (fun x => lt x v) l).

(** l' is the increasing list of the set described by S *)
Definition is_set (l' : list V) (S : V -> Prop) : Prop := increasing l' /\ forall x, In x l' <-> S x.
End Spec.

(** [b] is the expected buffer: exactly for element types with lifetimes; for trivial types only cells
    which hold a value are compared, the others are arbitrary bytes. *)
Definition is_buffer {V} (triv : bool) (b expected : buf V) : Prop :=
  if triv then length b = length expected /\
               forall i v, nth_error expected i = Some (Obj v) -> nth_error b i = Some (Obj v)
  else b = expected.
